(** C07 and C12: recognition and pasting of punctuators. *)

From Coq Require Import ZArith Bool List String Lia.
From Verif Require Import CTypes LexModel.
Import ListNotations.
Open Scope Z_scope.

(** ** Specification *)

(** The punctuators of C17 6.4.6. *)
Definition c17_punctuators : list (list Z) := map text [
  "["; "]"; "("; ")"; "{"; "}"; "."; "->"; "++"; "--"; "&"; "*"; "+"; "-"; "~"; "!";
  "/"; "%"; "<<"; ">>"; "<"; ">"; "<="; ">="; "=="; "!="; "^"; "|"; "&&"; "||";
  "?"; ":"; ";"; "..."; "="; "*="; "/="; "%="; "+="; "-="; "<<="; ">>="; "&="; "^="; "|=";
  ","; "#"; "##"; "<:"; ":>"; "<%"; "%>"; "%:"; "%:%:"]%string.

(** The punctuator tokens named after their meaning: spelling of each token. *)
Definition spelling (p : punct) : list Z :=
  text match p with
  | P_LEFT_BRACKET => "[" | P_RIGHT_BRACKET => "]" | P_LEFT_PARENTHESE => "(" | P_RIGHT_PARENTHESE => ")"
  | P_LEFT_BRACE => "{" | P_RIGHT_BRACE => "}" | P_DOT => "." | P_RIGHT_ARROW => "->"
  | P_DOUBLE_PLUS => "++" | P_DOUBLE_MINUS => "--" | P_AMPERSAND => "&" | P_STAR => "*"
  | P_PLUS => "+" | P_MINUS => "-" | P_TILDE => "~" | P_EXCLAMATION_MARK => "!"
  | P_SLASH => "/" | P_PERCENT => "%" | P_LEFT_SHIFT => "<<" | P_RIGHT_SHIFT => ">>"
  | P_LESS_THAN => "<" | P_GREATER_THAN => ">" | P_LESS_OR_EQUAL => "<=" | P_GREATER_OR_EQUAL => ">="
  | P_EQUAL => "==" | P_NOT_EQUAL => "!=" | P_CARET => "^" | P_VBAR => "|"
  | P_DOUBLE_AMPERSAND => "&&" | P_DOUBLE_VBAR => "||" | P_QUESTION_MARK => "?" | P_COLON => ":"
  | P_SEMICOLON => ";" | P_ELLIPSIS => "..." | P_ASSIGN => "=" | P_ASSIGN_MULTIPLY => "*="
  | P_ASSIGN_DIVIDE => "/=" | P_ASSIGN_MODULO => "%=" | P_ASSIGN_ADD => "+=" | P_ASSIGN_SUBTRACT => "-="
  | P_ASSIGN_SHIFT_LEFT => "<<=" | P_ASSIGN_SHIFT_RIGHT => ">>=" | P_ASSIGN_AND => "&=" | P_ASSIGN_XOR => "^="
  | P_ASSIGN_OR => "|=" | P_COMMA => "," | P_HASH => "#" | P_DOUBLE_HASH => "##"
  | P_DIGRAPH_LEFT_BRACKET => "<:" | P_DIGRAPH_RIGHT_BRACKET => ":>" | P_DIGRAPH_LEFT_BRACE => "<%"
  | P_DIGRAPH_RIGHT_BRACE => "%>" | P_DIGRAPH_HASH => "%:" | P_DIGRAPH_DOUBLE_HASH => "%:%:"
  end%string.

Lemma all_spellings : forall p, In (spelling p) c17_punctuators.
Proof.
  intro p. assert (E : existsb (fun w => if list_eq_dec Z.eq_dec w (spelling p) then true else false) c17_punctuators = true)
    by (destruct p; vm_compute; reflexivity).
  apply existsb_exists in E. destruct E as (w & H & E).
  destruct (list_eq_dec Z.eq_dec w (spelling p)) as [<-|]; [exact H|discriminate].
Qed.
Lemma spelling_onto : forall w, In w c17_punctuators -> exists p, spelling p = w.
Proof.
  intros w H. assert (E : c17_punctuators = map (fun x => spelling (fst x)) punctuators) by reflexivity.
  rewrite E in H. apply in_map_iff in H. destruct H as (x & <- & _). exists (fst x). reflexivity.
Qed.

(** [w] is the longest punctuator the text starts with. *)
Definition starts_with (s w : list Z) := exists r, s = w ++ r.
Definition longest_punctuator (s w : list Z) :=
  In w c17_punctuators /\ starts_with s w /\
  forall w', In w' c17_punctuators -> starts_with s w' -> (List.length w' <= List.length w)%nat.

(** ** Tries *)

Fixpoint node (t : trie) (w : list Z) : option trie :=
  match w with
  | [] => Some t
  | c :: r => match trie_at t c with None => None | Some v => node v r end
  end.
Definition val (t : trie) (w : list Z) : option punct :=
  match node t w with Some v => tvalue v | None => None end.
Definition path (t : trie) (w : list Z) : Prop := node t w <> None.

Lemma vertex_app : forall l k k' t, vertex (l ++ [(k, t)]) k' =
  match vertex l k' with Some v => Some v | None => if k =? k' then Some t else None end.
Proof. induction l as [|[a b] l IH]; intros; cbn; [reflexivity|]. destruct (a =? k'); auto. Qed.

Lemma vertex_set : forall l k k' t, vertex l k <> None ->
  vertex (set_vertex l k t) k' = if k =? k' then Some t else vertex l k'.
Proof.
  induction l as [|[a b] l IH]; intros k k' t H; cbn in *; [congruence|].
  destruct (a =? k) eqn:E; cbn.
  - apply Z.eqb_eq in E. subst a. destruct (k =? k'); reflexivity.
  - destruct (a =? k') eqn:E'.
    + apply Z.eqb_eq in E'. subst. rewrite Z.eqb_sym, E. reflexivity.
    + apply IH. exact H.
Qed.

Definition zlist_dec : forall a b : list Z, {a = b} + {a <> b} := list_eq_dec Z.eq_dec.

Lemma node_nil : forall w v, node (Trie None []) w = Some v -> w = [] /\ v = Trie None [].
Proof. intros [|c r] v H; cbn in H; [|discriminate]. injection H as <-. auto. Qed.

Lemma insert_spec : forall w t p t', insert_punct t w p = Some t' ->
  (forall x, path t' x <-> path t x \/ starts_with w x) /\
  (forall x, val t' x = if zlist_dec x w then Some p else val t x) /\ w <> [].
Proof.
  assert (step : forall t c v', let t' := match trie_at t c with
        | None => insert_vertex t c v' | Some _ => Trie (tvalue t) (set_vertex (tverts t) c v') end in
      (forall k, trie_at t' k = if c =? k then Some v' else trie_at t k) /\ tvalue t' = tvalue t).
  { intros t c v'. cbn zeta. destruct (trie_at t c) eqn:E.
    - split; [|reflexivity]. intro k. unfold trie_at. cbn [tverts]. apply vertex_set.
      unfold trie_at in E. congruence.
    - split; [|reflexivity]. intro k. unfold trie_at, insert_vertex. cbn [tverts]. rewrite vertex_app.
      unfold trie_at in E. destruct (c =? k) eqn:Ek.
      + apply Z.eqb_eq in Ek. subst k. rewrite E. reflexivity.
      + destruct (vertex (tverts t) k); reflexivity. }
  assert (wrap : forall t c r v' p,
      let t' := match trie_at t c with
        | None => insert_vertex t c v' | Some _ => Trie (tvalue t) (set_vertex (tverts t) c v') end in
      let v := match trie_at t c with None => Trie None [] | Some v => v end in
      (forall x, path v' x <-> path v x \/ starts_with r x) ->
      (forall x, val v' x = if zlist_dec x r then Some p else val v x) ->
      (forall x, path t' x <-> path t x \/ starts_with (c :: r) x) /\
      (forall x, val t' x = if zlist_dec x (c :: r) then Some p else val t x)).
  { intros t c r v' p t' v Hp Hv. destruct (step t c v') as [St Sv]. fold t' in St, Sv.
    split; intros [|k x].
    - unfold path. cbn. split; intros _; [left|]; congruence.
    - unfold path, starts_with. cbn [node]. rewrite St. destruct (c =? k) eqn:E.
      + apply Z.eqb_eq in E. subst k. fold (path v' x). rewrite Hp. unfold v.
        assert (A : starts_with r x <-> exists r0, c :: r = (c :: x) ++ r0).
        { split; intros [q Hq]; exists q; [rewrite Hq; reflexivity|injection Hq; auto]. }
        destruct (trie_at t c) as [v0|] eqn:Et.
        * fold (path v0 x). rewrite A. tauto.
        * rewrite A. split; [|intros [|]; [congruence|auto]]. intros [H|H]; [|auto].
          right. apply A. unfold path in H. destruct (node (Trie None []) x) eqn:En; [|congruence].
          apply node_nil in En. destruct En as [-> _]. exists r. reflexivity.
      + split; [auto|]. intros [H|[q Hq]]; [exact H|]. injection Hq as -> _. rewrite Z.eqb_refl in E. discriminate.
    - unfold val. cbn [node]. destruct (zlist_dec [] (c :: r)); [discriminate|]. exact Sv.
    - unfold val. cbn [node]. rewrite St. destruct (c =? k) eqn:E.
      + apply Z.eqb_eq in E. subst k. fold (val v' x). rewrite Hv.
        destruct (zlist_dec x r), (zlist_dec (c :: x) (c :: r)); try congruence.
        unfold v. destruct (trie_at t c) as [v0|] eqn:Et; [reflexivity|].
        unfold val. destruct (node (Trie None []) x) eqn:En; [|reflexivity].
        apply node_nil in En. destruct En as [_ ->]. reflexivity.
      + destruct (zlist_dec (k :: x) (c :: r)) as [Eq|]; [|reflexivity].
        injection Eq as -> _. rewrite Z.eqb_refl in E. discriminate. }
  assert (base : forall vs (p : punct) v, tverts v = vs ->
      (forall x, path (Trie (Some p) vs) x <-> path v x \/ starts_with [] x) /\
      (forall x, val (Trie (Some p) vs) x = if zlist_dec x [] then Some p else val v x)).
  { intros vs p v Ev. split; intros [|k x]; unfold path, val, starts_with; cbn [node].
    - split; [intros _; left; congruence|congruence].
    - unfold trie_at. cbn [tverts]. rewrite Ev. split; [auto|]. intros [H|[q Hq]]; [exact H|discriminate].
    - destruct (zlist_dec [] []); [reflexivity|congruence].
    - unfold trie_at. cbn [tverts]. rewrite Ev.
      destruct (zlist_dec (k :: x) []); [discriminate|reflexivity]. }
  induction w as [|c r IH]; intros t p t' H; [discriminate|].
  destruct r as [|c2 r].
  - cbn [insert_punct] in H. specialize (wrap t c []).
    destruct (trie_at t c) as [v|] eqn:E.
    + destruct (tvalue v); [discriminate|]. injection H as <-.
      destruct (base (tverts v) p v eq_refl) as [B1 B2].
      destruct (wrap _ p B1 B2) as [W1 W2]. split; [exact W1|]. split; [exact W2|discriminate].
    + injection H as <-. destruct (base [] p (Trie None []) eq_refl) as [B1 B2].
      destruct (wrap _ p B1 B2) as [W1 W2]. split; [exact W1|]. split; [exact W2|discriminate].
  - change (insert_punct t (c :: c2 :: r) p) with
      (match trie_at t c with
       | None => option_map (insert_vertex t c) (insert_punct (Trie None []) (c2 :: r) p)
       | Some v => option_map (fun v' => Trie (tvalue t) (set_vertex (tverts t) c v')) (insert_punct v (c2 :: r) p)
       end) in H.
    specialize (wrap t c (c2 :: r)).
    destruct (trie_at t c) as [v|] eqn:E.
    + destruct (insert_punct v (c2 :: r) p) as [v'|] eqn:Ei; [|discriminate]. injection H as <-.
      destruct (IH _ _ _ Ei) as (B1 & B2 & _). destruct (wrap _ p B1 B2) as [W1 W2].
      split; [exact W1|]. split; [exact W2|discriminate].
    + destruct (insert_punct (Trie None []) (c2 :: r) p) as [v'|] eqn:Ei; [|discriminate]. injection H as <-.
      destruct (IH _ _ _ Ei) as (B1 & B2 & _). destruct (wrap _ p B1 B2) as [W1 W2].
      split; [exact W1|]. split; [exact W2|discriminate].
Qed.

Lemma insert_all_spec : forall l t t', insert_all t l = Some t' ->
  (forall x, path t' x <-> path t x \/ exists p w, In (p, w) l /\ starts_with w x) /\
  (forall x p, val t' x = Some p -> val t x = Some p \/ In (p, x) l) /\
  (forall x p, In (p, x) l -> val t' x <> None) /\
  (forall x, val t x <> None -> val t' x <> None).
Proof.
  induction l as [|[p w] l IH]; intros t t' H.
  - injection H as <-. split; [|split; [|split]]; auto.
    intro x. split; [auto|]. intros [Hx|(p & w & [] & _)]. exact Hx.
  - cbn [insert_all] in H. destruct (insert_punct t w p) as [t1|] eqn:E; [|discriminate].
    destruct (insert_spec _ _ _ _ E) as (S1 & S2 & S3). destruct (IH _ _ H) as (I1 & I2 & I3 & I4).
    split; [|split; [|split]].
    + intro x. rewrite I1, S1. split.
      * intros [[?|?]|(p' & w' & ? & ?)]; [auto|right; exists p, w; cbn; auto|right; exists p', w'; cbn; auto].
      * intros [?|(p' & w' & [Eq|?] & ?)]; [auto| |right; eauto].
        injection Eq as -> ->. auto.
    + intros x q Hq. apply I2 in Hq. rewrite S2 in Hq. destruct Hq as [Hq|Hq]; [|cbn; auto].
      destruct (zlist_dec x w) as [->|]; [|auto]. injection Hq as ->. cbn. auto.
    + intros x q [Eq|Hq]; [|eapply I3; eauto]. injection Eq as -> ->. apply I4. rewrite S2.
      destruct (zlist_dec x x); congruence.
    + intros x Hx. apply I4. rewrite S2. destruct (zlist_dec x w); congruence.
Qed.

(** The trie built at start-up. *)
Definition the_trie : trie := match punct_trie with Some t => t | None => Trie None [] end.
Lemma trie_built : punct_trie = Some the_trie.
Proof. vm_compute. reflexivity. Qed.

Lemma table_spellings : forall p w, In (p, w) punctuators <-> w = spelling p.
Proof.
  assert (A : forall x, In x punctuators -> snd x = spelling (fst x)).
  { assert (F : Forall (fun x => snd x = spelling (fst x)) punctuators) by (repeat constructor).
    apply Forall_forall. exact F. }
  intros p w. split.
  - intro H. apply (A _ H).
  - intros ->.
    assert (E : existsb (fun x => punct_beq (fst x) p) punctuators = true) by (destruct p; vm_compute; reflexivity).
    apply existsb_exists in E. destruct E as (x & H & E). apply internal_punct_dec_bl in E. subst p.
    rewrite <- (A _ H). destruct x. exact H.
Qed.

Lemma trie_path : forall x, path the_trie x <-> exists p, starts_with (spelling p) x.
Proof.
  intro x. destruct (insert_all_spec _ _ _ trie_built) as (H & _). rewrite H. split.
  - intros [Hp|(p & w & Hi & Hs)].
    + unfold path in Hp. destruct (node (Trie None []) x) eqn:En; [|congruence].
      apply node_nil in En. destruct En as [-> _]. exists P_DOT. exists (spelling P_DOT). reflexivity.
    + apply table_spellings in Hi. subst w. eauto.
  - intros [p Hs]. right. exists p, (spelling p). split; [apply table_spellings; reflexivity|exact Hs].
Qed.

Lemma trie_val : forall x p, val the_trie x = Some p <-> x = spelling p.
Proof.
  destruct (insert_all_spec _ _ _ trie_built) as (_ & H1 & H2 & _).
  assert (A : forall x p, val the_trie x = Some p -> x = spelling p).
  { intros x p H. apply H1 in H. destruct H as [H|H]; [|apply table_spellings; exact H].
    unfold val in H. destruct (node (Trie None []) x) eqn:En; [|discriminate].
    apply node_nil in En. destruct En as [_ ->]. discriminate. }
  intros x p. split; [apply A|]. intros ->.
  specialize (H2 (spelling p) p (proj2 (table_spellings _ _) eq_refl)).
  destruct (val the_trie (spelling p)) as [q|] eqn:E; [|congruence].
  pose proof (A _ _ E) as Eq. clear -Eq. f_equal.
  destruct p, q; try reflexivity; exfalso; vm_compute in Eq; discriminate.
Qed.

(** ** Matching *)

Opaque the_trie.

Lemma node_app : forall x y t, node t (x ++ y) = match node t x with Some v => node v y | None => None end.
Proof. induction x; intros; [reflexivity|]. cbn. destruct (trie_at t a); [apply IHx|reflexivity]. Qed.

Lemma match_loop_spec : forall s t, (forall x, node t (x ++ [0]) = None) ->
  match match_loop t s with
  | PNotFound => match s with [] => True | c :: _ => trie_at t c = None end
  | PNoMatch => exists x r, s = x ++ r /\ x <> [] /\ path t x /\ val t x = None /\
                (forall c r', r = c :: r' -> ~ path t (x ++ [c]))
  | POk p n => exists x r, s = x ++ r /\ n = List.length x /\ x <> [] /\ val t x = Some p /\
                (forall c r', r = c :: r' -> ~ path t (x ++ [c]))
  end.
Proof.
  induction s as [|c s IH]; intros t Ht; cbn [match_loop].
  - pose proof (Ht []) as H. cbn in H. destruct (trie_at t 0); [discriminate|exact I].
  - destruct (trie_at t c) as [v|] eqn:E; [|reflexivity].
    assert (Hv : forall x, node v (x ++ [0]) = None).
    { intro x. specialize (Ht (c :: x)). cbn in Ht. rewrite E in Ht. exact Ht. }
    specialize (IH v Hv). destruct (match_loop v s) as [| |p n].
    + assert (N : forall c0 r', s = c0 :: r' -> ~ path t ([c] ++ [c0])).
      { intros c0 r' ->. unfold path. cbn. rewrite E, IH. congruence. }
      destruct (tvalue v) as [p|] eqn:Ev.
      * exists [c], s. unfold val. cbn. rewrite E. repeat split; auto; congruence.
      * exists [c], s. unfold val. unfold path at 1. cbn [node]. rewrite E. repeat split; auto; congruence.
    + destruct IH as (x & r & -> & Hx & Hp & Hval & Hm). exists (c :: x), r.
      unfold val, path in *. cbn [node app]. rewrite E. repeat split; auto. congruence.
    + destruct IH as (x & r & -> & -> & Hx & Hval & Hm). exists (c :: x), r.
      unfold val, path in *. cbn [node app]. rewrite E. repeat split; auto. congruence.
Qed.

Lemma no_zero : forall x, node the_trie (x ++ [0]) = None.
Proof.
  intro x. destruct (node the_trie (x ++ [0])) eqn:E; [|reflexivity].
  assert (P : path the_trie (x ++ [0])) by (unfold path; congruence).
  apply trie_path in P. destruct P as (p & r & Hr).
  assert (I : In 0 (spelling p)). { rewrite Hr, in_app_iff, in_app_iff. cbn. auto. }
  exfalso. clear -I. destruct p; cbn in I; repeat (destruct I as [I|I]; [discriminate|]); exact I.
Qed.

Lemma path_prefix : forall x y, path the_trie (x ++ y) -> path the_trie x.
Proof.
  intros x y H. unfold path in *. rewrite node_app in H. destruct (node the_trie x); congruence.
Qed.

(** A spelling the text starts with that is longer than [x] extends [x] by the next character. *)
Lemma longer_extends : forall x r w, starts_with (x ++ r) w -> (List.length x < List.length w)%nat ->
  exists c r' w', r = c :: r' /\ w = (x ++ [c]) ++ w'.
Proof.
  induction x as [|a x IH]; intros r w [q Hq] Hl.
  - destruct w as [|c w]; [cbn in Hl; lia|]. cbn in Hq. subst r. exists c, (w ++ q), w. auto.
  - destruct w as [|b w]; [cbn in Hl; lia|]. cbn in Hq. injection Hq as <- Hq.
    destruct (IH r w) as (c & r' & w' & H1 & H2); [exists q; exact Hq|cbn in Hl; lia|].
    exists c, r', w'. split; [exact H1|]. rewrite H2. reflexivity.
Qed.

(** ** C07 *)

(** What is recognised is the longest punctuator, and exactly its spelling is consumed. *)
Theorem c07_maximal_munch : forall s p r, match_punctuator s = Some (p, r) ->
  s = spelling p ++ r /\ longest_punctuator s (spelling p).
Proof.
  intros s p r H. unfold match_punctuator in H. rewrite trie_built in H.
  pose proof (match_loop_spec s the_trie no_zero) as M.
  destruct (match_loop the_trie s) as [| |p' n]; try discriminate. injection H as -> <-.
  destruct M as (x & r & -> & -> & Hx & Hv & Hm). apply trie_val in Hv. subst x.
  assert (E : skipn (List.length (spelling p)) (spelling p ++ r) = r).
  { rewrite skipn_app, skipn_all, Nat.sub_diag. reflexivity. }
  rewrite E. split; [reflexivity|]. split; [apply all_spellings|]. split; [exists r; reflexivity|].
  intros w' Hw Hs. destruct (spelling_onto _ Hw) as [q <-].
  destruct (Nat.le_gt_cases (List.length (spelling q)) (List.length (spelling p))) as [L|L]; [exact L|].
  exfalso. destruct (longer_extends _ _ _ Hs L) as (c & r' & w' & H1 & H2).
  apply (Hm _ _ H1). apply trie_path. exists q, w'. exact H2.
Qed.

(** Full statement: some punctuator is a prefix -> one is recognised.  It is false of the
    code for the two dead ends below; apart from these it holds. *)
Definition dead_end (s : list Z) : Prop :=
  (exists r, s = text ".." ++ r /\ hd 0 r <> 46) \/
  (exists r, s = text "%:%" ++ r /\ hd 0 r <> 58).

Definition prefix_ok (x : list Z) : bool :=
  match x with [] => true | _ =>
    if zlist_dec x (text "..") then true else if zlist_dec x (text "%:%") then true else
    if in_dec zlist_dec x c17_punctuators then true else false end.
Lemma in_all : forall p, In p (map fst punctuators).
Proof.
  intro p. apply in_map_iff. exists (p, spelling p). split; [reflexivity|]. apply table_spellings. reflexivity.
Qed.
Lemma prefix_ok_all : forall p n, (n <= 4)%nat -> prefix_ok (firstn n (spelling p)) = true.
Proof.
  assert (C : forallb (fun p => forallb (fun n => prefix_ok (firstn n (spelling p))) (seq 0 5))
                      (map fst punctuators) = true) by (vm_compute; reflexivity).
  intros p n Hn. rewrite forallb_forall in C. specialize (C p (in_all p)).
  rewrite forallb_forall in C. apply C. apply in_seq. lia.
Qed.

Lemma proper_prefixes : forall p x, starts_with (spelling p) x -> val the_trie x = None -> x <> [] ->
  x = text ".." \/ x = text "%:%".
Proof.
  intros p x [r Hr] Hv Hx.
  assert (L : (List.length (spelling p) <= 4)%nat) by (destruct p; cbn; lia).
  assert (F : firstn (List.length x) (spelling p) = x).
  { rewrite Hr, firstn_app, Nat.sub_diag, firstn_all. cbn. apply app_nil_r. }
  assert (Lx : (List.length x <= 4)%nat). { rewrite Hr, app_length in L. lia. }
  pose proof (prefix_ok_all p _ Lx) as O. rewrite F in O. unfold prefix_ok in O.
  destruct x as [|a x]; [congruence|].
  destruct (zlist_dec (a :: x) (text "..")) as [->|]; [auto|].
  destruct (zlist_dec (a :: x) (text "%:%")) as [->|]; [auto|].
  destruct (in_dec zlist_dec (a :: x) c17_punctuators) as [I|]; [|discriminate].
  apply spelling_onto in I. destruct I as [q Hq]. symmetry in Hq. apply trie_val in Hq. congruence.
Qed.

Theorem c07_recognised_partial : forall s w, In w c17_punctuators -> starts_with s w -> ~ dead_end s ->
  exists p r, match_punctuator s = Some (p, r).
Proof.
  intros s w Hw Hs Hd. unfold match_punctuator. rewrite trie_built.
  pose proof (match_loop_spec s the_trie no_zero) as M.
  destruct (match_loop the_trie s) as [| |p n].
  - exfalso. destruct (spelling_onto _ Hw) as [q <-]. destruct Hs as [r ->].
    assert (P : path the_trie (spelling q)). { apply trie_path. exists q, []. rewrite app_nil_r. reflexivity. }
    destruct (spelling q) as [|c x] eqn:E; [destruct q; discriminate|].
    cbn in M. unfold path in P. cbn [node] in P. rewrite M in P. congruence.
  - exfalso. destruct M as (x & r & -> & Hx & Hp & Hv & Hm). apply Hd.
    pose proof Hp as Hp'. apply trie_path in Hp'. destruct Hp' as [q Hq].
    destruct (proper_prefixes _ _ Hq Hv Hx) as [-> | ->]; [left|right]; exists r; (split; [reflexivity|]);
      clear Hv Hp; (destruct r as [|c r]; [cbn; clear; discriminate|]);
      cbn [hd]; intros ->; apply (Hm _ _ eq_refl); apply (proj2 (trie_path _)).
    + exists P_ELLIPSIS, []. reflexivity.
    + exists P_DIGRAPH_DOUBLE_HASH, []. reflexivity.
  - eauto.
Qed.

(** In the dead ends nothing is recognised, though "." or "%:" is a prefix. *)
Theorem c07_dead_end : forall s, dead_end s -> match_punctuator s = None.
Proof.
  intros s H. unfold match_punctuator. rewrite trie_built.
  pose proof (match_loop_spec s the_trie no_zero) as M.
  destruct (match_loop the_trie s) as [| |p n]; [reflexivity|reflexivity|].
  exfalso. destruct M as (x & r & Hs & _ & Hx & Hv & Hm). apply trie_val in Hv.
  destruct H as [(q & -> & Hq)|(q & -> & Hq)].
  - destruct p; cbn in Hv; subst x; cbn in Hs; try discriminate.
    + injection Hs as <-. apply (Hm _ _ eq_refl). apply (proj2 (trie_path _)). exists P_ELLIPSIS, [46]. reflexivity.
    + injection Hs as ->. apply Hq. reflexivity.
  - destruct p; cbn in Hv; subst x; cbn in Hs; try discriminate.
    + injection Hs as <-. apply (Hm _ _ eq_refl). apply (proj2 (trie_path _)). exists P_DIGRAPH_DOUBLE_HASH, [37; 58]. reflexivity.
    + injection Hs as <-. apply (Hm _ _ eq_refl). apply (proj2 (trie_path _)). exists P_DIGRAPH_DOUBLE_HASH, [58]. reflexivity.
    + injection Hs as ->. apply Hq. reflexivity.
Qed.

(** So the full completeness claim is false of the code. *)
Theorem c07_recognised_refuted : exists s w, In w c17_punctuators /\ starts_with s w /\ match_punctuator s = None.
Proof.
  exists (text "..a"), (text "."). split; [cbn; tauto|]. split; [|vm_compute; reflexivity].
  exists (text ".a"). reflexivity.
Qed.

Example c07_example : match_punctuator (text "<<=x") = Some (P_ASSIGN_SHIFT_LEFT, text "x") /\
  match_punctuator (text "+++b") = Some (P_DOUBLE_PLUS, text "+b") /\
  match_punctuator (text "x") = None /\ ~ dead_end (text "<<=x").
Proof.
  split; [vm_compute; reflexivity|]. split; [vm_compute; reflexivity|]. split; [vm_compute; reflexivity|].
  intros [(r & H & _)|(r & H & _)]; discriminate.
Qed.

(** ** C12 *)

Theorem c12_paste : forall a b r,
  concat_punctuators a b = Some r <-> spelling r = spelling a ++ spelling b.
Proof.
  assert (A : forall a b, match concat_punctuators a b with
     | Some r => spelling r = spelling a ++ spelling b
     | None => existsb (fun w => if zlist_dec w (spelling a ++ spelling b) then true else false) c17_punctuators = false
     end).
  { assert (C : forallb (fun a => forallb (fun b => match concat_punctuators a b with
       | Some r => if zlist_dec (spelling r) (spelling a ++ spelling b) then true else false
       | None => negb (existsb (fun w => if zlist_dec w (spelling a ++ spelling b) then true else false) c17_punctuators)
       end) (map fst punctuators)) (map fst punctuators) = true) by (vm_compute; reflexivity).
    intros a b. rewrite forallb_forall in C. specialize (C a (in_all a)).
    rewrite forallb_forall in C. specialize (C b (in_all b)). cbv beta in C.
    destruct (concat_punctuators a b) as [r|].
    - destruct (zlist_dec (spelling r) (spelling a ++ spelling b)); [assumption|discriminate].
    - apply negb_true_iff. exact C. }
  intros a b r. specialize (A a b). destruct (concat_punctuators a b) as [q|].
  - split; [intro H; injection H as <-; exact A|]. intro H. f_equal.
    rewrite <- A in H. assert (I : val the_trie (spelling q) = Some r) by (apply trie_val; congruence).
    assert (J : val the_trie (spelling q) = Some q) by (apply trie_val; reflexivity). congruence.
  - split; [discriminate|]. intro H. exfalso.
    assert (T : existsb (fun w => if zlist_dec w (spelling a ++ spelling b) then true else false) c17_punctuators = true).
    { apply existsb_exists. exists (spelling r). split; [apply all_spellings|].
      destruct (zlist_dec (spelling r) (spelling a ++ spelling b)); congruence. }
    congruence.
Qed.

Theorem c12_paste_fails : forall a b,
  concat_punctuators a b = None <-> ~ In (spelling a ++ spelling b) c17_punctuators.
Proof.
  intros a b. destruct (concat_punctuators a b) as [r|] eqn:E.
  - apply c12_paste in E. split; [discriminate|]. intro H. exfalso. apply H. rewrite <- E. apply all_spellings.
  - split; [|reflexivity]. intros _ H. apply spelling_onto in H. destruct H as [r Hr].
    apply c12_paste in Hr. congruence.
Qed.

Example c12_example : concat_punctuators P_LESS_THAN P_LESS_OR_EQUAL = Some P_ASSIGN_SHIFT_LEFT /\
  concat_punctuators P_PLUS P_MINUS = None.
Proof. split; reflexivity. Qed.

Print Assumptions c07_maximal_munch.
Print Assumptions c07_recognised_partial.
Print Assumptions c07_dead_end.
Print Assumptions c07_recognised_refuted.
Print Assumptions c12_paste.
Print Assumptions c12_paste_fails.
