(** Proofs about MacroModel.v for object-like macros. *)

From Coq Require Import Bool List String Arith Lia Wellfounded Relation_Operators Operators_Properties.
From Verif Require Import LexModel PropPunct MacroModel MacroSpec.
Import ListNotations.
Open Scope string_scope.
Open Scope list_scope.

Notation len := List.length.

(** ** White space *)

Lemma skip_ws_split : forall l, exists s, l = s ++ skip_ws l /\ spaces s.
Proof.
  induction l as [|t l IH]; [exists []; split; [reflexivity|intros t []]|].
  simpl. destruct (is_ws t) eqn:E.
  - destruct IH as (s & H & A). exists (t :: s). split; [simpl; f_equal; exact H|].
    intros u [->|I]; auto.
  - exists []. split; [reflexivity|intros u []].
Qed.
Lemma skip_ws_spaces : forall s l, spaces s -> skip_ws (s ++ l) = skip_ws l.
Proof.
  induction s as [|t s IH]; intros l H; [reflexivity|]. simpl.
  rewrite (H t (or_introl eq_refl)). apply IH. intros u I. apply H. right. exact I.
Qed.
Lemma skip_ws_head : forall l t r, skip_ws l = t :: r -> is_ws t = false.
Proof.
  induction l as [|u l IH]; intros t r H; [discriminate|]. simpl in H. destruct (is_ws u) eqn:E; [eauto|].
  injection H as <- _. exact E.
Qed.
Lemma skip_ws_len : forall l, len (skip_ws l) <= len l.
Proof. induction l as [|t l IH]; simpl; [lia|]. destruct (is_ws t); simpl; lia. Qed.
Lemma skip_ws_app : forall l t r m, skip_ws l = t :: r -> skip_ws (l ++ m) = t :: r ++ m.
Proof.
  induction l as [|u l IH]; intros t r m H; [discriminate|]. simpl in *. destruct (is_ws u); [auto|].
  injection H as -> ->. reflexivity.
Qed.

(** ** Replacement lists without parameters *)

Lemma concat_joins : forall t u v, source_token t -> source_token u -> concat_impl t u = Some v ->
  joins t u v /\ source_token v /\ is_ws u = false.
Proof.
  intros t u v Ht Hu H. destruct t; destruct u; simpl in *; try discriminate; try contradiction;
    try (injection H as <-; split; [constructor|split; [reflexivity || exact I|reflexivity]]).
  destruct (concat_punctuators p p0) as [r|] eqn:E; [|discriminate]. injection H as <-.
  apply c12_paste in E. split; [constructor; exact E|split; [exact I|reflexivity]].
Qed.
Lemma joins_concat : forall t u v, joins t u v -> concat_impl t u = Some v.
Proof.
  intros t u v H. destruct H; try reflexivity. simpl. apply c12_paste in H. rewrite H. reflexivity.
Qed.
Lemma joins_source : forall t u v, joins t u v -> source_token v.
Proof. intros t u v []; simpl; auto. Qed.

Lemma match_none : forall x seq, is_ws x = false -> match_concatenation None x seq =
  match skip_ws seq with
  | TPunct P_DOUBLE_HASH :: r =>
    match skip_ws r with
    | [] => Some None
    | y :: r => Some (option_map (fun v => v :: r) (concat_impl x y))
    end
  | _ => None
  end.
Proof.
  intros x seq E. unfold match_concatenation. rewrite E.
  destruct (skip_ws seq) as [|[| |p| | | | |] r]; try reflexivity. destruct p; try reflexivity.
  destruct (skip_ws r) as [|y r']; [reflexivity|]. unfold macro_concatenation, resolve_left, resolve_right, param. simpl.
  destruct (concat_impl x y); reflexivity.
Qed.

(** The three cases of one iteration. *)
Lemma match_cases : forall x seq, source (x :: seq) ->
  match match_concatenation None x seq with
  | None => is_ws x = false -> forall s r, spaces s -> seq <> s ++ TPunct P_DOUBLE_HASH :: r
  | Some None => True
  | Some (Some l) => exists s1 s2 u v r, is_ws x = false /\ is_ws u = false /\ spaces s1 /\ spaces s2 /\ joins x u v /\
      seq = s1 ++ TPunct P_DOUBLE_HASH :: s2 ++ u :: r /\ l = v :: r /\ source l
  end.
Proof.
  intros x seq Hs. destruct (is_ws x) eqn:E.
  { unfold match_concatenation. rewrite E. discriminate. }
  rewrite (match_none _ _ E). destruct (skip_ws_split seq) as (s1 & Es & Ss).
  pose proof (Forall_inv Hs) as Hx. pose proof (Forall_inv_tail Hs) as Hq.
  assert (K : forall s r, spaces s -> seq = s ++ TPunct P_DOUBLE_HASH :: r -> skip_ws seq = TPunct P_DOUBLE_HASH :: r).
  { intros s r A ->. rewrite (skip_ws_spaces _ _ A). reflexivity. }
  destruct (skip_ws seq) as [|[| |p| | | | |] r] eqn:W;
    try (intros _ s0 r0 A B; specialize (K s0 r0 A B); discriminate).
  destruct (punct_eq_dec p P_DOUBLE_HASH) as [->|N].
  2: { destruct p; try congruence; intros _ s0 r0 A B; specialize (K s0 r0 A B); discriminate. }
  destruct (skip_ws_split r) as (s2 & Er & Sr).
  destruct (skip_ws r) as [|u r'] eqn:W2; [exact I|].
  assert (Hr : source (u :: r')).
  { unfold source in *. rewrite Es in Hq. apply Forall_app in Hq. destruct Hq as [_ Hq].
    apply Forall_inv_tail in Hq. rewrite Er in Hq. apply Forall_app in Hq. tauto. }
  pose proof (Forall_inv Hr) as Hu. pose proof (Forall_inv_tail Hr) as Hr'.
  destruct (concat_impl x u) as [v|] eqn:C; [|exact I]. simpl.
  destruct (concat_joins _ _ _ Hx Hu C) as (J & Sv & Wu).
  exists s1, s2, u, v, r'. split; [reflexivity|]. repeat (split; [assumption|]). split; [rewrite <- Er; exact Es|].
  split; [reflexivity|]. constructor; assumption.
Qed.

Section Replace.
Variable fmt : list tok -> string.
Notation replace := (replace fmt).

Lemma replace_none : forall f x seq, replace (S f) None (x :: seq) =
  match match_concatenation None x seq with
  | Some None => Err
  | Some (Some s) => replace f None s
  | None => bind (replace f None seq) (fun r => Ok (x :: r))
  end.
Proof. reflexivity. Qed.

Lemma replace_pastes : forall f l r, source l -> replace f None l = Ok r -> pastes l r /\ source r.
Proof.
  induction f as [|f IH]; intros l r Hs H; [discriminate|]. destruct l as [|x l].
  { simpl in H. injection H as <-. split; constructor. }
  rewrite replace_none in H. pose proof (match_cases x l Hs) as M.
  destruct (match_concatenation None x l) as [[l1|]|]; [|discriminate|].
  - destruct M as (s1 & s2 & u & v & r' & A & B & C & D & J & -> & -> & S1).
    destruct (IH _ _ S1 H) as [P Q]. split; [|exact Q]. eapply P_join; eassumption.
  - inversion Hs; subst. destruct (replace f None l) as [r'| |] eqn:E; try discriminate. injection H as <-.
    destruct (IH _ _ H3 E) as [P Q]. split; [constructor; assumption|]. constructor; assumption.
Qed.

Lemma pastes_replace : forall l r, pastes l r -> source l -> forall f, len l < f -> replace f None l = Ok r.
Proof.
  induction 1 as [|t l l' N P IH|t s1 s2 u v l l' Wt Wu S1 S2 J P IH]; intros Hs f Hf.
  - destruct f; [simpl in Hf; lia|]. reflexivity.
  - destruct f as [|f]; [simpl in Hf; lia|]. rewrite replace_none.
    pose proof (match_cases t l Hs) as M. inversion Hs; subst.
    destruct (is_ws t) eqn:E.
    + unfold match_concatenation in *. rewrite E in *. rewrite IH; [reflexivity|assumption|simpl in Hf; lia].
    + rewrite (match_none _ _ E) in *.
      assert (K : match skip_ws l with TPunct P_DOUBLE_HASH :: _ => False | _ => True end).
      { destruct (skip_ws_split l) as (s & El & Sl).
        destruct (skip_ws l) as [|[| |p| | | | |] r]; try exact I. destruct p; try exact I.
        exact (N eq_refl s r Sl El). }
      destruct (skip_ws l) as [|[| |p| | | | |] r]; try (rewrite IH; [reflexivity|assumption|simpl in Hf; lia]).
      destruct p; try (rewrite IH; [reflexivity|assumption|simpl in Hf; lia]). contradiction.
  - destruct f as [|f]; [simpl in Hf; lia|]. rewrite replace_none, (match_none _ _ Wt).
    rewrite (skip_ws_spaces _ _ S1). cbn [skip_ws is_ws]. rewrite (skip_ws_spaces _ _ S2). cbn [skip_ws].
    rewrite Wu, (joins_concat _ _ _ J). cbn [option_map]. apply IH.
    + unfold source in *. inversion Hs; subst. apply Forall_app in H2. destruct H2 as [_ H2].
      inversion H2; subst. apply Forall_app in H4. destruct H4 as [_ H4]. inversion H4; subst.
      constructor; [eapply joins_source; eassumption|assumption].
    + simpl in Hf |- *. rewrite app_length in Hf. simpl in Hf. rewrite app_length in Hf. simpl in Hf. lia.
Qed.
Lemma pastes_total_or : forall l, source l -> (exists r, pastes l r) \/ forall f, len l < f -> replace f None l = Err.
Proof.
  intro l. remember (len l) as n eqn:Hn. revert l Hn. induction n as [n IHn] using lt_wf_ind. intros l Hn Hs.
  destruct l as [|x l]; [left; exists []; constructor|].
  pose proof (match_cases x l Hs) as M. pose proof (replace_none) as RN.
  destruct (match_concatenation None x l) as [[l1|]|] eqn:E.
  - destruct M as (s1 & s2 & u & v & r' & A & B & C & D & J & -> & -> & S1).
    destruct (IHn (len (v :: r'))) with (l := v :: r') as [[r P]|P]; auto.
    { subst n. simpl. rewrite app_length. simpl. rewrite app_length. simpl. lia. }
    + left. exists r. eapply P_join; eassumption.
    + right. intros f Hf. destruct f as [|f]; [lia|]. rewrite RN, E. apply P.
      subst n. simpl in Hf |- *. rewrite app_length in Hf. simpl in Hf. rewrite app_length in Hf. simpl in Hf. lia.
  - right. intros f Hf. destruct f as [|f]; [lia|]. rewrite RN, E. reflexivity.
  - inversion Hs; subst. destruct (IHn (len l)) with (l := l) as [[r P]|P]; auto.
    + left. exists (x :: r). constructor; assumption.
    + right. intros f Hf. destruct f as [|f]; [lia|]. rewrite RN, E, P; [reflexivity|simpl in Hf; lia].
Qed.
Lemma replace_small : forall f l r, source l -> replace f None l = Ok r -> forall g, len l < g -> replace g None l = Ok r.
Proof. intros f l r Hs H g Hg. apply replace_pastes in H; [|exact Hs]. apply pastes_replace; tauto. Qed.

End Replace.

Lemma pastes_fun : forall l r r', source l -> pastes l r -> pastes l r' -> r = r'.
Proof.
  intros l r r' Hs A B. pose proof (pastes_replace (fun _ => "") _ _ A Hs (S (len l)) (Nat.lt_succ_diag_r _)).
  pose proof (pastes_replace (fun _ => "") _ _ B Hs (S (len l)) (Nat.lt_succ_diag_r _)). congruence.
Qed.
Lemma pastes_source : forall l r, source l -> pastes l r -> source r.
Proof.
  intros l r Hs A. pose proof (pastes_replace (fun _ => "") _ _ A Hs (S (len l)) (Nat.lt_succ_diag_r _)) as H.
  apply replace_pastes in H; tauto.
Qed.

(** ** Expansion with object-like macros *)

Section Object.
Variable fmt : list tok -> string.
Variable defs : list (string * macro).
Variable cond : bool.
Notation run := (run fmt defs).

(** Every definition is object-like, with a replacement list from the source; no
    replacement contains a defined operator if an #if is expanded. *)
Definition objects : Prop := forall s m, locate defs s = Some m -> exists body, m = MObj body /\ source body.
Definition no_defined (l : list tok) : Prop := forall b, ~ In (TId "defined" b) l.
Definition plain : Prop := cond = true -> forall s body body', locate defs s = Some (MObj body) ->
  pastes body body' -> no_defined body'.
Hypothesis Hobj : objects.
Hypothesis Hplain : plain.

Definition applied (s : string) (a : list tok) : Prop :=
  exists body body', locate defs s = Some (MObj body) /\ pastes body body' /\ a = finish s body'.
Definition active (b : bool) : Prop := b = false \/ cond = true.

Inductive kexp : list tok -> list tok -> Prop :=
  | K_nil : kexp [] []
  | K_tok : forall t r r', (forall s b, t <> TId s b) -> kexp r r' -> kexp (t :: r) (t :: r')
  | K_skip : forall s r r', cond = false -> kexp r r' -> kexp (TId s true :: r) (TId s true :: r')
  | K_free : forall s b r r', active b -> locate defs s = None -> (cond = true -> s <> "defined") ->
      kexp r r' -> kexp (TId s b :: r) ((if cond then TNum "0" else TId s b) :: r')
  | K_defined : forall b r r1 r', cond = true -> defined_operator defs r = Some r1 -> kexp r1 r' ->
      kexp (TId "defined" b :: r) r'
  | K_replace : forall s b a r l r', active b -> (cond = true -> s <> "defined") -> applied s a ->
      kexp a l -> kexp r r' -> kexp (TId s b :: r) (l ++ r').

Lemma finish_source : forall s l, source l -> finish s l = map (mark s) l.
Proof.
  intros s l H. unfold finish. induction H as [|t l Ht Hl IH]; [reflexivity|]. simpl.
  rewrite IH. destruct t; try reflexivity. contradiction.
Qed.
Lemma finish_in : forall s l x b, source l -> In (TId x b) (finish s l) ->
  In (TId x false) l /\ b = String.eqb x s.
Proof.
  intros s l x b H I. rewrite (finish_source _ _ H) in I. apply in_map_iff in I. destruct I as (t & E & I).
  pose proof (proj1 (Forall_forall _ _) H t I) as S. destruct t; try discriminate. simpl in *. subst.
  injection E as <- <-. split; [exact I|]. destruct (s0 =? s); reflexivity.
Qed.
Lemma applied_no_defined : forall s a, cond = true -> applied s a -> no_defined a.
Proof.
  intros s a C (body & body' & L & P & ->) b I.
  destruct (Hobj _ _ L) as (bd & E & S). injection E as <-.
  apply finish_in in I; [|eapply pastes_source; eassumption]. destruct I as [I _].
  exact (Hplain C _ _ _ L P false I).
Qed.

(** A sequence expands piece by piece. *)
Lemma kexp_split : forall l res, kexp l res -> forall a b, l = a ++ b -> (cond = true -> no_defined a) ->
  exists ra rb, res = ra ++ rb /\ kexp a ra /\ kexp b rb.
Proof.
  induction 1 as [|t r r' N K IH|s r r' C K IH|s b r r' A L D K IH|b r r1 r' C O K IH|s b a r l r' A D P K1 IH1 K2 IH2];
    intros x y E ND.
  - destruct x; [|discriminate]. simpl in E. subst y. exists [], []. repeat split; constructor.
  - destruct x as [|t' x]; [simpl in E; subst y; exists [], (t :: r'); repeat split; constructor; assumption|].
    injection E as <- ->. destruct (IH x y eq_refl) as (ra & rb & -> & H1 & H2).
    { intros C b I. exact (ND C b (or_intror I)). }
    exists (t :: ra), rb. split; [reflexivity|]. split; [constructor; assumption|assumption].
  - destruct x as [|t' x]; [simpl in E; subst y; exists [], (TId s true :: r'); split; [reflexivity|split; [constructor|apply K_skip; assumption]]|].
    injection E as <- ->. destruct (IH x y eq_refl) as (ra & rb & -> & H1 & H2).
    { intros C' b I. exact (ND C' b (or_intror I)). }
    exists (TId s true :: ra), rb. split; [reflexivity|]. split; [apply K_skip; assumption|assumption].
  - destruct x as [|t' x].
    { simpl in E; subst y. eexists [], _. split; [reflexivity|]. split; [constructor|apply K_free; assumption]. }
    injection E as <- ->. destruct (IH x y eq_refl) as (ra & rb & -> & H1 & H2).
    { intros C' b' I. exact (ND C' b' (or_intror I)). }
    eexists (_ :: ra), rb. split; [reflexivity|]. split; [apply K_free; assumption|assumption].
  - destruct x as [|t' x].
    { simpl in E; subst y. exists [], r'. split; [reflexivity|]. split; [constructor|eapply K_defined; eassumption]. }
    injection E as <- ->. exfalso. exact (ND C b (or_introl eq_refl)).
  - destruct x as [|t' x].
    { simpl in E; subst y. exists [], (l ++ r'). split; [reflexivity|]. split; [constructor|eapply K_replace; eassumption]. }
    injection E as <- ->. destruct (IH2 x y eq_refl) as (ra & rb & -> & H1 & H2).
    { intros C' b' I. exact (ND C' b' (or_intror I)). }
    exists (l ++ ra), rb. split; [apply app_assoc|]. split; [eapply K_replace; eassumption|assumption].
Qed.

Lemma run_tok : forall f t r, (forall s b, t <> TId s b) ->
  run (S f) cond (t :: r) = bind (run f cond r) (fun res => Ok (t :: res)).
Proof. intros f t r N. destruct t; try reflexivity. exfalso. eapply N. reflexivity. Qed.
Lemma run_id : forall f s b r, run (S f) cond (TId s b :: r) =
  if negb b || cond then
    if String.eqb s "defined" && cond then
      match defined_operator defs r with Some r => run f cond r | None => Err end
    else
      match locate defs s with
      | None => if cond then run f cond (TNum "0" :: r) else bind (run f cond r) (fun res => Ok (TId s b :: res))
      | Some (MObj body) => bind (apply_object fmt f s body) (fun l => run f cond (l ++ r))
      | Some (MFun ps vararg body) =>
        match skip_ws r with
        | TPunct P_LEFT_PARENTHESE :: r =>
          match scan_args r (List.length ps) vararg with
          | None => Err
          | Some (args, r) =>
            bind (mapM (fun a => bind (run f false a) (fun l => pragmas (List.length l) l)) args) (fun args =>
            bind (apply_function fmt f s ps vararg body (map strip args)) (fun l => run f cond (l ++ r)))
          end
        | _ => bind (run f cond r) (fun res => Ok (TId s b :: res))
        end
      end
  else bind (run f cond r) (fun res => Ok (TId s b :: res)).
Proof. intros. reflexivity. Qed.

Lemma active_dec : forall b, negb b || cond = true <-> active b.
Proof. intro b. unfold active. rewrite orb_true_iff, negb_true_iff. reflexivity. Qed.
Lemma apply_applied : forall f s body a, locate defs s = Some (MObj body) -> apply_object fmt f s body = Ok a -> applied s a.
Proof.
  intros f s body a L H. unfold apply_object in H. destruct (replace fmt f None body) as [l| |] eqn:E; try discriminate.
  injection H as <-. destruct (Hobj _ _ L) as (bd & E' & S). injection E' as <-.
  exists body, l. repeat split; auto. eapply replace_pastes in E; [|exact S]. tauto.
Qed.

Lemma run_kexp : forall f l res, run f cond l = Ok res -> kexp l res.
Proof.
  induction f as [|f IH]; intros l res H; [discriminate|].
  destruct l as [|t r]; [simpl in H; injection H as <-; constructor|].
  destruct t as [s b| | | | | | |];
    try (rewrite run_tok in H by discriminate; destruct (run f cond r) as [r'| |] eqn:E; try discriminate;
         injection H as <-; constructor; [discriminate|auto]).
  rewrite run_id in H. destruct (negb b || cond) eqn:Act.
  2: { apply orb_false_iff in Act. destruct Act as [B C]. apply negb_false_iff in B. subst b.
       destruct (run f cond r) as [r'| |] eqn:E; try discriminate. injection H as <-. apply K_skip; auto. }
  apply active_dec in Act. destruct (String.eqb s "defined" && cond) eqn:D.
  { apply andb_true_iff in D. destruct D as [D C]. apply String.eqb_eq in D. subst s.
    destruct (defined_operator defs r) as [r1|] eqn:O; [|discriminate]. eapply K_defined; eauto. }
  assert (ND : cond = true -> s <> "defined").
  { intros C ->. rewrite C in D. discriminate. }
  destruct (locate defs s) as [m|] eqn:L.
  - destruct (Hobj _ _ L) as (body & -> & Sb).
    destruct (apply_object fmt f s body) as [a| |] eqn:A; try discriminate. cbn [bind] in H.
    pose proof (apply_applied _ _ _ _ L A) as P. apply IH in H.
    destruct (kexp_split _ _ H a r eq_refl) as (ra & rb & -> & H1 & H2).
    { intro C. eapply applied_no_defined; eassumption. }
    eapply K_replace; eassumption.
  - destruct cond eqn:C.
    + apply IH in H. inversion H; subst. pose proof (K_free s b r r' Act L) as F. rewrite C in F. apply F; auto.
    + destruct (run f false r) as [r'| |] eqn:E; try discriminate. injection H as <-.
      pose proof (K_free s b r r' Act L) as F. rewrite C in F. apply F; auto.
Qed.

Lemma defined_app : forall r r1 m, defined_operator defs r = Some r1 -> defined_operator defs (r ++ m) = Some (r1 ++ m).
Proof.
  intros r r1 m H. unfold defined_operator in *.
  destruct (skip_ws r) as [|t r'] eqn:W; [discriminate|]. rewrite (skip_ws_app _ _ _ m W).
  destruct t as [s b| |p| | | | |]; try discriminate.
  - injection H as <-. reflexivity.
  - destruct p; try discriminate. destruct (skip_ws r') as [|t2 r2] eqn:W2; [discriminate|].
    rewrite (skip_ws_app _ _ _ m W2). destruct t2 as [s b| |p| | | | |]; try discriminate.
    destruct (skip_ws r2) as [|t3 r3] eqn:W3; [discriminate|]. rewrite (skip_ws_app _ _ _ m W3).
    destruct t3 as [ | |p| | | | |]; try discriminate. destruct p; try discriminate. injection H as <-. reflexivity.
Qed.

Lemma kexp_run : forall l res, kexp l res -> forall r rest f0, (forall f, f0 <= f -> run f cond r = Ok rest) ->
  exists f1, forall f, f1 <= f -> run f cond (l ++ r) = Ok (res ++ rest).
Proof.
  induction 1 as [|t r r' N K IH|s r r' C K IH|s b r r' A L D K IH|b r r1 r' C O K IH|s b a r l r' A D P K1 IH1 K2 IH2];
    intros y rest f0 Hy.
  - exists f0. exact Hy.
  - destruct (IH _ _ _ Hy) as [f1 H1]. exists (S f1). intros f Hf. destruct f as [|f]; [lia|].
    simpl app. rewrite (run_tok _ _ _ N), H1 by lia. reflexivity.
  - destruct (IH _ _ _ Hy) as [f1 H1]. exists (S f1). intros f Hf. destruct f as [|f]; [lia|].
    simpl app. rewrite run_id, C. simpl negb. cbn [orb]. rewrite C in H1. rewrite H1 by lia. reflexivity.
  - destruct (IH _ _ _ Hy) as [f1 H1]. exists (S (S f1)). intros f Hf. destruct f as [|f]; [lia|].
    simpl app. rewrite run_id. rewrite (proj2 (active_dec b) A).
    assert (E : String.eqb s "defined" && cond = false).
    { apply andb_false_iff. destruct cond; [|right; reflexivity]. left. apply String.eqb_neq. auto. }
    rewrite E, L. destruct cond eqn:C.
    + destruct f as [|f]; [lia|]. rewrite <- C in *. rewrite run_tok by discriminate. rewrite H1 by lia. reflexivity.
    + rewrite H1 by lia. reflexivity.
  - destruct (IH _ _ _ Hy) as [f1 H1]. exists (S f1). intros f Hf. destruct f as [|f]; [lia|].
    simpl app. rewrite run_id, (proj2 (active_dec b) (or_intror C)), C. simpl.
    rewrite (defined_app _ _ _ O). rewrite C in H1. apply H1. lia.
  - destruct (IH2 _ _ _ Hy) as [f2 H2]. destruct (IH1 _ _ _ H2) as [f1 H1].
    destruct P as (body & body' & L & Q & ->).
    destruct (Hobj _ _ L) as (bd & E' & S). injection E' as <-.
    exists (Datatypes.S (max f1 (Datatypes.S (len body)))). intros f Hf. destruct f as [|f]; [lia|].
    simpl app. rewrite run_id, (proj2 (active_dec b) A).
    assert (E : String.eqb s "defined" && cond = false).
    { apply andb_false_iff. destruct cond; [|right; reflexivity]. left. apply String.eqb_neq. auto. }
    rewrite E, L. unfold apply_object. rewrite (pastes_replace fmt _ _ Q S f) by lia. cbn [bind].
    rewrite H1 by lia. rewrite app_assoc. reflexivity.
Qed.
Lemma kexp_terminates : forall l res, kexp l res -> exists f0, forall f, f0 <= f -> run f cond l = Ok res.
Proof.
  intros l res K. destruct (kexp_run _ _ K [] [] 1) as [f1 H].
  { intros f Hf. destruct f; [lia|]. reflexivity. }
  rewrite !app_nil_r in H. exists f1. exact H.
Qed.

(** *** The defined operators *)

Lemma spaces_nil : spaces [].
Proof. intros t []. Qed.
Lemma defined_cases : forall r r1, defined_operator defs r = Some r1 ->
  (exists s1 x y l, spaces s1 /\ r = s1 ++ TId x y :: l /\ r1 = TNum (if is_macro defs x then "1" else "0") :: l) \/
  (exists s1 s2 s3 x y l, spaces s1 /\ spaces s2 /\ spaces s3 /\
     r = s1 ++ TPunct P_LEFT_PARENTHESE :: s2 ++ TId x y :: s3 ++ TPunct P_RIGHT_PARENTHESE :: l /\
     r1 = TNum (if is_macro defs x then "1" else "0") :: l).
Proof.
  intros r r1 H. unfold defined_operator in H. destruct (skip_ws_split r) as (s1 & E1 & S1).
  destruct (skip_ws r) as [|t r'] eqn:W; [discriminate|].
  destruct t as [s b| |p| | | | |]; try discriminate.
  - injection H as <-. left. exists s1, s, b, r'. auto.
  - destruct p; try discriminate. destruct (skip_ws_split r') as (s2 & E2 & S2).
    destruct (skip_ws r') as [|t2 r2] eqn:W2; [discriminate|].
    destruct t2 as [s b| |p| | | | |]; try discriminate.
    destruct (skip_ws_split r2) as (s3 & E3 & S3).
    destruct (skip_ws r2) as [|t3 r3] eqn:W3; [discriminate|].
    destruct t3 as [ | |p| | | | |]; try discriminate. destruct p; try discriminate. injection H as <-.
    right. exists s1, s2, s3, s, b, r3. split; [exact S1|]. split; [exact S2|]. split; [exact S3|].
    split; [|reflexivity]. rewrite <- E3, <- E2. exact E1.
Qed.
Lemma defined_name : forall s1 x y l, spaces s1 ->
  defined_operator defs (s1 ++ TId x y :: l) = Some (TNum (if is_macro defs x then "1" else "0") :: l).
Proof. intros. unfold defined_operator. rewrite skip_ws_spaces by assumption. reflexivity. Qed.
Lemma defined_paren : forall s1 s2 s3 x y l, spaces s1 -> spaces s2 -> spaces s3 ->
  defined_operator defs (s1 ++ TPunct P_LEFT_PARENTHESE :: s2 ++ TId x y :: s3 ++ TPunct P_RIGHT_PARENTHESE :: l) =
  Some (TNum (if is_macro defs x then "1" else "0") :: l).
Proof.
  intros. unfold defined_operator. rewrite skip_ws_spaces by assumption. cbn [skip_ws is_ws].
  rewrite skip_ws_spaces by assumption. cbn [skip_ws is_ws]. rewrite skip_ws_spaces by assumption. reflexivity.
Qed.

(** The source order of [ts] is kept in [prepared], whose tokens are those of [ts] except
    for the numbers put in. *)
Lemma resolves_in : forall l l', resolves defs l l' -> forall x b, In (TId x b) l' -> In (TId x b) l.
Proof.
  induction 1; intros y0 c I; [destruct I| | |].
  - destruct I as [->|I]; [left; reflexivity|right; auto].
  - destruct I as [E|I]; [discriminate|]. right. apply in_app_iff. right. right. auto.
  - destruct I as [E|I]; [discriminate|]. right. apply in_app_iff. right. right. apply in_app_iff. right. right.
    apply in_app_iff. right. right. auto.
Qed.
Lemma resolves_no_defined : forall l l', resolves defs l l' -> no_defined l'.
Proof.
  induction 1; intros c I; [destruct I| | |].
  - destruct I as [->|I]; [eapply H; reflexivity|eapply IHresolves; exact I].
  - destruct I as [E|I]; [discriminate|]. eapply IHresolves; exact I.
  - destruct I as [E|I]; [discriminate|]. eapply IHresolves; exact I.
Qed.
Lemma resolves_id : forall l, no_defined l -> resolves defs l l.
Proof.
  induction l as [|t l IH]; intro N; [constructor|]. constructor.
  - intros b ->. exact (N b (or_introl eq_refl)).
  - apply IH. intros b I. exact (N b (or_intror I)).
Qed.

Lemma kexp_prepared : forall l res, kexp l res -> exists l', prepared defs cond l l' /\ kexp l' res /\ (cond = true -> no_defined l').
Proof.
  unfold prepared. intros l res K. destruct cond eqn:C.
  2: { exists l. split; [reflexivity|]. split; [exact K|discriminate]. }
  rewrite <- C in *.
  cut (exists l', resolves defs l l' /\ kexp l' res).
  { intros (l' & R & K'). exists l'. split; [exact R|]. split; [exact K'|]. intros _. eapply resolves_no_defined; eauto. }
  induction K as [|t r r' N K IH|s r r' C' K IH|s b r r' A L D K IH|b r r1 r' C' O K IH|s b a r l r' A D P K1 IH1 K2 IH2].
  - exists []. split; constructor.
  - destruct IH as (l' & R & K'). exists (t :: l'). split; constructor; auto; intros; apply N.
  - congruence.
  - destruct IH as (l' & R & K'). exists (TId s b :: l'). split; [constructor; [|exact R]|apply K_free; auto].
    intros b' E. injection E as -> ->. exact (D C eq_refl).
  - destruct IH as (l' & R & K'). exists l'. split; [|exact K'].
    destruct (defined_cases _ _ O) as [(s1 & x & y & l & S1 & -> & ->)|(s1 & s2 & s3 & x & y & l & S1 & S2 & S3 & -> & ->)].
    + inversion R; subst. apply R_name; assumption.
    + inversion R; subst. apply R_paren; assumption.
  - destruct IH2 as (l' & R & K'). exists (TId s b :: l'). split; [constructor; [|exact R]|eapply K_replace; eauto].
    intros b' E. injection E as -> ->. exact (D C eq_refl).
Qed.
Lemma prepared_kexp : forall l l' res, prepared defs cond l l' -> kexp l' res -> kexp l res.
Proof.
  unfold prepared. intros l l' res P K. destruct cond eqn:C; [|subst; exact K].
  revert res K. induction P as [|t l l' N P IH|b s1 x y l l' S1 P IH|b s1 s2 s3 x y l l' S1 S2 S3 P IH]; intros res K.
  - exact K.
  - inversion K; subst.
    + constructor; auto.
    + congruence.
    + apply K_free; auto.
    + exfalso. eapply N. reflexivity.
    + eapply K_replace; eauto.
  - inversion K; subst. eapply K_defined; [exact C|apply defined_name; assumption|]. constructor; auto.
  - inversion K; subst. eapply K_defined; [exact C|apply defined_paren; assumption|]. constructor; auto.
Qed.

(** *** Termination *)

Definition smaller (y x : string) : Prop := mentions defs cond x y.

Lemma applied_mentions : forall x a, applied x a -> forall y b, In (TId y b) a -> active b -> is_macro defs y = true ->
  mentions defs cond x y.
Proof.
  intros x a (body & body' & L & P & ->) y b I A M. destruct (Hobj _ _ L) as (bd & E & S). injection E as <-.
  apply finish_in in I; [|eapply pastes_source; eassumption]. destruct I as [I B].
  exists body, body'. repeat split; auto. destruct A as [A|A]; [right|left; exact A].
  rewrite B in A. apply String.eqb_neq. exact A.
Qed.
Lemma kexp_acc : forall l res, kexp l res -> (cond = true -> no_defined l) ->
  forall s b, In (TId s b) l -> active b -> is_macro defs s = true -> Acc smaller s.
Proof.
  induction 1 as [|t r r' N K IH|s r r' C K IH|s b r r' A L D K IH|b r r1 r' C O K IH|s b a r l r' A D P K1 IH1 K2 IH2];
    intros ND x c I Ac M.
  - destruct I.
  - destruct I as [->|I]; [exfalso; eapply N; reflexivity|]. eapply IH; eauto.
    intros C b' I'. exact (ND C b' (or_intror I')).
  - destruct I as [E|I].
    + injection E as <- <-. destruct Ac; congruence.
    + eapply IH; eauto. intros C' b' I'. exact (ND C' b' (or_intror I')).
  - destruct I as [E|I].
    + injection E as <- <-. unfold is_macro in M. rewrite L in M. discriminate.
    + eapply IH; eauto. intros C' b' I'. exact (ND C' b' (or_intror I')).
  - exfalso. exact (ND C b (or_introl eq_refl)).
  - destruct I as [E|I].
    + injection E as <- <-. constructor. intros y (body & body' & L & Q & Iy & My & Cy).
      destruct P as (bd & bd' & L' & Q' & ->). rewrite L in L'. injection L' as <-.
      destruct (Hobj _ _ L) as (bb & E & S). injection E as <-.
      assert (bd' = body') by (eapply pastes_fun; eassumption). subst bd'.
      apply (IH1) with (b := String.eqb y s).
      * intro C. apply applied_no_defined with (s := s); [exact C|]. exists body, body'. auto.
      * rewrite finish_source by (eapply pastes_source; eassumption).
        apply in_map_iff. exists (TId y false). split; [|exact Iy]. simpl. destruct (String.eqb y s); reflexivity.
      * destruct Cy as [C|N]; [right; exact C|left]. apply String.eqb_neq. exact N.
      * exact My.
    + eapply IH2; eauto. intros C' b' I'. exact (ND C' b' (or_intror I')).
Qed.

Hypothesis Hpaste : forall s body, locate defs s = Some (MObj body) -> exists body', pastes body body'.

Lemma acc_kexp_list : forall l, (cond = true -> no_defined l) ->
  (forall s b, In (TId s b) l -> active b -> is_macro defs s = true -> exists a la, applied s a /\ kexp a la) ->
  exists res, kexp l res.
Proof.
  induction l as [|t l IH]; intros ND H; [exists []; constructor|].
  destruct IH as [r' K].
  { intros C b I. exact (ND C b (or_intror I)). }
  { intros s b I. apply (H s b). right. exact I. }
  destruct t as [s b| | | | | | |]; try (eexists; apply K_tok; [discriminate|exact K]).
  destruct (negb b || cond) eqn:Act.
  2: { apply orb_false_iff in Act. destruct Act as [B C]. apply negb_false_iff in B. subst b.
       eexists. apply K_skip; eassumption. }
  apply active_dec in Act.
  assert (D : cond = true -> s <> "defined").
  { intros C ->. exact (ND C b (or_introl eq_refl)). }
  destruct (locate defs s) eqn:L.
  - assert (M : is_macro defs s = true) by (unfold is_macro; rewrite L; reflexivity).
    destruct (H s b (or_introl eq_refl) Act M) as (a & la & P & Ka).
    eexists. eapply K_replace; eassumption.
  - eexists. apply K_free; eassumption.
Qed.
Lemma acc_kexp_name : forall s, Acc smaller s -> is_macro defs s = true -> exists a la, applied s a /\ kexp a la.
Proof.
  induction 1 as [s _ IH]. intro M. unfold is_macro in M. destruct (locate defs s) as [m|] eqn:L; [|discriminate].
  destruct (Hobj _ _ L) as (body & -> & S). destruct (Hpaste _ _ L) as [body' P].
  assert (A : applied s (finish s body')) by (exists body, body'; auto).
  exists (finish s body'). destruct (acc_kexp_list (finish s body')) as [la K].
  - intro C. eapply applied_no_defined; eassumption.
  - intros y b I Ac My. apply IH; [|exact My]. eapply applied_mentions; eassumption.
  - exists la. auto.
Qed.
Lemma acc_kexp : forall l, (cond = true -> no_defined l) ->
  (forall s b, In (TId s b) l -> active b -> is_macro defs s = true -> Acc smaller s) -> exists res, kexp l res.
Proof.
  intros l ND H. apply acc_kexp_list; [exact ND|]. intros s b I A M. apply acc_kexp_name; eauto.
Qed.

(** *** Result *)

Definition reach := clos_trans string smaller.
Lemma acc_irrefl : forall s, Acc smaller s -> ~ reach s s.
Proof.
  intros s A R. apply Acc_clos_trans in A. revert R.
  induction A as [s _ IH]. intro R. exact (IH s R R).
Qed.

Lemma kexp_expands : forall l res, kexp l res -> (cond = true -> no_defined l) ->
  forall h, (forall s b, In (TId s b) l -> b = true -> In s h) ->
  (forall s b, In (TId s b) l -> active b -> is_macro defs s = true -> forall y, In y h -> s <> y /\ ~ reach y s) ->
  exists e, expands defs h (map erase l) e /\ map erase res = concluded cond e.
Proof.
  induction 1 as [|t r r' N K IH|s r r' C K IH|s b r r' A L D K IH|b r r1 r' C O K IH|s b a r l r' A D P K1 IH1 K2 IH2];
    intros ND h HF HR.
  - exists []. split; [constructor|]. unfold concluded. destruct cond; reflexivity.
  - destruct (IH) with (h := h) as (e & E & Q); [intros C b' I'; exact (ND C b' (or_intror I'))|
      intros; eapply HF; [right; eassumption|assumption]|intros; eapply HR; try eassumption; right; eassumption|].
    exists (erase t :: e). split.
    + simpl. apply E_keep; [|exact E]. intros s b Et. exfalso. destruct t; try discriminate. eapply N; reflexivity.
    + simpl. rewrite Q. unfold concluded. destruct cond; [|reflexivity]. simpl. f_equal.
      destruct t; try reflexivity. exfalso. eapply N; reflexivity.
  - destruct (IH) with (h := h) as (e & E & Q); [intros C' b' I'; exact (ND C' b' (or_intror I'))|
      intros; eapply HF; [right; eassumption|assumption]|intros; eapply HR; try eassumption; right; eassumption|].
    exists (TId s false :: e). split.
    + simpl. apply E_keep; [|exact E]. intros x b Et. injection Et as <- <-. right.
      eapply HF; [left; reflexivity|reflexivity].
    + simpl. rewrite Q. unfold concluded. rewrite C. reflexivity.
  - destruct (IH) with (h := h) as (e & E & Q); [intros C' b' I'; exact (ND C' b' (or_intror I'))|
      intros; eapply HF; [right; eassumption|assumption]|intros; eapply HR; try eassumption; right; eassumption|].
    exists (TId s false :: e). split.
    + simpl. apply E_keep; [|exact E]. intros x b' Et. injection Et as <- <-. left. exact L.
    + simpl. rewrite Q. unfold concluded. destruct cond; reflexivity.
  - exfalso. exact (ND C b (or_introl eq_refl)).
  - assert (K : kexp (TId s b :: r) (l ++ r')) by (eapply K_replace; eassumption).
    destruct (IH2) with (h := h) as (e & E & Q); [intros C' b' I'; exact (ND C' b' (or_intror I'))|
      intros; eapply HF; [right; eassumption|assumption]|intros; eapply HR; try eassumption; right; eassumption|].
    pose proof P as P0. destruct P0 as (body & body' & L & Pb & Ea).
    assert (M : is_macro defs s = true) by (unfold is_macro; rewrite L; reflexivity).
    assert (AC : Acc smaller s) by (eapply kexp_acc; try eassumption; left; reflexivity).
    destruct (Hobj _ _ L) as (bb & E0 & S). injection E0 as <-.
    assert (Sb : source body') by (eapply pastes_source; eassumption).
    destruct IH1 with (h := s :: h) as (e1 & E1 & Q1).
    + intro C. eapply applied_no_defined; eassumption.
    + intros x c I ->. left. subst a. apply finish_in in I; [|exact Sb]. destruct I as [_ I].
      symmetry in I. apply String.eqb_eq in I. congruence.
    + intros x c I Ac Mx y Iy.
      assert (Sm : smaller x s) by (unfold smaller; eapply applied_mentions; eassumption).
      destruct Iy as [<-|Iy].
      * split; [intros ->; exact (acc_irrefl s AC (t_step _ _ _ _ Sm))|].
        intro R. apply (acc_irrefl s AC). eapply t_trans; [exact R|apply t_step; exact Sm].
      * destruct (HR s b (or_introl eq_refl) A M y Iy) as [N1 N2]. split.
        -- intros ->. apply N2. apply t_step. exact Sm.
        -- intro R. apply N2. eapply t_trans; [exact R|apply t_step; exact Sm].
    + exists (e1 ++ e). split.
      * simpl. eapply E_replace; try eassumption.
        -- intro I. destruct (HR s b (or_introl eq_refl) A M s I) as [N1 _]. congruence.
        -- subst a. rewrite (finish_source _ _ Sb) in E1. rewrite map_map in E1.
           replace (map (fun x => erase (mark s x)) body') with body' in E1; [exact E1|].
           clear - Sb. induction Sb as [|t l Ht Hl IH]; [reflexivity|]. simpl. f_equal; [|exact IH].
           destruct t; simpl in *; congruence.
      * rewrite map_app, Q1, Q. unfold concluded. destruct cond; [rewrite map_app|]; reflexivity.
Qed.

End Object.
