(** C06 and C43: the lexer sees the text with backslash-newline pairs deleted, and its
    location is the physical line and column. *)

From Coq Require Import ZArith Bool List Lia.
From Verif Require Import CTypes LexModel.
Import ListNotations.
Open Scope Z_scope.

(** ** Specification *)

(** Characters of the source text, up to its end, the first NUL or the first invalid
    multibyte sequence. *)
Fixpoint chars (decode : list Z -> option (Z * nat)) (fuel : nat) (bytes : list Z) : list Z :=
  match fuel with
  | O => []
  | S fuel =>
    match decode bytes with
    | None => []
    | Some (c, n) => if c =? 0 then [] else c :: chars decode fuel (skipn n bytes)
    end
  end.
Definition physical decode (bytes : list Z) : list Z := chars decode (length bytes) bytes.

(** Phase 2 of C17 5.1.1.2: delete every backslash immediately followed by a newline. *)
Fixpoint delete_splices (l : list Z) : list Z :=
  match l with
  | c :: ((c2 :: r) as l') => if (c =? 92) && (c2 =? 10) then delete_splices r else c :: delete_splices l'
  | _ => l
  end.
Definition logical decode (bytes : list Z) : list Z := delete_splices (physical decode bytes).

(** Physical line and column (from 1) after the characters [p]. *)
Definition lines_in (p : list Z) : Z := Z.of_nat (length (filter (Z.eqb 10) p)).
Fixpoint since_newline (p : list Z) : list Z :=
  match p with
  | [] => []
  | c :: r => if existsb (Z.eqb 10) r then since_newline r else if c =? 10 then r else p
  end.

Definition decoder (decode : list Z -> option (Z * nat)) :=
  forall b c n, decode b = Some (c, n) -> (1 <= n <= length b)%nat.

Lemma skipn_skipn : forall (x y : nat) (l : list Z), skipn x (skipn y l) = skipn (x + y) l.
Proof.
  intros x y. induction y; intro l; [rewrite Nat.add_0_r; reflexivity|].
  rewrite Nat.add_succ_r. destruct l; [destruct x; reflexivity|]. cbn [skipn]. apply IHy.
Qed.

Section Cursor.
Variable decode : list Z -> option (Z * nat).
Hypothesis decode_ok : decoder decode.

Notation phys := (physical decode).
Notation logic := (logical decode).

Lemma chars_fuel : forall f g b, (length b <= f)%nat -> (length b <= g)%nat ->
  chars decode f b = chars decode g b.
Proof.
  induction f; intros g b Hf Hg.
  - destruct b; [|simpl in Hf; lia]. destruct g; [reflexivity|]. cbn [chars].
    destruct (decode []) as [[c n]|] eqn:E; [|reflexivity].
    apply decode_ok in E. simpl in E. lia.
  - destruct g.
    + destruct b; [|simpl in Hg; lia]. cbn [chars].
      destruct (decode []) as [[c n]|] eqn:E; [|reflexivity].
      apply decode_ok in E. simpl in E. lia.
    + cbn [chars]. destruct (decode b) as [[c n]|] eqn:E; [|reflexivity].
      destruct (c =? 0); [reflexivity|]. f_equal.
      pose proof (decode_ok _ _ _ E). apply IHf; rewrite skipn_length; lia.
Qed.

Lemma phys_eq : forall b, phys b =
  match decode b with
  | None => []
  | Some (c, n) => if c =? 0 then [] else c :: phys (skipn n b)
  end.
Proof.
  intro b. unfold physical.
  rewrite (chars_fuel (length b) (S (length b)) b) by lia. cbn [chars].
  destruct (decode b) as [[c n]|] eqn:E; [|reflexivity].
  destruct (c =? 0); [reflexivity|]. f_equal.
  pose proof (decode_ok _ _ _ E). apply chars_fuel; rewrite ?skipn_length; lia.
Qed.

Lemma splice_phys : forall c r r', splice decode c r = Some r' ->
  c = 92 /\ phys r = 10 :: phys r' /\ (length r' < length r)%nat.
Proof.
  intros c r r' H. unfold splice in H.
  destruct (c =? backslash) eqn:Ec; [|discriminate]. apply Z.eqb_eq in Ec. split; [exact Ec|].
  destruct r as [|b0 r0]; [discriminate|]. rewrite phys_eq.
  destruct (decode (b0 :: r0)) as [[c2 n2]|] eqn:E; [|discriminate].
  destruct (c2 =? 0) eqn:E0; [discriminate|]. destruct (c2 =? newline) eqn:En; [|discriminate].
  apply Z.eqb_eq in En. injection H as <-. split; [rewrite En; reflexivity|].
  pose proof (decode_ok _ _ _ E). rewrite skipn_length. cbn [length] in *. lia.
Qed.

Lemma splice_none : forall c r, splice decode c r = None -> c = 92 -> forall x, phys r <> 10 :: x.
Proof.
  intros c r H -> x Hx. unfold splice in H. simpl in H. rewrite phys_eq in Hx.
  destruct r as [|b0 r0].
  - destruct (decode []) as [[c n]|] eqn:E; [|discriminate]. apply decode_ok in E. simpl in E. lia.
  - destruct (decode (b0 :: r0)) as [[c2 n2]|]; [|discriminate].
    destruct (c2 =? 0); [discriminate|]. injection Hx as -> _. discriminate.
Qed.

Lemma logic_eq : forall b, logic b =
  match decode b with
  | None => []
  | Some (c, n) =>
    if c =? 0 then [] else
    match splice decode c (skipn n b) with
    | Some r' => logic r'
    | None => c :: logic (skipn n b)
    end
  end.
Proof.
  intro b. unfold logical at 1. rewrite phys_eq.
  destruct (decode b) as [[c n]|]; [|reflexivity]. destruct (c =? 0); [reflexivity|].
  destruct (splice decode c (skipn n b)) as [r'|] eqn:Es.
  - apply splice_phys in Es. destruct Es as [-> [-> _]]. reflexivity.
  - unfold logical. cbn [delete_splices]. destruct (phys (skipn n b)) as [|c2 r] eqn:Ep; [reflexivity|].
    destruct ((c =? 92) && (c2 =? 10)) eqn:E; [|reflexivity].
    apply andb_prop in E. destruct E as [E1 E2]. apply Z.eqb_eq in E1, E2. subst.
    exfalso. eapply splice_none; eauto.
Qed.

Lemma at_loop_spec : forall f b k, (length b < f)%nat -> at_loop decode f b k = nth k (logic b) 0.
Proof.
  induction f; intros b k Hf; [lia|]. cbn [at_loop]. rewrite logic_eq.
  destruct (decode b) as [[c n]|] eqn:E; [|destruct k; reflexivity].
  destruct (c =? 0); [destruct k; reflexivity|].
  pose proof (decode_ok _ _ _ E).
  assert (length (skipn n b) < f)%nat by (rewrite skipn_length; lia).
  destruct (splice decode c (skipn n b)) as [r'|] eqn:Es.
  - apply splice_phys in Es. apply IHf. lia.
  - destruct k; [reflexivity|]. cbn [nth]. apply IHf. lia.
Qed.

(** Line and column after reading [p] starting from a given line and column. *)
Fixpoint advance (l c : Z) (p : list Z) : Z * Z :=
  match p with
  | [] => (l, c)
  | x :: r => if x =? 10 then advance (l + 1) 1 r else advance l (c + 1) r
  end.

Lemma next_loop_spec : forall f s k, (length (here s) < f)%nat ->
  match next_loop decode f s k with
  | Some s' =>
    logic (here s') = skipn k (logic (here s)) /\
    (exists p, phys (here s) = p ++ phys (here s') /\ advance (line s) (column s) p = (line s', column s')) /\
    (exists n, here s' = skipn n (here s))
  | None => (length (logic (here s)) < k)%nat
  end.
Proof.
  induction f; intros s k Hf; [lia|].
  destruct k as [|k]; cbn [next_loop].
  { split; [reflexivity|]. split; [exists []; auto|]. exists O. reflexivity. }
  rewrite logic_eq. rewrite phys_eq.
  destruct (decode (here s)) as [[c n]|] eqn:E; [|simpl; lia].
  destruct (c =? 0) eqn:E0.
  { split. { rewrite logic_eq, E, E0. reflexivity. }
    split; [|exists O; reflexivity].
    exists []. split; [|reflexivity]. rewrite phys_eq, E, E0. reflexivity. }
  pose proof (decode_ok _ _ _ E).
  assert (Hl : (length (skipn n (here s)) < f)%nat) by (rewrite skipn_length; lia).
  destruct (c =? newline) eqn:En.
  - apply Z.eqb_eq in En. subst c.
    assert (Hs : splice decode newline (skipn n (here s)) = None) by reflexivity. rewrite Hs.
    match goal with |- match next_loop _ f ?s1 k with _ => _ end => specialize (IHf s1 k Hl);
      destruct (next_loop decode f s1 k) as [s'|] end.
    + destruct IHf as (H1 & (p & H2 & H3) & (m & H4)). cbn [here line column] in *.
      split; [exact H1|]. split.
      * exists (newline :: p). split; [rewrite H2; reflexivity|exact H3].
      * exists (m + n)%nat. rewrite H4. apply skipn_skipn.
    + cbn [here length] in *. lia.
  - destruct (splice decode c (skipn n (here s))) as [r'|] eqn:Es.
    + pose proof Es as Es'. unfold splice in Es'.
      destruct (c =? backslash); [|discriminate].
      assert (exists q, r' = skipn q (here s)) as [q Hq].
      { destruct (skipn n (here s)) as [|x0 x] eqn:Ek; [discriminate|].
        destruct (decode (x0 :: x)) as [[c2 n2]|]; [|discriminate].
        destruct (c2 =? 0); [discriminate|]. destruct (c2 =? newline); [|discriminate].
        injection Es' as <-. exists (n2 + n)%nat.
        rewrite <- Ek. apply skipn_skipn. }
      apply splice_phys in Es. destruct Es as (-> & Hp & Hr). rewrite Hp.
      assert (Hl' : (length r' < f)%nat) by lia.
      match goal with |- match next_loop _ f ?s1 _ with _ => _ end => specialize (IHf s1 (S k) Hl');
        destruct (next_loop decode f s1 (S k)) as [s'|] end.
      * destruct IHf as (H1 & (p & H2 & H3) & (m & H4)). cbn [here line column] in *.
        split; [exact H1|]. split.
        -- exists (92 :: 10 :: p). split; [rewrite H2; reflexivity|exact H3].
        -- exists (m + q)%nat. rewrite H4, Hq. apply skipn_skipn.
      * exact IHf.
    + match goal with |- match next_loop _ f ?s1 _ with _ => _ end => specialize (IHf s1 k Hl);
        destruct (next_loop decode f s1 k) as [s'|] end.
      * destruct IHf as (H1 & (p & H2 & H3) & (m & H4)). cbn [here line column] in *.
        split; [exact H1|]. split.
        -- exists (c :: p). split; [rewrite H2; reflexivity|].
           cbn [advance]. change (c =? 10) with (c =? newline). rewrite En. exact H3.
        -- exists (m + n)%nat. rewrite H4. apply skipn_skipn.
      * cbn [here length] in *. lia.
Qed.

(** [advance] in closed form. *)
Lemma advance_closed : forall p l c, advance l c p =
  (l + lines_in p, if existsb (Z.eqb 10) p then 1 + Z.of_nat (length (since_newline p)) else c + Z.of_nat (length p)).
Proof.
  unfold lines_in. induction p as [|x r IH]; intros l c.
  - simpl. f_equal; lia.
  - cbn [advance filter existsb since_newline]. rewrite (Z.eqb_sym 10 x).
    destruct (x =? 10) eqn:E; rewrite IH; cbn [length orb].
    + f_equal; [lia|]. destruct (existsb (Z.eqb 10) r); reflexivity.
    + f_equal. destruct (existsb (Z.eqb 10) r); [reflexivity|lia].
Qed.

End Cursor.

(** ** Theorems *)

(** Looking ahead. *)
Theorem c06_lookahead : forall decode, decoder decode -> forall bytes k,
  cursor_at decode bytes k = nth k (logical decode bytes) 0.
Proof. intros. apply at_loop_spec; auto. Qed.

(** Advancing succeeds within the text and drops exactly k logical characters. *)
Theorem c06_advance : forall decode, decoder decode -> forall s k,
  (k <= length (logical decode (here s)))%nat ->
  exists s', cursor_next decode s k = Some s' /\
             logical decode (here s') = skipn k (logical decode (here s)).
Proof.
  intros decode D s k Hk. pose proof (next_loop_spec decode D (S (length (here s))) s k (Nat.lt_succ_diag_r _)) as H.
  unfold cursor_next. destruct (next_loop decode (S (length (here s))) s k) as [s'|]; [|lia].
  exists s'. tauto.
Qed.

(** Whatever the result, no character is skipped or repeated: after an advance that
    succeeds, looking at distance j shows the character that was at distance k + j. *)
Theorem c06_advance_then_look : forall decode, decoder decode -> forall s k s' j,
  cursor_next decode s k = Some s' ->
  cursor_at decode (here s') j = nth (k + j) (logical decode (here s)) 0.
Proof.
  intros decode D s k s' j H. rewrite c06_lookahead by assumption.
  pose proof (next_loop_spec decode D (S (length (here s))) s k (Nat.lt_succ_diag_r _)) as P.
  unfold cursor_next in H. rewrite H in P. destruct P as [-> _].
  generalize (logical decode (here s)). intro l. revert l. clear. induction k; intro l; [reflexivity|].
  destruct l; [destruct j; reflexivity|]. cbn [skipn Nat.add nth]. apply IHk.
Qed.

(** An advance fails only when it runs past the end of the text. *)
Theorem c06_advance_error : forall decode, decoder decode -> forall s k,
  cursor_next decode s k = None -> (length (logical decode (here s)) < k)%nat.
Proof.
  intros decode D s k H.
  pose proof (next_loop_spec decode D (S (length (here s))) s k (Nat.lt_succ_diag_r _)) as P.
  unfold cursor_next in H. rewrite H in P. exact P.
Qed.

(** C43: starting from line 1 and column 1 (kefir_lexer_source_cursor_init,
    source_cursor.c:34) and after any sequence of advances, the recorded location is the
    line and the column, in the physical text, of the place where the cursor is. *)
Fixpoint advances decode (s : cursor) (ks : list nat) : option cursor :=
  match ks with
  | [] => Some s
  | k :: ks => match cursor_next decode s k with Some s' => advances decode s' ks | None => None end
  end.
Definition cursor_init (bytes : list Z) : cursor := {| here := bytes; line := 1; column := 1 |}.

Lemma advance_app : forall p q l c, advance l c (p ++ q) = let (l', c') := advance l c p in advance l' c' q.
Proof. induction p; intros; [reflexivity|]. cbn [app advance]. destruct (a =? 10); apply IHp. Qed.

Lemma advances_spec : forall decode, decoder decode -> forall ks s s', advances decode s ks = Some s' ->
  (exists p, physical decode (here s) = p ++ physical decode (here s') /\
             advance (line s) (column s) p = (line s', column s')) /\
  (exists n, here s' = skipn n (here s)).
Proof.
  intros decode D. induction ks as [|k ks IH]; intros s s' H.
  - injection H as <-. split; [exists []; auto|exists O; reflexivity].
  - cbn [advances] in H. destruct (cursor_next decode s k) as [s1|] eqn:E; [|discriminate].
    destruct (IH _ _ H) as ((p & H1 & H2) & (n & H3)).
    pose proof (next_loop_spec decode D (S (length (here s))) s k (Nat.lt_succ_diag_r _)) as P.
    unfold cursor_next in E. rewrite E in P. destruct P as (_ & (q & H4 & H5) & (m & H6)).
    split.
    + exists (q ++ p). rewrite H4, H1, app_assoc. split; [reflexivity|].
      rewrite advance_app, H5. exact H2.
    + exists (n + m)%nat. rewrite H3, H6. apply skipn_skipn.
Qed.

Theorem c43_location : forall decode, decoder decode -> forall bytes ks s',
  advances decode (cursor_init bytes) ks = Some s' ->
  (exists n, here s' = skipn n bytes) /\
  exists p, physical decode bytes = p ++ physical decode (here s') /\
    line s' = 1 + lines_in p /\
    column s' = 1 + Z.of_nat (length (since_newline p)).
Proof.
  intros decode D bytes ks s' H. destruct (advances_spec _ D _ _ _ H) as ((p & H1 & H2) & H3).
  split; [exact H3|]. exists p. split; [exact H1|].
  rewrite advance_closed in H2. injection H2 as <- <-. cbn [line column cursor_init].
  split; [reflexivity|]. destruct (existsb (Z.eqb 10) p) eqn:E; [reflexivity|].
  f_equal. f_equal. f_equal. clear -E. induction p as [|x r IH]; [reflexivity|].
  cbn [existsb since_newline] in *. apply orb_false_iff in E. destruct E as [E1 E2].
  rewrite E2. rewrite Z.eqb_sym, E1. reflexivity.
Qed.

(** Reaching the end of a text costs exactly its number of logical characters, so the
    lexer can consume every text. *)
Theorem c06_reaches_end : forall decode, decoder decode -> forall bytes,
  exists s', cursor_next decode (cursor_init bytes) (length (logical decode bytes)) = Some s' /\
             logical decode (here s') = [].
Proof.
  intros decode D bytes.
  destruct (c06_advance decode D (cursor_init bytes) (length (logical decode bytes)) (Nat.le_refl _)) as (s' & H1 & H2).
  exists s'. split; [exact H1|]. rewrite H2. apply skipn_all.
Qed.

(** ** UTF-8 *)

Definition cont (b : Z) : bool := (128 <=? b) && (b <? 192).
Definition utf8 (bytes : list Z) : option (Z * nat) :=
  match bytes with
  | a :: r =>
    if (0 <=? a) && (a <? 128) then Some (a, 1%nat) else
    match r with
    | b :: r => if (194 <=? a) && (a <? 224) then if cont b then Some ((a - 192) * 64 + (b - 128), 2%nat) else None else
      match r with
      | c :: r => if (224 <=? a) && (a <? 240) then
                    if cont b && cont c then Some ((a - 224) * 4096 + (b - 128) * 64 + (c - 128), 3%nat) else None else
        match r with
        | d :: r => if (240 <=? a) && (a <? 245) && cont b && cont c && cont d
                    then Some ((a - 240) * 262144 + (b - 128) * 4096 + (c - 128) * 64 + (d - 128), 4%nat) else None
        | [] => None
        end
      | [] => None
      end
    | [] => None
    end
  | [] => None
  end.

Lemma utf8_decoder : decoder utf8.
Proof.
  intros b c n H. unfold utf8 in H.
  repeat match type of H with
  | None = _ => discriminate
  | Some _ = _ => injection H as _ <-; cbn [length]; lia
  | match ?x with _ => _ end = _ => destruct x
  end.
Qed.

Example c06_example :
  (* "a\<newline>\<newline>" followed by e-acute and "\b" *)
  let t := [97; 92; 10; 92; 10; 195; 169; 92; 98] in
  logical utf8 t = [97; 233; 92; 98] /\ cursor_at utf8 t 1 = 233 /\
  option_map here (cursor_next utf8 (cursor_init t) 2) = Some [92; 98] /\
  option_map line (advances utf8 (cursor_init t) [1%nat; 1%nat]) = Some 3 /\
  option_map column (advances utf8 (cursor_init t) [1%nat; 1%nat]) = Some 2.
Proof. vm_compute. repeat split. Qed.

Print Assumptions c06_lookahead.
Print Assumptions c06_advance.
Print Assumptions c06_advance_then_look.
Print Assumptions c06_advance_error.
Print Assumptions c06_reaches_end.
Print Assumptions c43_location.
