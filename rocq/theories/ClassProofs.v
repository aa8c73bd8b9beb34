(** The packing of scalars into eightbytes done by registers.c/qwords.c, as positions,
    and its relation to the real layout. *)

From Coq Require Import ZArith Lia Bool List ZifyBool ZifyNat.
From Verif Require Import IrType LayoutModel PropLayout ClassModel ClassSpec.
Import ListNotations.
Open Scope Z_scope.

(** ** Lists *)

Lemma set_nth_length : forall {A} (l : list A) i x, length (set_nth l i x) = length l.
Proof. induction l; intros [|i] x; cbn; auto. Qed.
Lemma set_nth_same : forall {A} (l : list A) i x, (i < length l)%nat -> nth_error (set_nth l i x) i = Some x.
Proof. induction l; intros [|i] x H; cbn in *; try lia; auto. apply IHl. lia. Qed.
Lemma set_nth_other : forall {A} (l : list A) i j x, i <> j -> nth_error (set_nth l i x) j = nth_error l j.
Proof. induction l; intros [|i] [|j] x H; cbn in *; try congruence; auto. Qed.
Lemma nth_error_lt : forall {A} (l : list A) i x, nth_error l i = Some x -> (i < length l)%nat.
Proof. intros A l i x H. apply nth_error_Some. congruence. Qed.

Lemma merge_derive : forall a b, derive a b = merge a b.
Proof. intros [] []; reflexivity. Qed.

(** ** Rounding *)

Lemma roundup_least : forall x a y, 1 <= a -> (a | y) -> x <= y -> roundup x a <= y.
Proof.
  intros x a y Ha (k & ->) H. unfold roundup. apply Z.mul_le_mono_nonneg_r; [lia|].
  assert ((x + a - 1) / a < k + 1); [|lia].
  apply Z.div_lt_upper_bound; [lia|]. nia.
Qed.
Lemma roundup_id : forall x a, 1 <= a -> (a | x) -> roundup x a = x.
Proof.
  intros x a Ha D. pose proof (roundup_least x a x Ha D (Z.le_refl _)).
  pose proof (roundup_ge x a Ha). lia.
Qed.
Lemma roundup_mono : forall x y a, 1 <= a -> x <= y -> roundup x a <= roundup y a.
Proof.
  intros x y a Ha H. apply roundup_least; [exact Ha|apply roundup_mult|].
  pose proof (roundup_ge y a Ha). lia.
Qed.
Lemma roundup_add : forall b x a, 1 <= a -> (a | b) -> roundup (b + x) a = b + roundup x a.
Proof.
  intros b x a Ha (k & ->). unfold roundup.
  replace (k * a + x + a - 1) with (x + a - 1 + k * a) by lia.
  rewrite Z.div_add by lia. lia.
Qed.
Lemma roundup_div : forall x a b, 1 <= a -> 1 <= b -> (a | b) -> roundup x a <= roundup x b.
Proof.
  intros x a b Ha Hb D. apply roundup_least; [exact Ha| |].
  - eapply Z.divide_trans; [exact D|apply roundup_mult].
  - pose proof (roundup_ge x b Hb). lia.
Qed.

(** ** Positions *)

Definition base (T : tree) (p : Z) : Z := if is_bits T then p else roundup p (abi_align T).

Section PACK.
  Variable pack : tree -> Z -> list item * Z.
  Fixpoint pack_seq (ms : list tree) (p : Z) : list item * Z :=
    match ms with
    | [] => ([], p)
    | m :: ms =>
      let (l, p) := pack m p in let (l', p) := pack_seq ms p in (l ++ l', p)
    end.
  Fixpoint pack_union (ms : list tree) (p mx : Z) : list item * Z :=
    match ms with
    | [] => ([], mx)
    | m :: ms =>
      let (l, q) := pack m p in let (l', q) := pack_union ms p (Z.max mx q) in (l ++ l', q)
    end.
End PACK.
Fixpoint pack_times (f : Z -> list item * Z) (n : nat) (p : Z) : list item * Z :=
  match n with
  | O => ([], p)
  | S n => let (l, p) := f p in let (l', p) := pack_times f n p in (l ++ l', p)
  end.

Definition pack_leaf (T : tree) (c : tcode) (param p : Z) : list item * Z :=
  let o := roundup p (Z.min (abi_align T) 8) in
  match c with
  | CBits => (leaf_items c param p, p + abi_size T)
  | CBuiltin => ([(roundup p 8, 8, Integer)], roundup p 8 + 8)
  | _ => (leaf_items c param o, o + abi_size T)
  end.

Fixpoint pack (T : tree) (p : Z) {struct T} : list item * Z :=
  match T with
  | TLeaf c a param => pack_leaf T c param p
  | TAgg false _ ms => pack_seq pack ms p
  | TAgg true _ ms => pack_union pack ms p p
  | TArr _ n e => pack_times (pack e) (Z.to_nat n) p
  end.

(** ** Conforming types *)

Lemma conforming_kids : forall T k, conforming T = true -> In k (kids T) -> conforming k = true.
Proof.
  intros T k H I. unfold conforming in *.
  apply andb_true_iff in H as [H U]. apply andb_true_iff in H as [H N].
  apply andb_true_iff in H as [H A]. apply andb_true_iff in H as [V P].
  rewrite (valid_kids _ _ V I).
  destruct T as [c a p|un a ms|a n e]; cbn [kids] in I; [destruct I| |];
    cbn [pow2_aligned arrays_natural not_underaligned usable] in *;
    apply andb_true_iff in P as [_ P]; apply andb_true_iff in N as [_ N].
  - rewrite forallb_forall in P, N, A, U. now rewrite (P k I), (N k I), (A k I), (U k I).
  - destruct I as [<-|[]]. apply andb_true_iff in A as [_ A]. now rewrite P, N, A, U.
Qed.

Lemma conforming_parts : forall T, conforming T = true ->
  valid T = true /\ pow2_aligned T = true /\ arrays_natural T = true /\
  not_underaligned T = true /\ usable T = true.
Proof.
  intros T H. unfold conforming in H.
  apply andb_true_iff in H as [H U]. apply andb_true_iff in H as [H N].
  apply andb_true_iff in H as [H A]. apply andb_true_iff in H as [V P]. auto.
Qed.

Lemma conf_align : forall T, conforming T = true ->
  is_pow2 (abi_align T) /\ is_pow2 (snd (abi T)) /\ (snd (abi T) | abi_align T) /\ 1 <= abi_align T /\
  1 <= snd (abi T) /\ 0 <= abi_size T.
Proof.
  intros T H. destruct (conforming_parts T H) as (V & P & A & N & U).
  pose proof (pow2_nat _ V P) as P1. pose proof (pow2_eff _ _ P P1) as P2.
  destruct (own_abi T V) as (_ & _ & H1 & H2).
  destruct (member_ok T V) as (_ & _ & _ & _ & H3).
  repeat split; auto. apply pow2_div; auto. now apply eff_ge.
Qed.

Lemma pow2_8 : is_pow2 8.
Proof. exists 3. split; [lia|reflexivity]. Qed.

Lemma pow2_small : forall a, is_pow2 a -> a <= 8 -> a = 1 \/ a = 2 \/ a = 4 \/ a = 8.
Proof.
  intros a (k & Hk & ->) H.
  assert (k <= 3) by (apply (Z.pow_le_mono_r_iff 2); [lia|lia|exact H]).
  assert (k = 0 \/ k = 1 \/ k = 2 \/ k = 3) as [-> | [-> | [-> | ->]]] by lia; cbn; auto.
Qed.

(** ** The eightbyte vector *)

Definition Inv (n : nat) (s : qs) (p : Z) : Prop :=
  length (qv s) = n /\
  exists q, nth_error (qv s) (qcur s) = Some q /\ p = 8 * Z.of_nat (qcur s) + qo q /\
    0 <= qo q <= 8 /\
    forall j q', (qcur s < j)%nat -> nth_error (qv s) j = Some q' -> qo q' = 0.

Definition cls (s : qs) : list klass := map qc (qv s).

Definition add1 (i : nat) (k : klass) (x : item) : klass := if touches i x then merge k (snd x) else k.

(** The classes of [s'] are those of [s] with the items [l] merged in. *)
Definition added (n : nat) (s s' : qs) (l : list item) : Prop :=
  forall i, (i < n)%nat ->
    nth i (cls s') NoClass = fold_left (add1 i) l (nth i (cls s) NoClass).

Lemma added_trans : forall n s1 s2 s3 l1 l2, added n s1 s2 l1 -> added n s2 s3 l2 ->
  added n s1 s3 (l1 ++ l2).
Proof. intros n s1 s2 s3 l1 l2 H1 H2 i Hi. rewrite fold_left_app, <- H1, <- H2; auto. Qed.
Lemma added_nil : forall n s s', cls s' = cls s -> added n s s' [].
Proof. intros n s s' E i _. cbn. now rewrite E. Qed.

Lemma map_qc_set : forall l i q k, nth_error l i = Some q -> qc q = k ->
  forall o, map qc (set_nth l i {| qc := k; qo := o |}) = map qc l.
Proof.
  induction l; intros [|i] q k H E o; cbn in *; try discriminate.
  - injection H as ->. now rewrite E.
  - f_equal. eapply IHl; eauto.
Qed.
Lemma map_set : forall l i (q : qw), map qc (set_nth l i q) = set_nth (map qc l) i (qc q).
Proof. induction l; intros [|i] q; cbn; auto. now rewrite IHl. Qed.
Lemma nth_set_same : forall (l : list klass) i x d, (i < length l)%nat -> nth i (set_nth l i x) d = x.
Proof. intros l i x d H. apply nth_error_nth. now apply set_nth_same. Qed.
Lemma nth_set_other : forall (l : list klass) i j x d, i <> j -> nth j (set_nth l i x) d = nth j l d.
Proof. induction l; intros [|i] [|j] x d H; cbn in *; try congruence; auto. Qed.

Definition okal (a : Z) : Prop := (a = 1 \/ a = 2 \/ a = 4 \/ a = 8) \/ 16 <= a.

Lemma pow2_okal : forall a, is_pow2 a -> okal a.
Proof.
  intros a P. destruct (Z_le_gt_dec a 8) as [H|H]; [left; now apply pow2_small|right].
  destruct P as (k & Hk & ->). assert (3 < k).
  { destruct (Z_le_gt_dec k 3) as [L|L]; [|lia].
    pose proof (Z.pow_le_mono_r 2 k 3 ltac:(lia) L). change (2 ^ 3) with 8 in *. lia. }
  change 16 with (2 ^ 4). apply Z.pow_le_mono_r; lia.
Qed.

Lemma roundup_in8 : forall c off a, okal a -> 0 <= off <= 8 ->
  roundup (8 * c + off) (Z.min a 8) = 8 * c + roundup off (Z.min a 8) /\
  let unalign := off mod a in
  let pad := if 0 <? unalign then a - unalign else 0 in
  (off + pad < 8 -> roundup off (Z.min a 8) = off + pad) /\
  (8 <= off + pad -> roundup off (Z.min a 8) = 8).
Proof.
  intros c off a Ha Ho. split.
  - apply roundup_add; [destruct Ha; lia|].
    destruct Ha as [[-> | [-> | [-> | ->]]]|Ha].
    + apply Z.divide_1_l.
    + exists (4 * c). lia.
    + exists (2 * c). lia.
    + exists c. lia.
    + exists c. lia.
  - cbn zeta. destruct Ha as [Ha|Ha].
    + assert (Hc : off = 0 \/ off = 1 \/ off = 2 \/ off = 3 \/ off = 4 \/ off = 5 \/ off = 6 \/ off = 7 \/ off = 8) by lia.
      destruct Ha as [-> | [-> | [-> | ->]]];
      destruct Hc as [-> | [-> | [-> | [-> | [-> | [-> | [-> | [-> | ->]]]]]]]];
        vm_compute; split; intros HH; try reflexivity; try discriminate HH; exfalso; apply HH; reflexivity.
    + rewrite Z.min_r by lia. rewrite (Z.mod_small off a) by lia.
      destruct (0 <? off) eqn:E.
      * split; [lia|]. intros _.
        assert (Hc : off = 1 \/ off = 2 \/ off = 3 \/ off = 4 \/ off = 5 \/ off = 6 \/ off = 7 \/ off = 8) by lia.
        destruct Hc as [-> | [-> | [-> | [-> | [-> | [-> | [-> | ->]]]]]]]; reflexivity.
      * assert (off = 0) by lia. subst. cbn. split; intros; [reflexivity|lia].
Qed.

Lemma next_qword_ok : forall n s p a, Inv n s p -> okal a ->
  roundup p (Z.min a 8) < 8 * Z.of_nat n ->
  exists s' q, next_qword s a = Some s' /\ Inv n s' (roundup p (Z.min a 8)) /\ cls s' = cls s /\
    nth_error (qv s') (qcur s') = Some q /\ qo q < 8.
Proof.
  intros n s p a (L & q & Eq & -> & Ho & Hz) Ha B.
  destruct (roundup_in8 (Z.of_nat (qcur s)) (qo q) a Ha Ho) as (R & R1 & R2). cbn zeta in R1, R2.
  unfold next_qword. rewrite Eq. rewrite R in *.
  set (pad := if 0 <? qo q mod a then a - qo q mod a else 0) in *.
  assert (A0 : a =? 0 = false) by (destruct Ha; lia). rewrite A0. cbn [orb].
  destruct (8 <=? qo q + pad) eqn:E.
  - rewrite R2 in * by lia.
    destruct (nth_error (qv s) (S (qcur s))) as [q'|] eqn:E'.
    2:{ apply nth_error_None in E'. lia. }
    pose proof (Hz (S (qcur s)) q' ltac:(lia) E') as Z'.
    exists {| qv := qv s; qcur := S (qcur s) |}, q'. repeat split; cbn [qv qcur]; auto; try lia.
    exists q'. split; [exact E'|]. split; [lia|]. split; [lia|]. intros j q'' Hj. apply Hz. lia.
  - assert (Pp : 0 <= pad).
    { unfold pad. destruct (0 <? qo q mod a); [|lia]. 
      assert (0 < a) by (destruct Ha; lia). pose proof (Z.mod_pos_bound (qo q) a ltac:(lia)). lia. }
    rewrite R1 in * by lia. pose proof (nth_error_lt _ _ _ Eq) as Lt.
    exists {| qv := set_nth (qv s) (qcur s) {| qc := qc q; qo := qo q + pad |}; qcur := qcur s |},
      {| qc := qc q; qo := qo q + pad |}.
    repeat split; cbn [qv qcur qo].
    + now rewrite set_nth_length.
    + exists {| qc := qc q; qo := qo q + pad |}. repeat split; cbn [qo]; try lia.
      * now apply set_nth_same.
      * intros j q' Hj. rewrite set_nth_other by lia. now apply Hz.
    + eapply map_qc_set; eauto.
    + now apply set_nth_same.
    + lia.
Qed.

Lemma roundup_1 : forall x, roundup x 1 = x.
Proof. intros. apply roundup_id; [lia|apply Z.divide_1_l]. Qed.

Lemma next_loop_ok : forall fuel n s p c size a, Inv n s p -> okal a -> 0 < size ->
  size <= Z.of_nat fuel -> roundup p (Z.min a 8) + size <= 8 * Z.of_nat n ->
  exists s', next_loop fuel s c size a = Some s' /\ Inv n s' (roundup p (Z.min a 8) + size) /\
    added n s s' [(roundup p (Z.min a 8), size, c)].
Proof.
  induction fuel as [|fuel IH]; intros n s p c size a I Ha Hs F B; [lia|].
  cbn [next_loop]. replace (size <=? 0) with false by lia.
  destruct (next_qword_ok n s p a I Ha ltac:(lia)) as (s1 & q & E1 & I1 & C1 & Eq & Hq).
  rewrite E1, Eq. set (o := roundup p (Z.min a 8)) in *.
  destruct I1 as (L & q0 & Eq0 & Ho & Hr & Hz). rewrite Eq in Eq0. injection Eq0 as <-.
  pose proof (nth_error_lt _ _ _ Eq) as Lt.
  set (chunk := Z.min (8 - qo q) size) in *.
  set (s2 := {| qv := set_nth (qv s1) (qcur s1) {| qc := derive (qc q) c; qo := qo q + chunk |};
                qcur := qcur s1 |}) in *.
  assert (I2 : Inv n s2 (o + chunk)).
  { split; cbn [s2 qv qcur]; [now rewrite set_nth_length|].
    exists {| qc := derive (qc q) c; qo := qo q + chunk |}. cbn [qo].
    split; [apply set_nth_same; lia|]. split; [lia|]. split; [lia|].
    intros j q' Hj. rewrite set_nth_other by lia. now apply Hz. }
  assert (C2 : forall i, (i < n)%nat -> nth i (cls s2) NoClass =
     if Nat.eqb i (qcur s1) then merge (nth i (cls s) NoClass) c else nth i (cls s) NoClass).
  { intros i Hi. unfold cls in *. cbn [s2 qv]. rewrite map_set. cbn [qc]. rewrite C1.
    destruct (Nat.eqb i (qcur s1)) eqn:E.
    - apply Nat.eqb_eq in E. subst i. rewrite nth_set_same by (rewrite <- C1, map_length; lia).
      rewrite merge_derive. f_equal. rewrite <- C1. symmetry. apply nth_error_nth.
      now apply map_nth_error.
    - apply Nat.eqb_neq in E. apply nth_set_other. congruence. }
  destruct (Z_le_gt_dec (size - chunk) 0) as [D|D].
  - exists s2. split; [destruct fuel; cbn [next_loop]; now replace (size - chunk <=? 0) with true by lia|].
    replace (o + size) with (o + chunk) by lia. split; [exact I2|].
    intros i Hi. rewrite C2 by exact Hi. cbn [fold_left add1 touches snd].
    unfold add1, touches. cbn [snd].
    replace ((8 * Z.of_nat i <? o + size) && (o <? 8 * Z.of_nat i + 8)) with (Nat.eqb i (qcur s1)) by lia.
    reflexivity.
  - assert (Hc : chunk = 8 - qo q) by lia.
    destruct (IH n s2 (o + chunk) c (size - chunk) 1 I2 ltac:(left; auto) ltac:(lia) ltac:(lia))
      as (s' & E' & I' & A').
    { change (Z.min 1 8) with 1. rewrite roundup_1. lia. }
    change (Z.min 1 8) with 1 in *. rewrite roundup_1 in *.
    exists s'. split; [exact E'|]. split; [now replace (o + size) with (o + chunk + (size - chunk)) by lia|].
    intros i Hi. rewrite A' by exact Hi. rewrite C2 by exact Hi. cbn [fold_left].
    unfold add1, touches. cbn [snd].
    destruct (Nat.eqb i (qcur s1)) eqn:E.
    + replace ((8 * Z.of_nat i <? o + chunk + (size - chunk)) && (o + chunk <? 8 * Z.of_nat i + 8)) with false by lia.
      replace ((8 * Z.of_nat i <? o + size) && (o <? 8 * Z.of_nat i + 8)) with true by lia. reflexivity.
    + replace ((8 * Z.of_nat i <? o + size) && (o <? 8 * Z.of_nat i + 8))
        with ((8 * Z.of_nat i <? o + chunk + (size - chunk)) && (o + chunk <? 8 * Z.of_nat i + 8)) by lia.
      reflexivity.
Qed.

Lemma next_ok : forall n s p c size a, Inv n s p -> okal a -> 0 < size ->
  roundup p (Z.min a 8) + size <= 8 * Z.of_nat n ->
  exists s', qwords_next s c size a = Some s' /\ Inv n s' (roundup p (Z.min a 8) + size) /\
    added n s s' [(roundup p (Z.min a 8), size, c)].
Proof.
  intros n s p c size a I Ha Hs B. unfold qwords_next. replace (0 <? size) with true by lia.
  apply next_loop_ok; auto. lia.
Qed.

(** ** Saving and restoring positions *)

Lemma reset_map : forall l, map qc (reset_offsets l) = map qc l.
Proof. induction l; cbn; congruence. Qed.
Lemma restore_map : forall l i o, map qc (restore_offsets l i o) = map qc l.
Proof. induction l; intros [|i] o; cbn; auto; [now rewrite reset_map|now rewrite IHl]. Qed.
Lemma reset_len : forall l, length (reset_offsets l) = length l.
Proof. induction l; cbn; congruence. Qed.
Lemma restore_len : forall l i o, length (restore_offsets l i o) = length l.
Proof. induction l; intros [|i] o; cbn; auto. now rewrite reset_len. Qed.
Lemma reset_nth : forall l j q, nth_error (reset_offsets l) j = Some q -> qo q = 0.
Proof. induction l; intros [|j] q H; cbn in *; try discriminate; [now injection H as <-|eauto]. Qed.
Lemma restore_nth : forall l i o, (i < length l)%nat ->
  (exists q, nth_error (restore_offsets l i o) i = Some q /\ qo q = o) /\
  forall j q, (i < j)%nat -> nth_error (restore_offsets l i o) j = Some q -> qo q = 0.
Proof.
  induction l; intros [|i] o H; cbn in *; try lia.
  - split; [eauto|]. intros [|j] q Hj E; [lia|]. eapply reset_nth; eauto.
  - destruct (IHl i o ltac:(lia)) as (H1 & H2). split; [exact H1|].
    intros [|j] q Hj E; [lia|]. eapply H2; [|exact E]. lia.
Qed.

(** [pos] is a saved position worth [p]. *)
Definition at_position (n : nat) (pos : nat * Z) (p : Z) : Prop :=
  (fst pos < n)%nat /\ 0 <= snd pos <= 8 /\ p = 8 * Z.of_nat (fst pos) + snd pos.

Lemma save_ok : forall n s p, Inv n s p -> exists pos, save_position s = Some pos /\ at_position n pos p.
Proof.
  intros n s p (L & q & E & Ep & Hq & _). unfold save_position. rewrite E.
  eexists. split; [reflexivity|]. pose proof (nth_error_lt _ _ _ E).
  unfold at_position. cbn [fst snd]. repeat split; auto; lia.
Qed.
Lemma restore_ok : forall n s p0 pos p, Inv n s p0 -> at_position n pos p ->
  exists s', restore_position s pos = Some s' /\ Inv n s' p /\ cls s' = cls s.
Proof.
  intros n s p0 (i, o) p (L & _) (H1 & H2 & ->). cbn [fst snd] in *. unfold restore_position.
  replace ((o <=? 8) && (i <? length (qv s))%nat) with true by lia. cbn [orb].
  eexists. split; [reflexivity|]. destruct (restore_nth (qv s) i o ltac:(lia)) as ((q & Eq & Eo) & Z0).
  split; [|unfold cls; cbn [qv]; apply restore_map].
  split; cbn [qv qcur]; [rewrite restore_len; exact L|].
  exists q. repeat split; auto; try lia.
Qed.
Lemma max_ok : forall n a b p q, at_position n a p -> at_position n b q ->
  at_position n (max_position a b) (Z.max p q).
Proof.
  intros n (i, o) (j, o') p q (A1 & A2 & ->) (B1 & B2 & ->). cbn [fst snd] in *.
  unfold max_position. cbn [fst snd].
  destruct ((o' <=? o) && (i =? j)%nat || (j <? i)%nat) eqn:E; unfold at_position; cbn [fst snd];
    repeat split; auto; lia.
Qed.

(** ** The walk *)

Lemma lalign_abi : forall T, valid T = true -> lalign T = abi_align T.
Proof.
  intros T V. destruct (own_abi T V) as (_ & E & _). unfold lalign, abi_align, eff_align. now rewrite E.
Qed.

Lemma leaf_size_pos : forall c a p, conforming (TLeaf c a p) = true -> 0 < abi_size (TLeaf c a p).
Proof.
  intros c a p H. destruct (conforming_parts _ H) as (V & _ & _ & _ & U).
  unfold abi_size. cbn [abi]. cbn [usable] in U.
  destruct c; cbn [abi_leaf fst]; try lia; try discriminate U;
    try (exfalso; cbn in V; discriminate V).
  unfold roundup. rewrite Z.div_mul by lia. apply Z.div_str_pos. lia.
Qed.

Lemma roundup_ge0 : forall x a, 1 <= a -> x <= roundup x a.
Proof. intros x a H. pose proof (roundup_ge x a H). lia. Qed.

Section MONO.
  Variable f : tree -> Z -> list item * Z.
  Lemma pack_seq_mono : forall ms, (forall m p, In m ms -> p <= snd (f m p)) ->
    forall p, p <= snd (pack_seq f ms p).
  Proof.
    induction ms as [|m ms IH]; intros H p; cbn [pack_seq snd]; [lia|].
    pose proof (H m p (or_introl eq_refl)) as H1. destruct (f m p) as [l q].
    specialize (IH (fun m p I => H m p (or_intror I)) q). destruct (pack_seq f ms q). cbn [snd] in *. lia.
  Qed.
  Lemma pack_union_mono : forall ms p mx, mx <= snd (pack_union f ms p mx).
  Proof.
    induction ms as [|m ms IH]; intros p mx; cbn [pack_union snd]; [lia|].
    destruct (f m p) as [l q]. specialize (IH p (Z.max mx q)).
    destruct (pack_union f ms p (Z.max mx q)). cbn [snd] in *. lia.
  Qed.
End MONO.
Lemma pack_times_mono : forall f, (forall p, p <= snd (f p)) -> forall n p, p <= snd (pack_times f n p).
Proof.
  intros f H. induction n as [|n IH]; intros p; cbn [pack_times snd]; [lia|].
  pose proof (H p) as H1. destruct (f p) as [l q]. specialize (IH q).
  destruct (pack_times f n q). cbn [snd] in *. lia.
Qed.

Lemma pack_mono : forall T, conforming T = true -> forall p, p <= snd (pack T p).
Proof.
  induction T as [T IH] using tree_ind2. intros C p.
  pose proof (conforming_kids T) as K. specialize (fun k => K k C).
  destruct (conf_align T C) as (_ & _ & _ & A1 & _ & S0).
  destruct T as [c a q|[] a ms|a n e]; cbn [pack].
  - pose proof (roundup_ge0 p (Z.min (abi_align (TLeaf c a q)) 8) ltac:(lia)).
    pose proof (roundup_ge0 p 8 ltac:(lia)).
    unfold pack_leaf. destruct c; cbn [snd]; lia.
  - apply pack_union_mono.
  - apply pack_seq_mono. intros m x I. apply IH; auto.
  - apply pack_times_mono. intros x. apply IH; [now left|]. apply K. now left.
Qed.

Definition walk_spec (n : nat) (T : tree) : Prop :=
  forall s p, Inv n s p -> snd (pack T p) <= 8 * Z.of_nat n ->
  exists s', walk T s = Some s' /\ Inv n s' (snd (pack T p)) /\ added n s s' (fst (pack T p)).

Lemma walk_leaf_ok : forall n c a q, conforming (TLeaf c a q) = true -> walk_spec n (TLeaf c a q).
Proof.
  intros n c a q C s p I B. pose proof (leaf_size_pos _ _ _ C) as SP.
  destruct (conforming_parts _ C) as (V & P & _ & N & U).
  destruct (conf_align _ C) as (P2 & _ & Dv & A1 & _ & _).
  pose proof (pow2_okal _ P2) as OK. pose proof (lalign_abi _ V) as LA.
  destruct (own_abi _ V) as (LS & _).
  assert (ONE : forall k, roundup p (Z.min (abi_align (TLeaf c a q)) 8) + abi_size (TLeaf c a q)
      <= 8 * Z.of_nat n ->
    exists s', qwords_next s k (l_size (own (TLeaf c a q))) (lalign (TLeaf c a q)) = Some s' /\
      Inv n s' (roundup p (Z.min (abi_align (TLeaf c a q)) 8) + abi_size (TLeaf c a q)) /\
      added n s s' [(roundup p (Z.min (abi_align (TLeaf c a q)) 8), abi_size (TLeaf c a q), k)]).
  { intros k Bk. rewrite LS, LA. apply next_ok; auto. }
  cbn [walk pack] in *. unfold pack_leaf in *.
  destruct c; cbn [fst snd leaf_items] in *;
    try (cbn [usable] in U; discriminate U);
    try (exfalso; cbn in V; discriminate V);
    unfold walk_leaf; cbv beta iota zeta;
    try match goal with
        | |- context [qwords_next s ?k (l_size (own _))] =>
          destruct (ONE k B) as (s' & E & I' & A'); exists s'; split; [exact E|];
          split; [exact I'|exact A']
        end.
  - (* long double *)
    set (al := abi_align (TLeaf CLongDouble a q)) in *.
    assert (A16 : 16 <= al).
    { destruct Dv as (k & Ek). change (snd (abi (TLeaf CLongDouble a q))) with 16 in Ek.
      assert (1 <= k) by nia. lia. }
    rewrite LA. clearbody al.
    change (abi_size (TLeaf CLongDouble a q)) with 16 in *.
    replace (Z.min al 8) with 8 in B by lia. replace (Z.min al 8) with 8 by lia.
    assert (R : roundup p (Z.min al 8) = roundup p 8) by (now replace (Z.min al 8) with 8 by lia).
    destruct (next_ok n s p X87 8 al I OK ltac:(lia) ltac:(rewrite R; lia)) as (s1 & E1 & I1 & D1).
    rewrite R in *. rewrite E1.
    assert (R2 : roundup (roundup p 8 + 8) (Z.min al 8) = roundup p 8 + 8).
    { replace (Z.min al 8) with 8 by lia. apply roundup_id; [lia|].
      apply Z.divide_add_r; [apply roundup_mult|apply Z.divide_refl]. }
    destruct (next_ok n s1 _ X87Up 8 al I1 OK ltac:(lia) ltac:(rewrite R2; lia)) as (s2 & E2 & I2 & D2).
    rewrite R2 in *. exists s2. split; [exact E2|].
    split; [now replace (roundup p 8 + 16) with (roundup p 8 + 8 + 8) by lia|].
    exact (added_trans n s s1 s2 [_] [_] D1 D2).
  - (* bits *)
    cbn [usable] in U. unfold qwords_next_bitfield. rewrite U.
    assert (SZ : q / 8 + (if q mod 8 =? 0 then 0 else 1) = abi_size (TLeaf CBits a q)).
    { rewrite <- LS. reflexivity. }
    rewrite SZ.
    assert (R : roundup p (Z.min 1 8) = p) by (change (Z.min 1 8) with 1; apply roundup_1).
    destruct (next_loop_ok (Z.to_nat (abi_size (TLeaf CBits a q))) n s p Integer
                (abi_size (TLeaf CBits a q)) 1 I ltac:(left; auto) SP
                ltac:(lia) ltac:(rewrite R; exact B)) as (s' & E & I' & A').
    rewrite R in *. exists s'. split; [exact E|]. split; [exact I'|exact A'].
  - (* built-in *)
    assert (Q : q =? 0 = true).
    { cbn in V. unfold lwf, codes_ok in V. cbn in V. destruct (q =? 0); [reflexivity|discriminate V]. }
    rewrite Q.
    destruct (next_ok n s p Integer 8 8 I ltac:(left; auto) ltac:(lia) B) as (s1 & E1 & I1 & D1).
    exists s1. split; [exact E1|]. split; [exact I1|exact D1].
Qed.

Lemma walk_ok : forall n T, conforming T = true -> walk_spec n T.
Proof.
  intros n. induction T as [T IH] using tree_ind2. intros C.
  pose proof (conforming_kids T) as K. specialize (fun k => K k C).
  destruct T as [c a q|[] a ms|a m e].
  - now apply walk_leaf_ok.
  - intros s p I B. cbn [walk pack kids] in *.
    destruct (save_ok n s p I) as (pos & Es & Ap). rewrite Es.
    assert (G : forall l, (forall x, In x l -> In x ms) -> forall mx pm s0, Inv n s0 p ->
      at_position n mx pm -> snd (pack_union pack l p pm) <= 8 * Z.of_nat n ->
      exists s', walk_union walk l pos mx s0 = Some s' /\ Inv n s' (snd (pack_union pack l p pm)) /\
        added n s0 s' (fst (pack_union pack l p pm))).
    { induction l as [|x l IHl]; intros Hl mx pm s0 I0 Am B0; cbn [walk_union pack_union fst snd] in *.
      - destruct (restore_ok n s0 p mx pm I0 Am) as (s' & E & I' & Cc). exists s'.
        split; [exact E|]. split; [exact I'|]. now apply added_nil.
      - assert (Ix : In x ms) by (apply Hl; now left).
        pose proof (IH x Ix (K x Ix) s0 p I0) as IHx.
        destruct (pack x p) as [lx qx] eqn:Ex. cbn [fst snd] in IHx.
        pose proof (pack_union_mono pack l p (Z.max pm qx)) as M.
        specialize (IHl (fun y h => Hl y (or_intror h))).
        destruct (pack_union pack l p (Z.max pm qx)) as [ll ql] eqn:El. cbn [fst snd] in *.
        destruct (IHx ltac:(lia)) as (s1 & E1 & I1 & D1). rewrite E1.
        destruct (save_ok n s1 qx I1) as (cur & Ec & Ac). rewrite Ec.
        destruct (restore_ok n s1 qx pos p I1 Ap) as (s2 & E2 & I2 & C2). rewrite E2.
        specialize (IHl (max_position mx cur) (Z.max pm qx) s2 I2 (max_ok _ _ _ _ _ Am Ac)).
        rewrite El in IHl. cbn [fst snd] in IHl. destruct (IHl B0) as (s' & E' & I' & D').
        exists s'. split; [exact E'|]. split; [exact I'|].
        eapply added_trans; [exact D1|]. intros i Hi. rewrite D' by exact Hi. now rewrite C2. }
    apply (G ms (fun x h => h) pos p s I Ap B).
  - intros s p I B. cbn [walk pack kids] in *.
    assert (G : forall l, (forall x, In x l -> In x ms) -> forall s0 p0, Inv n s0 p0 ->
      snd (pack_seq pack l p0) <= 8 * Z.of_nat n ->
      exists s', walk_seq walk l s0 = Some s' /\ Inv n s' (snd (pack_seq pack l p0)) /\
        added n s0 s' (fst (pack_seq pack l p0))).
    { induction l as [|x l IHl]; intros Hl s0 p0 I0 B0; cbn [walk_seq pack_seq fst snd] in *.
      - exists s0. split; [reflexivity|]. split; [exact I0|]. now apply added_nil.
      - assert (Ix : In x ms) by (apply Hl; now left).
        pose proof (IH x Ix (K x Ix) s0 p0 I0) as IHx.
        destruct (pack x p0) as [lx qx] eqn:Ex. cbn [fst snd] in IHx.
        specialize (IHl (fun y h => Hl y (or_intror h))).
        pose proof (pack_seq_mono pack l (fun y q h => pack_mono y (K y (Hl y (or_intror h))) q) qx) as M.
        pose proof (fun s1 h => IHl s1 qx h) as IH2.
        destruct (pack_seq pack l qx) as [ll ql] eqn:El. cbn [fst snd] in *.
        destruct (IHx ltac:(lia)) as (s1 & E1 & I1 & D1). rewrite E1.
        destruct (IH2 s1 I1 B0) as (s' & E' & I' & D').
        exists s'. split; [exact E'|]. split; [exact I'|]. eapply added_trans; eauto. }
    apply (G ms (fun x h => h) s p I B).
  - intros s p I B. cbn [walk pack kids] in *.
    assert (Ce : conforming e = true) by (apply K; now left).
    revert s p I B. generalize (Z.to_nat m). clear m C K.
    intros k. induction k as [|k IHk]; intros s p I B; cbn [walk_times pack_times fst snd] in *.
    + exists s. split; [reflexivity|]. split; [exact I|]. now apply added_nil.
    + pose proof (IH e (or_introl eq_refl) Ce s p I) as IHe.
      destruct (pack e p) as [lx qx] eqn:Ex. cbn [fst snd] in IHe.
      pose proof (pack_times_mono (pack e) (pack_mono e Ce) k qx) as M.
      pose proof (fun s1 h => IHk s1 qx h) as IH2.
      destruct (pack_times (pack e) k qx) as [ll ql] eqn:El. cbn [fst snd] in *.
      destruct (IHe ltac:(lia)) as (s1 & E1 & I1 & D1). rewrite E1.
      destruct (IH2 s1 I1 B) as (s' & E' & I' & D').
      exists s'. split; [exact E'|]. split; [exact I'|]. eapply added_trans; eauto.
Qed.

(** ** The packing never runs past the object *)

Lemma member_align : forall T m, conforming T = true -> In m (kids T) ->
  (abi_align m | snd (abi T)) /\ (forall un a ms, T = TAgg un a ms -> 
     (un = true -> abi_size m <= abi_size T)).
Proof.
  intros T m C I. pose proof (conforming_kids _ _ C I) as Cm.
  destruct (conforming_parts T C) as (V & _). destruct (conf_align T C) as (_ & PT & _).
  destruct (conf_align m Cm) as (Pm & _).
  destruct T as [c a q|un a ms|a n e]; cbn [kids] in I; [destruct I| |].
  - apply in_split in I as (l1 & l2 & ->). destruct un.
    + destruct (c33_union_covers_its_members a l1 m l2 V) as (S1 & _ & S3).
      split; [now apply pow2_div|]. intros un a' ms' E _. exact S1.
    + destruct (c33_structure_members_ordered_aligned_inside a l1 m l2 V) as (_ & _ & _ & _ & _ & S6).
      split; [now apply pow2_div|]. intros un a' ms' E Hu. injection E as <- _ _. discriminate Hu.
  - destruct I as [<-|[]]. split; [apply Z.divide_refl|]. intros; discriminate.
Qed.

Lemma base_ge : forall T p, 1 <= abi_align T -> p <= base T p.
Proof. intros T p H. unfold base. destruct (is_bits T); [lia|]. now apply roundup_ge0. Qed.

Lemma base_shift : forall T B e, 1 <= abi_align T -> (abi_align T | B) ->
  base T (B + e) = B + base T e.
Proof. intros T B e H D. unfold base. destruct (is_bits T); [reflexivity|]. now apply roundup_add. Qed.

Lemma struct_size : forall a ms, conforming (TAgg false a ms) = true ->
  members_end ms <= abi_size (TAgg false a ms).
Proof.
  intros a ms C. destruct (conf_align _ C) as (_ & _ & _ & _ & H & _).
  unfold abi_size. cbn [abi fst].
  change (map (fun m => (is_bits m, fst (abi m), eff_align m (snd (abi m)))) ms) with (map member ms).
  apply roundup_ge0. exact H.
Qed.

Lemma pack_le : forall T, conforming T = true -> forall p b, p <= b ->
  snd (pack T p) <= base T b + abi_size T.
Proof.
  induction T as [T IH] using tree_ind2. intros C p b H.
  pose proof (conforming_kids T) as K. specialize (fun k => K k C).
  pose proof (member_align T) as MA. specialize (fun m => MA m C).
  destruct (conf_align T C) as (P2 & _ & Dv & A1 & N1 & S0).
  pose proof (base_ge T b A1) as GB.
  destruct T as [c a q|[] a ms|a n e]; cbn [pack kids] in *.
  - pose proof (pow2_okal _ P2) as OK. set (T := TLeaf c a q) in *.
    assert (M : (Z.min (abi_align T) 8 | abi_align T)).
    { apply pow2_div; [|exact P2|lia]. destruct (Z.min_spec (abi_align T) 8) as [[_ ->]|[_ ->]];
        [exact P2|exact pow2_8]. }
    assert (R1 : roundup p (Z.min (abi_align T) 8) <= roundup b (abi_align T)).
    { eapply Z.le_trans; [apply roundup_mono; [lia|exact H]|]. apply roundup_div; [lia|lia|exact M]. }
    unfold pack_leaf. fold T.
    assert (BB : is_bits T = false -> base T b = roundup b (abi_align T)) by (unfold base; now intros ->).
    destruct c; cbn [snd]; try (rewrite BB by reflexivity; lia).
    + change (base T b) with b. lia.
    + rewrite BB by reflexivity. change (abi_size T) with 24.
      change (snd (abi T)) with 8 in Dv.
      pose proof (roundup_div b 8 (abi_align T) ltac:(lia) A1 Dv).
      pose proof (roundup_mono p b 8 ltac:(lia) H). lia.
  - set (T := TAgg true a ms) in *.
    assert (G : forall l, (forall x, In x l -> In x ms) -> forall mx, mx <= base T b + abi_size T ->
              snd (pack_union pack l p mx) <= base T b + abi_size T).
    { induction l as [|x l IHl]; intros Hl mx Hm; cbn [pack_union snd]; [exact Hm|].
      assert (Ix : In x ms) by (apply Hl; now left).
      pose proof (IH x Ix (K x Ix) p b H) as Hx. destruct (pack x p) as [lx qx]. cbn [snd] in Hx.
      destruct (MA x Ix) as (D & Sz). specialize (Sz true a ms eq_refl eq_refl).
      destruct (conf_align x (K x Ix)) as (_ & _ & _ & Ax & _).
      assert (base x b <= base T b).
      { unfold base at 1. destruct (is_bits x); [exact GB|]. change (base T b) with (roundup b (abi_align T)).
        apply roundup_div; [exact Ax|exact A1|]. eapply Z.divide_trans; eauto. }
      specialize (IHl (fun y h => Hl y (or_intror h)) (Z.max mx qx) ltac:(lia)).
      destruct (pack_union pack l p (Z.max mx qx)). exact IHl. }
    apply (G ms (fun x h => h)). lia.
  - set (T := TAgg false a ms) in *. set (B := base T b) in *.
    assert (DB : (abi_align T | B)) by (unfold B; apply roundup_mult).
    assert (G : forall l, (forall x, In x l -> In x ms) -> forall p0 e, p0 <= B + e ->
              snd (pack_seq pack l p0) <= B + fold_left place_end (map member l) e).
    { induction l as [|x l IHl]; intros Hl p0 e He; cbn [pack_seq snd map fold_left]; [exact He|].
      assert (Ix : In x ms) by (apply Hl; now left).
      pose proof (IH x Ix (K x Ix) p0 (B + e) He) as Hx. destruct (pack x p0) as [lx qx]. cbn [snd] in Hx.
      destruct (MA x Ix) as (D & _). destruct (conf_align x (K x Ix)) as (_ & _ & _ & Ax & _).
      rewrite base_shift in Hx; [|exact Ax|exact (Z.divide_trans _ _ _ D (Z.divide_trans _ _ _ Dv DB))].
      specialize (IHl (fun y h => Hl y (or_intror h)) qx (place_end e (member x))).
      destruct (pack_seq pack l qx). apply IHl. unfold place_end, member. unfold base in Hx. lia. }
    pose proof (G ms (fun x h => h) p 0 ltac:(lia)) as G0.
    pose proof (struct_size a ms C) as Sz. fold T in Sz. unfold members_end in Sz. lia.
  - set (T := TArr a n e) in *. set (B := base T b) in *.
    assert (DB : (abi_align T | B)) by (unfold B; apply roundup_mult).
    assert (Ce : conforming e = true) by (apply K; now left).
    destruct (MA e (or_introl eq_refl)) as (D & _). destruct (conf_align e Ce) as (_ & _ & _ & Ax & _).
    destruct (conforming_parts T C) as (V & _ & A & _).
    cbn [arrays_natural T] in A. apply andb_true_iff in A as [A _].
    destruct (c33_array_elements_contiguous_and_aligned a n e V A) as (Sz & _ & De). fold T in Sz.
    assert (Hn : 0 <= n).
    { apply valid_lwf, lwf_wf in V. cbn [wf T] in V. lia. }
    assert (G : forall k p0 j, p0 <= B + j * abi_size e ->
              snd (pack_times (pack e) k p0) <= B + (j + Z.of_nat k) * abi_size e).
    { induction k as [|k IHk]; intros p0 j Hj; cbn [pack_times snd].
      - replace (j + Z.of_nat 0) with j by lia. exact Hj.
      - pose proof (IH e (or_introl eq_refl) Ce p0 _ Hj) as Hx.
        destruct (pack e p0) as [lx qx]. cbn [snd] in Hx.
        assert (Eb : base e (B + j * abi_size e) = B + j * abi_size e).
        { unfold base. destruct (is_bits e); [reflexivity|]. apply roundup_id; [exact Ax|].
          apply Z.divide_add_r; [|apply De].
          exact (Z.divide_trans _ _ _ D (Z.divide_trans _ _ _ Dv DB)). }
        specialize (IHk qx (j + 1)). destruct (pack_times (pack e) k qx). cbn [snd] in *.
        replace (j + Z.of_nat (S k)) with (j + 1 + Z.of_nat k) by lia. apply IHk. lia. }
    specialize (G (Z.to_nat n) p 0 ltac:(lia)). rewrite Sz.
    replace (0 + Z.of_nat (Z.to_nat n)) with n in G by lia. exact G.
Qed.

(** ** Tight members are packed where they really are *)

Definition packed_at (m : tree) : Prop := forall p, 0 <= p -> base m p + abi_size m <= 16 ->
  pack m p = (items m (base m p), base m p + abi_size m).

Lemma place_end_base : forall e m, place_end e (member m) = base m e + abi_size m.
Proof. reflexivity. Qed.

Lemma fold_place_mono : forall l e, (forall m, In m l -> conforming m = true) ->
  e <= fold_left place_end (map member l) e.
Proof.
  induction l as [|m l IH]; intros e H; cbn [map fold_left]; [lia|].
  eapply Z.le_trans; [|apply IH; intros; apply H; now right]. rewrite place_end_base.
  destruct (conf_align m (H m (or_introl eq_refl))) as (_ & _ & _ & A & _ & S0).
  pose proof (base_ge m e A). lia.
Qed.

Lemma struct_packed : forall B l p e,
  (forall m, In m l -> conforming m = true /\ packed_at m /\ (abi_align m | B)) ->
  0 <= p -> 0 <= B -> 0 <= e ->
  match l with [] => p = B + e | m :: _ => base m p = B + base m e end ->
  B + fold_left place_end (map member l) e <= 16 ->
  pack_seq pack l p = (struct_items items l B e, B + fold_left place_end (map member l) e).
Proof.
  intros B. induction l as [|m l IH]; intros p e H Hp HB He Hf Hb; cbn [pack_seq struct_items map fold_left] in *.
  - now subst.
  - destruct (H m (or_introl eq_refl)) as (Cm & Pm & Dm).
    destruct (conf_align m Cm) as (_ & _ & _ & A & _ & S0). pose proof (base_ge m e A) as Ge.
    pose proof (fold_place_mono l (place_end e (member m))
                  (fun x h => proj1 (H x (or_intror h)))) as M.
    rewrite place_end_base in *.
    rewrite (Pm p Hp) by lia. rewrite Hf.
    rewrite (IH (B + base m e + abi_size m) (base m e + abi_size m)).
    + unfold base. reflexivity.
    + intros x h. apply H. now right.
    + lia.
    + exact HB.
    + lia.
    + destruct l as [|x l]; [lia|]. destruct (H x (or_intror (or_introl eq_refl))) as (Cx & _ & Dx).
      rewrite <- (base_shift x); [|now destruct (conf_align x Cx) as (_ & _ & _ & Ax & _)|exact Dx].
      f_equal. lia.
    + exact Hb.
Qed.

Lemma union_packed : forall B p l mx, 0 <= p -> mx <= 16 ->
  (forall m, In m l -> packed_at m /\ base m p = B /\ B + abi_size m <= 16) ->
  fst (pack_union pack l p mx) = flat_map (fun m => items m B) l /\
  snd (pack_union pack l p mx) = fold_left (fun x m => Z.max x (B + abi_size m)) l mx.
Proof.
  intros B p. induction l as [|m l IH]; intros mx Hp Hm H; cbn [pack_union flat_map fold_left fst snd]; [auto|].
  destruct (H m (or_introl eq_refl)) as (Pm & Em & Sm).
  rewrite (Pm p Hp) by lia. rewrite Em.
  destruct (IH (Z.max mx (B + abi_size m)) Hp ltac:(lia) (fun x h => H x (or_intror h))) as (H1 & H2).
  destruct (pack_union pack l p (Z.max mx (B + abi_size m))). cbn [fst snd] in *. subst. auto.
Qed.

Lemma times_packed : forall B e, packed_at e -> 0 <= B -> 0 <= abi_size e ->
  (forall k, 0 <= k -> base e (B + k * abi_size e) = B + k * abi_size e) ->
  forall n j p, 0 <= p -> base e p = B + Z.of_nat j * abi_size e ->
  B + (Z.of_nat j + Z.of_nat (S n)) * abi_size e <= 16 ->
  pack_times (pack e) (S n) p =
    (flat_map (fun k => items e (B + Z.of_nat k * abi_size e)) (seq j (S n)),
     B + (Z.of_nat j + Z.of_nat (S n)) * abi_size e).
Proof.
  intros B e Pe HB He Hk. induction n as [|n IH]; intros j p Hp Eb Hb.
  - cbn [pack_times seq flat_map]. rewrite (Pe p Hp) by nia. rewrite Eb. f_equal. lia.
  - change (pack_times (pack e) (S (S n)) p) with
      (let (l, p) := pack e p in let (l', p) := pack_times (pack e) (S n) p in (l ++ l', p)).
    rewrite (Pe p Hp) by nia. rewrite Eb.
    replace (B + Z.of_nat j * abi_size e + abi_size e) with (B + Z.of_nat (S j) * abi_size e) by lia.
    rewrite (IH (S j)).
    + change (seq j (S (S n))) with (j :: seq (S j) (S n)). cbn [flat_map]. f_equal. lia.
    + nia.
    + apply Hk. lia.
    + lia.
Qed.

Lemma leaf_packed : forall c a q, conforming (TLeaf c a q) = true -> packed_at (TLeaf c a q).
Proof.
  intros c a q C p Hp Hb. pose proof (leaf_size_pos _ _ _ C) as SP.
  destruct (conf_align _ C) as (P2 & _ & Dv & A1 & _ & _).
  cbn [pack items]. unfold pack_leaf.
  assert (R : is_bits (TLeaf c a q) = false ->
    roundup p (Z.min (abi_align (TLeaf c a q)) 8) = base (TLeaf c a q) p).
  { intros NB. unfold base in *. rewrite NB in *.
    destruct (pow2_okal _ P2) as [H|H]; [f_equal; lia|].
    pose proof (roundup_ge0 p _ A1) as G. destruct (roundup_mult p (abi_align (TLeaf c a q))) as (k & Ek).
    rewrite Ek in *. assert (k = 0) by nia. subst k. assert (p = 0) by lia. subst p.
    rewrite Z.min_r by lia. reflexivity. }
  destruct c; try (rewrite R by reflexivity; reflexivity).
  - reflexivity.
  - exfalso. change (abi_size (TLeaf CBuiltin a q)) with 24 in Hb.
    pose proof (base_ge (TLeaf CBuiltin a q) p A1). lia.
Qed.

Lemma fold_max_le : forall {A} (f : A -> Z) l mx, mx <= fold_left (fun x m => Z.max x (f m)) l mx.
Proof.
  induction l as [|y l IH]; intros mx; cbn [fold_left]; [lia|].
  specialize (IH (Z.max mx (f y))). lia.
Qed.
Lemma fold_max_in : forall {A} (f : A -> Z) l mx y, In y l -> f y <= fold_left (fun x m => Z.max x (f m)) l mx.
Proof.
  induction l as [|z l IH]; intros mx y I; [destruct I|]. cbn [fold_left]. destruct I as [->|I]; [|now apply IH].
  pose proof (fold_max_le f l (Z.max mx (f y))). lia.
Qed.
Lemma fold_max_ub : forall {A} (f : A -> Z) l mx u, mx <= u -> (forall y, In y l -> f y <= u) ->
  fold_left (fun x m => Z.max x (f m)) l mx <= u.
Proof.
  induction l as [|z l IH]; intros mx u H1 H2; cbn [fold_left]; [exact H1|].
  apply IH; [pose proof (H2 z (or_introl eq_refl)); lia|]. intros y I. apply H2. now right.
Qed.

Lemma array_facts : forall a n e, conforming (TArr a n e) = true ->
  0 <= n /\ abi_size (TArr a n e) = n * abi_size e /\ (forall k, (abi_align e | k * abi_size e)) /\
  conforming e = true /\ (abi_align e | abi_align (TArr a n e)).
Proof.
  intros a n e C. destruct (conforming_parts _ C) as (V & _ & A & _).
  cbn [arrays_natural] in A. apply andb_true_iff in A as [A _].
  destruct (c33_array_elements_contiguous_and_aligned a n e V A) as (Sz & _ & De).
  apply valid_lwf, lwf_wf in V. cbn [wf] in V.
  destruct (member_align _ e C (or_introl eq_refl)) as (D & _).
  destruct (conf_align _ C) as (_ & _ & Dv & _).
  split; [lia|]. split; [exact Sz|]. split; [exact De|].
  split; [eapply conforming_kids; [exact C|now left]|].
  exact (Z.divide_trans _ _ _ D Dv).
Qed.

Lemma tight_packed : forall T, conforming T = true -> tight T = true -> packed_at T.
Proof.
  induction T as [T IH] using tree_ind2. intros C Ti.
  pose proof (conforming_kids T) as K. specialize (fun k => K k C).
  pose proof (member_align T) as MA. specialize (fun m => MA m C).
  destruct (conf_align T C) as (P2 & _ & Dv & A1 & N1 & S0).
  destruct T as [c a q|[] a ms|a n e].
  - now apply leaf_packed.
  - intros p Hp Hb. cbn [pack items kids] in *. set (T := TAgg true a ms) in *.
    change (tight T) with (existsb (fun m => abi_size m =? abi_size T) ms &&
      forallb (fun m => negb (is_bits m) && (abi_align m =? abi_align T)) ms && forallb tight ms) in Ti.
    apply andb_true_iff in Ti as [Ti T3]. apply andb_true_iff in Ti as [T1 T2].
    rewrite forallb_forall in T2, T3. apply existsb_exists in T1 as (m0 & I0 & E0). apply Z.eqb_eq in E0.
    pose proof (base_ge T p A1) as GB.
    assert (Hm : forall m, In m ms -> packed_at m /\ base m p = base T p /\ base T p + abi_size m <= 16).
    { intros m I. split; [apply IH; auto|]. specialize (T2 m I). apply andb_true_iff in T2 as [B1 B2].
      apply Z.eqb_eq in B2. split.
      - unfold base. destruct (is_bits m); [discriminate B1|]. now rewrite B2.
      - destruct (MA m I) as (_ & Sz). specialize (Sz true a ms eq_refl eq_refl). lia. }
    destruct (union_packed (base T p) p ms p Hp ltac:(lia) Hm) as (U1 & U2).
    rewrite (surjective_pairing (pack_union pack ms p p)). rewrite U1, U2. f_equal.
    apply Z.le_antisymm.
    + apply fold_max_ub; [lia|]. intros y I. destruct (MA y I) as (_ & Sz).
      specialize (Sz true a ms eq_refl eq_refl). lia.
    + rewrite <- E0. apply (fold_max_in (fun m => base T p + abi_size m)). exact I0.
  - intros p Hp Hb. cbn [pack items kids] in *. set (T := TAgg false a ms) in *.
    change (tight T) with ((abi_size T =? members_end ms) &&
      match ms with m :: _ => negb (is_bits m) && (abi_align m =? abi_align T) | [] => false end &&
      forallb tight ms) in Ti.
    apply andb_true_iff in Ti as [Ti T3]. apply andb_true_iff in Ti as [T1 T2].
    rewrite forallb_forall in T3. apply Z.eqb_eq in T1.
    pose proof (base_ge T p A1) as GB.
    assert (DB : (abi_align T | base T p)) by apply roundup_mult.
    rewrite (struct_packed (base T p) ms p 0).
    + unfold members_end in T1. now rewrite T1.
    + intros m I. split; [auto|]. split; [apply IH; auto|]. destruct (MA m I) as (D & _).
      exact (Z.divide_trans _ _ _ D (Z.divide_trans _ _ _ Dv DB)).
    + exact Hp.
    + lia.
    + lia.
    + destruct ms as [|m ms]; [discriminate T2|]. apply andb_true_iff in T2 as [B1 B2].
      apply Z.eqb_eq in B2. unfold base. cbn [is_bits T]. destruct (is_bits m); [discriminate B1|].
      rewrite B2. rewrite (roundup_id 0 (abi_align T)) by (exact A1 || apply Z.divide_0_r). lia.
    + unfold members_end in T1. lia.
  - intros p Hp Hb. cbn [pack items kids tight] in *.
    destruct (array_facts a n e C) as (Hn & Sz & De & Ce & DA).
    apply andb_true_iff in Ti as [Ti T3]. apply andb_true_iff in Ti as [Ti T2].
    apply andb_true_iff in Ti as [T0 T1]. apply Z.eqb_eq in T2. apply Z.ltb_lt in T0.
    set (T := TArr a n e) in *. pose proof (base_ge T p A1) as GB.
    assert (DB : (abi_align T | base T p)) by apply roundup_mult.
    destruct (conf_align e Ce) as (_ & _ & _ & Ae & _ & Se).
    destruct (Z.to_nat n) as [|k] eqn:En; [lia|].
    rewrite (times_packed (base T p) e) with (j := 0%nat).
    + replace (Z.of_nat 0 + Z.of_nat (S k)) with n by lia. now rewrite Sz.
    + apply IH; [now left|exact Ce|exact T3].
    + lia.
    + exact Se.
    + intros j Hj. unfold base at 1. destruct (is_bits e); [reflexivity|]. apply roundup_id; [exact Ae|].
      apply Z.divide_add_r; [|apply De]. rewrite T2. exact DB.
    + exact Hp.
    + unfold base. cbn [is_bits T]. destruct (is_bits e); [discriminate T1|]. rewrite T2. lia.
    + replace (Z.of_nat 0 + Z.of_nat (S k)) with n by lia. lia.
Qed.

(** The outermost aggregate starts at 0: only its members need to be tight. *)
Lemma top_packed : forall T, conforming T = true -> is_aggregate T = true -> members_tight T = true ->
  abi_size T <= 16 -> fst (pack T 0) = items T 0.
Proof.
  intros T C Ag Ti H. unfold members_tight in Ti. rewrite forallb_forall in Ti.
  pose proof (conforming_kids T) as K. specialize (fun k => K k C).
  pose proof (member_align T) as MA. specialize (fun m => MA m C).
  destruct (conf_align T C) as (P2 & _ & Dv & A1 & N1 & S0).
  assert (R0 : forall m, conforming m = true -> base m 0 = 0).
  { intros m Cm. unfold base. destruct (is_bits m); [reflexivity|].
    apply roundup_id; [now destruct (conf_align m Cm) as (_ & _ & _ & Am & _)|apply Z.divide_0_r]. }
  destruct T as [c a q|[] a ms|a n e]; [discriminate Ag| | |]; cbn [pack items kids] in *.
  - assert (Hm : forall m, In m ms -> packed_at m /\ base m 0 = 0 /\ 0 + abi_size m <= 16).
    { intros m I. split; [apply tight_packed; auto|]. split; [auto|].
      destruct (MA m I) as (_ & Sz). specialize (Sz true a ms eq_refl eq_refl). lia. }
    now destruct (union_packed 0 0 ms 0 ltac:(lia) ltac:(lia) Hm) as (U1 & _).
  - pose proof (struct_size a ms C) as Sz. unfold members_end in Sz.
    rewrite (struct_packed 0 ms 0 0); [reflexivity| |lia|lia|lia| |lia].
    + intros m I. split; [auto|]. split; [apply tight_packed; auto|apply Z.divide_0_r].
    + destruct ms as [|m ms]; [reflexivity|]. reflexivity.
  - destruct (array_facts a n e C) as (Hn & Sz & De & Ce & DA).
    destruct (conf_align e Ce) as (_ & _ & _ & Ae & _ & Se).
    destruct (Z.to_nat n) as [|k] eqn:En; [reflexivity|].
    rewrite (times_packed 0 e) with (j := 0%nat); [reflexivity| |lia|exact Se| |lia| |].
    + apply tight_packed; auto. apply Ti. now left.
    + intros j Hj. unfold base. destruct (is_bits e); [reflexivity|]. apply roundup_id; [exact Ae|].
      rewrite Z.add_0_l. apply De.
    + rewrite R0 by exact Ce. lia.
    + replace (Z.of_nat 0 + Z.of_nat (S k)) with n by lia. lia.
Qed.
