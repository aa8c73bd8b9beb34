(** C05: block storage of static data reads back the last write.
    C39: setting a bit-field in static data. *)

From Coq Require Import ZArith Lia Bool List Sorted.
From Coq Require Import ZifyBool.
From Verif Require Import Bits HashtreeModel HashtreeProofs IrType IrData.
Import ListNotations.
Open Scope Z_scope.

(** ** Blocks *)

(** Slots for which positions do not wrap around in 64 bits. *)
Definition in_range (i : Z) : Prop := 0 <= i < 2 ^ 59.

Lemma block_of_ok : forall i, in_range i -> block_of i = i / CAP.
Proof.
  intros i [H0 H1]. unfold block_of. rewrite u_small by (unfold ESIZE; lia).
  now rewrite Z.div_mul_cancel_r by (unfold CAP, ESIZE; lia).
Qed.

Lemma offset_of_ok : forall i, in_range i -> offset_of i = i mod CAP.
Proof.
  intros i [H0 H1]. unfold offset_of. rewrite u_small by (unfold ESIZE; lia).
  rewrite Z.mul_mod_distr_r by (unfold CAP, ESIZE; lia). apply Z.div_mul. unfold ESIZE; lia.
Qed.

Lemma set_nth_length : forall A (l : list A) n x, length (set_nth l n x) = length l.
Proof. induction l; intros; destruct n; cbn; auto. Qed.

Lemma set_nth_same : forall A (l : list A) n x d, (n < length l)%nat -> nth n (set_nth l n x) d = x.
Proof.
  induction l as [|y l IH]; intros n x d H; cbn in H; [lia|]. destruct n; cbn; [reflexivity|].
  apply IH. lia.
Qed.

Lemma set_nth_other : forall A (l : list A) n k x d, n <> k -> nth k (set_nth l n x) d = nth k l d.
Proof.
  induction l as [|y l IH]; intros n k x d H; cbn.
  - destruct n, k; reflexivity.
  - destruct n, k; cbn; try reflexivity; [lia|]. apply IH. lia.
Qed.

Notation reps := (represents Z nat (fun k => k) Z.eqb).

Lemma eqb_ok : forall a b : Z, (a =? b) = true <-> a = b.
Proof. apply Z.eqb_eq. Qed.

(** Data whose block tree holds [m]. *)
Record holds (d : idata) (m : Z -> option nat) : Prop := {
  h_rep : reps (d_tree d) m;
  h_bound : forall b p, m b = Some p -> (p < length (d_heap d))%nat;
  h_inj : forall a b p, m a = Some p -> m b = Some p -> a = b;
  h_len : Forall (fun l => length l = Z.to_nat CAP) (d_heap d) }.

Lemma get_block_ok : forall d m b, holds d m -> get_block d b = m b.
Proof.
  intros d m b H. destruct (h_rep _ _ H) as [(O & Hh & _) A]. unfold get_block, ht_at.
  rewrite (find_abs Z nat (fun k => k) Z.eqb eqb_ok) by auto. apply A.
Qed.

Lemma holds_alloc : holds data_alloc (fun _ => None).
Proof.
  constructor; cbn; try discriminate; [|constructor]. apply (represents_empty Z nat).
Qed.

Lemma need_block_ok : forall d m b, holds d m ->
  exists p d' m', need_block d b = Some (p, d') /\ holds d' m' /\ m' b = Some p /\
    d_final d' = d_final d /\
    (forall a, a <> b -> m' a = m a) /\
    (forall a q o, m a = Some q -> m' a = Some q /\ slot_at d' q o = slot_at d q o) /\
    (m b = None -> forall o, slot_at d' p o = undef).
Proof.
  intros d m b H. unfold need_block. rewrite (get_block_ok d m b H).
  destruct (m b) as [p|] eqn:E.
  - exists p, d, m. split; [reflexivity|]. split; [exact H|]. split; [exact E|]. split; [reflexivity|].
    split; [reflexivity|]. split; [auto|discriminate].
  - pose proof (step_refines Z nat (fun k => k) Z.eqb eqb_ok (d_tree d) m
                  (OpInsert b (length (d_heap d)))) as S.
    cbn [ht_step] in S. unfold ht_insert in *.
    destruct (node_insert Z nat Z.eqb b b (length (d_heap d)) (d_tree d)) as [r t'] eqn:EI.
    specialize (S _ _ (h_rep _ _ H) eq_refl). cbn [spec_step] in S. rewrite E in S. cbn [fst snd] in S.
    destruct S as [S1 S2]. injection S1 as <-.
    eexists _, _, _. split; [reflexivity|]. split; [constructor|].
    + exact S2.
    + cbn. intros a q. rewrite app_length. cbn [length]. unfold fput.
      destruct (b =? a); intros Q; [injection Q as <-; lia|]. apply (h_bound _ _ H) in Q. lia.
    + intros a1 a2 q. unfold fput. intros Q1 Q2.
      destruct (Z.eqb_spec b a1) as [<-|N1], (Z.eqb_spec b a2) as [<-|N2]; auto.
      * injection Q1 as <-. apply (h_bound _ _ H) in Q2. lia.
      * injection Q2 as <-. apply (h_bound _ _ H) in Q1. lia.
      * eapply (h_inj _ _ H); eauto.
    + cbn. apply Forall_app. split; [apply (h_len _ _ H)|]. constructor; [|constructor].
      apply repeat_length.
    + unfold fput, slot_at; cbn. rewrite Z.eqb_refl. split; [reflexivity|]. split; [reflexivity|]. split.
      { intros a N. destruct (Z.eqb_spec b a); [congruence|reflexivity]. }
      split.
      * intros a q o Q. destruct (Z.eqb_spec b a) as [<-|N]; [congruence|]. split; [exact Q|].
        apply (h_bound _ _ H) in Q. now rewrite app_nth1 by exact Q.
      * intros _ o. rewrite app_nth2 by lia. rewrite Nat.sub_diag. cbn [nth].
        apply nth_repeat.
Qed.

(** The contents of the slots. *)
Definition view (d : idata) (m : Z -> option nat) (i : Z) : slotv :=
  match m (i / CAP) with Some p => slot_at d p (i mod CAP) | None => undef end.

Lemma value_at_view : forall d m i, holds d m -> in_range i -> value_at d i = view d m i.
Proof.
  intros d m i H R. unfold value_at, get_entry, view.
  rewrite block_of_ok, offset_of_ok by exact R. rewrite (get_block_ok d m _ H).
  destruct (m (i / CAP)); reflexivity.
Qed.

Lemma put_slot_ok : forall d m b p o x, holds d m -> m b = Some p -> 0 <= o < CAP ->
  holds (put_slot d p o x) m /\
  forall i, view (put_slot d p o x) m i = if i =? b * CAP + o then x else view d m i.
Proof.
  intros d m b p o x H E Ho. pose proof (h_bound _ _ H _ _ E) as Bp.
  assert (Lp : length (nth p (d_heap d) []) = Z.to_nat CAP).
  { pose proof (h_len _ _ H) as F. rewrite Forall_forall in F. apply F. now apply nth_In. }
  split.
  - constructor; cbn.
    + apply (h_rep _ _ H).
    + intros a q Q. rewrite set_nth_length. eapply h_bound; eauto.
    + apply (h_inj _ _ H).
    + pose proof (h_len _ _ H) as F. rewrite Forall_forall in *. intros l Hl.
      apply (In_nth _ _ []) in Hl as (k & Hk & <-). rewrite set_nth_length in Hk.
      destruct (Nat.eq_dec p k) as [<-|N].
      * rewrite set_nth_same by exact Bp. now rewrite set_nth_length.
      * rewrite set_nth_other by exact N. apply F. now apply nth_In.
  - intros i. unfold view. pose proof (Z.div_mod i CAP ltac:(unfold CAP; lia)) as D.
    pose proof (Z.mod_pos_bound i CAP ltac:(unfold CAP; lia)) as M.
    destruct (m (i / CAP)) as [q|] eqn:Eq.
    + unfold slot_at; cbn. destruct (Nat.eq_dec p q) as [<-|N].
      * rewrite set_nth_same by exact Bp. assert (i / CAP = b) by (eapply (h_inj _ _ H); eauto).
        destruct (Z.eqb_spec i (b * CAP + o)) as [->|Ni].
        -- replace ((b * CAP + o) mod CAP) with o by (unfold CAP in *; lia).
           apply set_nth_same. rewrite Lp. unfold CAP in *. lia.
        -- apply set_nth_other. unfold CAP in *. lia.
      * rewrite set_nth_other by exact N.
        destruct (Z.eqb_spec i (b * CAP + o)) as [->|Ni]; [|reflexivity].
        replace ((b * CAP + o) / CAP) with b in Eq by (unfold CAP in *; lia). congruence.
    + destruct (Z.eqb_spec i (b * CAP + o)) as [->|Ni]; [|reflexivity].
      replace ((b * CAP + o) / CAP) with b in Eq by (unfold CAP in *; lia). congruence.
Qed.

Lemma split_slot : forall i, i = i / CAP * CAP + i mod CAP /\ 0 <= i mod CAP < CAP.
Proof.
  intros. pose proof (Z.div_mod i CAP ltac:(unfold CAP; lia)).
  pose proof (Z.mod_pos_bound i CAP ltac:(unfold CAP; lia)). lia.
Qed.

Lemma need_view : forall d m b p d' m',
  (forall a, a <> b -> m' a = m a) -> m' b = Some p ->
  (forall a q o, m a = Some q -> m' a = Some q /\ slot_at d' q o = slot_at d q o) ->
  (m b = None -> forall o, slot_at d' p o = undef) ->
  forall i, view d' m' i = view d m i.
Proof.
  intros d m b p d' m' H1 H2 H3 H4 i. unfold view. destruct (m (i / CAP)) as [q|] eqn:E.
  - destruct (H3 _ _ (i mod CAP) E) as [-> ->]. reflexivity.
  - destruct (Z.eq_dec (i / CAP) b) as [Eb|N].
    + rewrite Eb, H2. apply H4. congruence.
    + rewrite H1 by exact N. now rewrite E.
Qed.

Lemma set_value_ok : forall d m i v, holds d m -> d_final d = false -> in_range i ->
  exists d' m', set_value d i v = Some d' /\ holds d' m' /\ d_final d' = false /\
    (forall j, view d' m' j = if j =? i then {| sv := v; sdef := sdef (view d m i) |} else view d m j) /\
    (forall b, m' b <> None <-> m b <> None \/ b = i / CAP).
Proof.
  intros d m i v H F R. unfold set_value. rewrite F. rewrite block_of_ok, offset_of_ok by exact R.
  destruct (need_block_ok d m (i / CAP) H) as (p & d' & m' & E & H' & Hb & Hf & N1 & N2 & N3).
  rewrite E. pose proof (need_view d m _ p d' m' N1 Hb N2 N3) as V.
  destruct (split_slot i) as [Es Hs].
  destruct (put_slot_ok d' m' (i / CAP) p (i mod CAP)
              {| sv := v; sdef := sdef (slot_at d' p (i mod CAP)) |} H' Hb Hs) as [H2 V2].
  eexists _, m'. split; [reflexivity|]. split; [exact H2|]. split; [cbn; congruence|]. split.
  - intros j. rewrite V2. rewrite <- Es. destruct (j =? i) eqn:Ej; [|apply V].
    f_equal. rewrite <- V. unfold view. now rewrite Hb.
  - intros b. destruct (Z.eq_dec b (i / CAP)) as [->|N].
    + rewrite Hb. split; [auto|discriminate].
    + rewrite N1 by exact N. tauto.
Qed.

(** A sequence of writes. *)
Fixpoint writes (d : idata) (ops : list (Z * dval)) : option idata :=
  match ops with
  | [] => Some d
  | (i, v) :: ops => match set_value d i v with Some d => writes d ops | None => None end
  end.

(** Specification: the last value written to a slot. *)
Definition last_write (ops : list (Z * dval)) (i : Z) : dval :=
  fold_left (fun cur op => if fst op =? i then snd op else cur) ops VUndef.

Lemma writes_ok : forall ops d m, holds d m -> d_final d = false ->
  Forall (fun op => in_range (fst op)) ops ->
  exists d' m', writes d ops = Some d' /\ holds d' m' /\ d_final d' = false /\
    (forall j, view d' m' j =
       {| sv := fold_left (fun cur op => if fst op =? j then snd op else cur) ops (sv (view d m j));
          sdef := sdef (view d m j) |}) /\
    (forall b, m' b <> None <-> m b <> None \/ exists op, In op ops /\ b = fst op / CAP).
Proof.
  induction ops as [|[i v] ops IH]; intros d m H F R; cbn [writes].
  - exists d, m. split; [reflexivity|]. split; [exact H|]. split; [exact F|]. split.
    + intros j. cbn. now destruct (view d m j).
    + intros b. split; [auto|]. intros [?|(op & [] & _)]; auto.
  - inversion R as [|x l Ri Rl]; subst. cbn [fst] in Ri.
    destruct (set_value_ok d m i v H F Ri) as (d1 & m1 & E & H1 & F1 & V1 & P1). rewrite E.
    destruct (IH d1 m1 H1 F1 Rl) as (d' & m' & E' & H' & F' & V' & P').
    exists d', m'. split; [exact E'|]. split; [exact H'|]. split; [exact F'|]. split.
    + intros j. rewrite V', V1. cbn [fold_left fst snd].
      rewrite (Z.eqb_sym i j). destruct (Z.eqb_spec j i) as [->|]; reflexivity.
    + intros b. rewrite P', P1. split.
      * intros [[?| ->]|(op & I & ->)]; auto.
        -- right. exists (i, v). split; [now left|reflexivity].
        -- right. exists op. split; [now right|reflexivity].
      * intros [?|(op & [<-|I] & ->)]; auto. right. exists op. auto.
Qed.

(** C05. *)
Theorem c05_reads_back_last_write :
  forall ops, Forall (fun op => in_range (fst op)) ops ->
  exists d, writes data_alloc ops = Some d /\
    forall i, in_range i -> sv (value_at d i) = last_write ops i.
Proof.
  intros ops R. destruct (writes_ok ops data_alloc _ holds_alloc eq_refl R) as (d & m & E & H & _ & V & _).
  exists d. split; [exact E|]. intros i Ri. rewrite (value_at_view d m i H Ri), V. reflexivity.
Qed.

(** The blocks present are exactly those written to, and iteration lists them in
    ascending order. *)
Lemma present_ok : forall d m, holds d m ->
  (forall b, In b (present d) <-> m b <> None) /\ StronglySorted Z.lt (present d).
Proof.
  intros d m H. destruct (h_rep _ _ H) as [(O & Hh & ND) A]. unfold present.
  rewrite (walk_inorder Z nat (fun k => k) (d_tree d) O). rewrite map_map. cbn [fst]. split.
  - intros b. rewrite <- A. unfold abs.
    destruct (lookup Z nat Z.eqb (entries Z nat (d_tree d)) b) as [p|] eqn:E.
    + split; [discriminate|]. intros _. destruct (In_dec Z.eq_dec b (map (ekey Z nat) (entries Z nat (d_tree d)))) as [I|I]; [exact I|].
      apply (lookup_none Z nat (fun k => k) Z.eqb eqb_ok) in I. congruence.
    + apply (lookup_none Z nat (fun k => k) Z.eqb eqb_ok) in E. tauto.
  - pose proof (ordered_sorted Z nat (d_tree d) O) as S.
    assert (Em : map (ehash Z nat) (entries Z nat (d_tree d)) = map (ekey Z nat) (entries Z nat (d_tree d))).
    { apply map_ext_in. intros e He. rewrite Forall_forall in Hh. now apply Hh. }
    rewrite Em in S. clear -S ND. induction (map (ekey Z nat) (entries Z nat (d_tree d))) as [|x l IH]; [constructor|].
    inversion S; subst. inversion ND; subst. constructor; [auto|].
    rewrite Forall_forall in *. intros y Hy. specialize (H2 y Hy).
    assert (x <> y) by congruence. lia.
Qed.

Theorem c05_blocks_listed_in_order :
  forall ops, Forall (fun op => in_range (fst op)) ops ->
  exists d, writes data_alloc ops = Some d /\
    StronglySorted Z.lt (present d) /\
    forall b, In b (present d) <-> exists op, In op ops /\ b = fst op / CAP.
Proof.
  intros ops R. destruct (writes_ok ops data_alloc _ holds_alloc eq_refl R) as (d & m & E & H & _ & _ & P).
  destruct (present_ok d m H) as [P1 P2]. exists d. split; [exact E|]. split; [exact P2|].
  intros b. rewrite P1, P. split; [intros [C|X]; [congruence|exact X]|auto].
Qed.

Example c05_example :
  option_map (fun d => (map (fun i => sv (value_at d i)) [0; 1; 127; 128; 500; 1000], present d))
    (writes data_alloc [(500, VInt 7); (0, VInt 1); (127, VInt 2); (128, VInt 3); (0, VInt 4)]) =
  Some ([VInt 4; VUndef; VInt 2; VInt 3; VInt 7; VUndef], [0; 1; 3]).
Proof. vm_compute. reflexivity. Qed.

(** ** C39 *)

(** What the claim asks of the new slot contents. *)
Definition sets_exactly (cur value offset width new : Z) : Prop :=
  forall i, 0 <= i < 64 ->
    Z.testbit new i = if (offset <=? i) && (i <? offset + width)
                      then Z.testbit value (i - offset) else Z.testbit cur i.

(** What the code does: it sets one bit more than it should. *)
Theorem c39_sets_one_bit_too_many :
  forall cur value offset width, 0 <= offset < 64 -> 0 <= width < 63 ->
  exists new, merge_bits cur value offset width = BValue new /\
    sets_exactly cur value offset (width + 1) new.
Proof.
  intros cur value offset width Ho Hw. unfold merge_bits.
  replace (64 <? width) with false by lia. replace (width =? 64) with false by lia.
  replace ((64 <=? width + 1) || (64 <=? offset)) with false by lia.
  eexists. split; [reflexivity|]. intros i Hi.
  set (mask := u64 (2 ^ (width + 1) - 1)).
  assert (M : forall j, 0 <= j -> Z.testbit mask j = (j <? width + 1)).
  { intros j Hj. unfold mask. rewrite testbit_u by lia. rewrite Z.sub_1_r, <- Z.ones_equiv.
    rewrite Z.testbit_ones_nonneg by lia. lia. }
  rewrite Z.lor_spec, Z.land_spec, testbit_u by lia. rewrite Z.lnot_spec by lia.
  rewrite !testbit_u by lia. rewrite <- !Z.shiftl_mul_pow2, !Z.shiftl_spec by lia.
  replace (i <? 64) with true by lia. cbn [andb].
  destruct (Z.leb_spec offset i); cbn [andb].
  - rewrite Z.land_spec, M by lia. replace (i - offset <? width + 1) with (i <? offset + (width + 1)) by lia.
    destruct (i <? offset + (width + 1)); cbn [negb].
    + now rewrite andb_false_r, andb_true_r.
    + now rewrite andb_true_r, andb_false_r, orb_false_r.
  - rewrite !(Z.testbit_neg_r _ (i - offset)) by lia. cbn [negb]. now rewrite andb_true_r, orb_false_r.
Qed.

(** The claim, when the extra bit does no harm. *)
Theorem c39_sets_exactly_the_field_partial :
  forall cur value offset width, 0 <= offset < 64 -> 0 <= width < 63 ->
    (offset + width < 64 -> Z.testbit value width = Z.testbit cur (offset + width)) ->
  exists new, merge_bits cur value offset width = BValue new /\ sets_exactly cur value offset width new.
Proof.
  intros cur value offset width Ho Hw X.
  destruct (c39_sets_one_bit_too_many cur value offset width Ho Hw) as (new & E & S).
  exists new. split; [exact E|]. intros i Hi. rewrite S by exact Hi.
  destruct (Z.leb_spec offset i); cbn [andb]; [|reflexivity].
  destruct (Z.ltb_spec i (offset + width)).
  - now replace (i <? offset + (width + 1)) with true by lia.
  - destruct (Z.ltb_spec i (offset + (width + 1))); [|reflexivity].
    replace i with (offset + width) in * by lia. rewrite <- X by lia. f_equal. lia.
Qed.

Theorem c39_full_width :
  forall cur value, exists new, merge_bits cur value 0 64 = BValue new /\ sets_exactly cur value 0 64 new.
Proof.
  intros. exists (u64 value). split; [reflexivity|]. intros i Hi. rewrite testbit_u by lia.
  replace (i <? 64) with true by lia. replace ((0 <=? i) && (i <? 0 + 64)) with true by lia.
  cbn [andb]. f_equal. lia.
Qed.

(** struct { unsigned a : 3, b : 5; } x = { .b = 1, .a = 1 }: setting a clears the lowest
    bit of b. *)
Theorem c39_exact_field_refuted :
  ~ (forall cur value offset width, 0 <= offset -> 0 < width < 64 -> offset + width <= 64 ->
      0 <= value < 2 ^ 64 -> 0 <= cur < 2 ^ 64 ->
      exists new, merge_bits cur value offset width = BValue new /\
        sets_exactly cur value offset width new).
Proof.
  intros H. destruct (H 8 1 0 3 ltac:(lia) ltac:(lia) ltac:(lia) ltac:(lia) ltac:(lia)) as (new & E & S).
  vm_compute in E. injection E as <-. specialize (S 3 ltac:(lia)). vm_compute in S. discriminate S.
Qed.

(** A field of 63 bits shifts 1 by 64: undefined behaviour of the compiler itself. *)
Example c39_width_63 : merge_bits 0 1 0 63 = BUndefined.
Proof. reflexivity. Qed.

(** The setter writes the merged value to its slot only. *)
Theorem c39_other_slots_untouched :
  forall ops d i value offset width d', Forall (fun op => in_range (fst op)) ops ->
  writes data_alloc ops = Some d -> in_range i ->
  set_bitfield d i value offset width = Some d' ->
  forall j, in_range j -> j <> i -> value_at d' j = value_at d j.
Proof.
  intros ops d i value offset width d' R E Ri S j Rj N.
  destruct (writes_ok ops data_alloc _ holds_alloc eq_refl R) as (d0 & m & E0 & H & F & _).
  rewrite E in E0. injection E0 as <-.
  unfold set_bitfield in S. rewrite F in S. rewrite block_of_ok, offset_of_ok in S by exact Ri.
  destruct (need_block_ok d m (i / CAP) H) as (p & d1 & m1 & E1 & H1 & Hb & Hf & N1 & N2 & N3).
  rewrite E1 in S. destruct (split_slot i) as [Es Hs].
  destruct (match sv (slot_at d1 p (i mod CAP)) with VInt z => Some (u64 z) | VUndef => Some 0 | _ => None end)
    as [cur|]; [|discriminate S].
  destruct (merge_bits cur (u64 value) offset width) as [z| |]; try discriminate S. injection S as <-.
  destruct (put_slot_ok d1 m1 (i / CAP) p (i mod CAP)
              {| sv := VInt (s64 z); sdef := sdef (slot_at d1 p (i mod CAP)) |} H1 Hb Hs) as [H2 V2].
  rewrite (value_at_view _ m1 j H2 Rj), (value_at_view _ m j H Rj), V2. rewrite <- Es.
  replace (j =? i) with false by lia.
  apply (need_view d m _ p d1 m1 N1 Hb N2 N3).
Qed.

Example c39_example : merge_bits 0xf0 5 8 3 = BValue 0x5f0.
Proof. reflexivity. Qed.

Print Assumptions c05_reads_back_last_write.
Print Assumptions c05_blocks_listed_in_order.
Print Assumptions c39_sets_one_bit_too_many.
Print Assumptions c39_sets_exactly_the_field_partial.
Print Assumptions c39_full_width.
Print Assumptions c39_exact_field_refuted.
Print Assumptions c39_other_slots_untouched.
