(** C31: reading and writing bit-fields. *)

From Coq Require Import ZArith Lia Bool List.
From Coq Require Import ZifyBool.
From Verif Require Import Bits Memory IRMachine BitfieldModel.
Import ListNotations.
Open Scope Z_scope.

(** ** Specification: memory as bits *)

(** Bit [k] counted from address [a], least significant bit of each byte first. *)
Definition membit (m : mem) (a k : Z) : bool := Z.testbit (m (u64 (a + k / 8))) (k mod 8).

(** The unsigned value of the [n] bits from bit [k]. *)
Fixpoint bits_value (m : mem) (a k : Z) (n : nat) : Z :=
  match n with
  | O => 0
  | S n => Z.b2z (membit m a k) + 2 * bits_value m a (k + 1) n
  end.

(** The value of a field, as the 64-bit stack slot that holds it. *)
Definition field_value (signed : bool) (m : mem) (a off width : Z) : Z :=
  let v := bits_value m a off (Z.to_nat width) in
  if signed then u64 (s width v) else v.

(** ** Facts *)

Lemma bits_value_testbit : forall n m a k i, 0 <= i ->
  Z.testbit (bits_value m a k n) i = (i <? Z.of_nat n) && membit m a (k + i).
Proof.
  induction n as [|n IH]; intros m a k i Hi; cbn [bits_value].
  - rewrite Z.testbit_0_l. replace (i <? Z.of_nat 0) with false by lia. reflexivity.
  - destruct (Z.eq_dec i 0) as [->|N].
    + rewrite Z.add_comm, Z.testbit_0_r. replace (0 <? Z.of_nat (S n)) with true by lia.
      now rewrite Z.add_0_r.
    + replace i with (Z.succ (i - 1)) at 1 by lia.
      rewrite Z.add_comm, Z.testbit_succ_r by lia. rewrite IH by lia.
      replace (k + 1 + (i - 1)) with (k + i) by lia. f_equal. lia.
Qed.

Lemma bits_value_range : forall n m a k, 0 <= bits_value m a k n < 2 ^ Z.of_nat n.
Proof.
  induction n as [|n IH]; intros; cbn [bits_value]; [cbn; lia|].
  specialize (IH m a (k + 1)). rewrite Nat2Z.inj_succ, Z.pow_succ_r by lia.
  destruct (membit m a k); cbn [Z.b2z]; lia.
Qed.

Lemma testbit_byte : forall b j, 0 <= j < 8 -> Z.testbit (b mod 256) j = Z.testbit b j.
Proof.
  intros. change 256 with (2 ^ 8). rewrite Z.mod_pow2_bits_low by lia. reflexivity.
Qed.

Lemma testbit_split : forall n x y i, 0 <= n -> 0 <= i -> 0 <= x < 2 ^ n ->
  Z.testbit (x + 2 ^ n * y) i = if i <? n then Z.testbit x i else Z.testbit y (i - n).
Proof.
  intros n x y i Hn Hi Hx. pose proof (pow2_pos n Hn).
  destruct (Z.ltb_spec i n).
  - rewrite <- (Z.mod_pow2_bits_low _ n) by lia. rewrite Z.mul_comm, Z.mod_add by lia.
    now rewrite Z.mod_small by lia.
  - replace (Z.testbit y (i - n)) with (Z.testbit ((x + 2 ^ n * y) / 2 ^ n) (i - n)).
    + rewrite <- Z.shiftr_div_pow2, Z.shiftr_spec by lia. f_equal. lia.
    + rewrite Z.mul_comm, Z.div_add by lia. now rewrite Z.div_small by lia.
Qed.

Lemma membit_next : forall m a k, membit m (a + 1) k = membit m a (k + 8).
Proof.
  intros. unfold membit. replace (k + 8) with (k + 1 * 8) by lia.
  rewrite Z.div_add, Z.mod_add by lia. now replace (a + (k / 8 + 1)) with (a + 1 + k / 8) by lia.
Qed.

Lemma membit_byte : forall m a k j, membit m (a + j) k = membit m a (k + 8 * j).
Proof.
  intros. unfold membit. replace (k + 8 * j) with (k + j * 8) by lia.
  rewrite Z.div_add, Z.mod_add by lia. now replace (a + (k / 8 + j)) with (a + j + k / 8) by lia.
Qed.

Lemma membit_u64 : forall m a k, membit m (u64 a) k = membit m a k.
Proof.
  intros. unfold membit. f_equal. f_equal. apply u_compat.
  apply eqm_add; [lia|apply u_eqm; lia|apply eqm_refl].
Qed.

Lemma read_testbit : forall n m a i, 0 <= i ->
  Z.testbit (read m a n) i = (i <? 8 * Z.of_nat n) && membit m a i.
Proof.
  induction n as [|n IH]; intros m a i Hi; cbn [read].
  - rewrite Z.testbit_0_l. replace (i <? 8 * Z.of_nat 0) with false by lia. reflexivity.
  - change 256 with (2 ^ 8) at 2.
    rewrite testbit_split; [|lia|lia|pose proof (Z.mod_pos_bound (m (u64 a)) 256 ltac:(lia)); lia].
    destruct (Z.ltb_spec i 8).
    + rewrite testbit_byte by lia. replace (i <? 8 * Z.of_nat (S n)) with true by lia.
      unfold membit. rewrite Z.div_small, Z.mod_small by lia. now rewrite Z.add_0_r.
    + rewrite IH by lia. rewrite membit_next. replace (i - 8 + 8) with i by lia. f_equal. lia.
Qed.

Lemma bytes_of_nth : forall n v i d, (i < n)%nat ->
  nth i (bytes_of n v) d = (v / 2 ^ (8 * Z.of_nat i)) mod 256.
Proof.
  induction n as [|n IH]; intros v i d H; [lia|]. destruct i as [|i]; cbn [bytes_of nth].
  - change (8 * Z.of_nat 0) with 0. now rewrite Z.div_1_r.
  - rewrite IH by lia. rewrite Z.div_div; [|lia|apply pow2_pos; lia].
    replace (8 * Z.of_nat (S i)) with (8 + 8 * Z.of_nat i) by lia. now rewrite Z.pow_add_r by lia.
Qed.

(** A byte of a stored value. *)
Lemma store_byte : forall m a n v i, (n <= 8)%nat -> 0 <= i < Z.of_nat n ->
  store m a n v (u64 (a + i)) = (v / 2 ^ (8 * i)) mod 256.
Proof.
  intros m a n v i Hn Hi. unfold store.
  rewrite (write_at _ m a i 0); rewrite ?bytes_of_length; try lia.
  rewrite bytes_of_nth by lia. now rewrite Z2Nat.id by lia.
Qed.

Lemma store_membit : forall m a n v k, (n <= 8)%nat -> 0 <= k < 8 * Z.of_nat n ->
  membit (store m a n v) a k = Z.testbit v k.
Proof.
  intros m a n v k Hn Hk. unfold membit.
  pose proof (Z.div_mod k 8 ltac:(lia)). pose proof (Z.mod_pos_bound k 8 ltac:(lia)).
  rewrite store_byte by lia. rewrite testbit_byte by lia.
  rewrite <- Z.shiftr_div_pow2, Z.shiftr_spec by lia. f_equal. lia.
Qed.

(** ** The bit operations of the runtime *)

Lemma shl64_testbit : forall x c i, 0 <= c < 64 -> 0 <= i ->
  Z.testbit (shl64 x c) i = (i <? 64) && Z.testbit x (i - c).
Proof.
  intros x c i Hc Hi. unfold shl64. rewrite Z.mod_small by lia.
  rewrite testbit_u by lia. f_equal. now rewrite <- Z.shiftl_mul_pow2, Z.shiftl_spec by lia.
Qed.

Lemma shr64_testbit : forall x c i, 0 <= c < 64 -> 0 <= i ->
  Z.testbit (shr64 x c) i = Z.testbit x (i + c).
Proof.
  intros x c i Hc Hi. unfold shr64. rewrite Z.mod_small by lia.
  now rewrite <- Z.shiftr_div_pow2, Z.shiftr_spec by lia.
Qed.

Lemma mask_testbit : forall w i, 0 <= w < 64 -> 0 <= i ->
  Z.testbit (u64 (shl64 1 w - 1)) i = (i <? w).
Proof.
  intros w i Hw Hi. unfold shl64. rewrite Z.mod_small, Z.mul_1_l by lia.
  assert (2 ^ w < 2 ^ 64) by (apply Z.pow_lt_mono_r; lia). pose proof (pow2_pos w ltac:(lia)).
  rewrite (u_small 64 (2 ^ w)) by lia. rewrite u_small by lia.
  rewrite Z.sub_1_r, <- Z.ones_equiv. apply Z.testbit_ones_nonneg; lia.
Qed.

Lemma extubits_testbit : forall off w v i, 0 <= off -> 0 <= w -> off < 64 -> w < 64 -> 0 <= i ->
  Z.testbit (extubits off w v) i = (i <? w) && Z.testbit v (i + off).
Proof.
  intros. unfold extubits. rewrite Z.land_spec, shr64_testbit, mask_testbit by lia. apply andb_comm.
Qed.

Lemma insertbits_testbit : forall off w f v i, 0 <= off -> 0 < w < 64 -> off + w <= 64 -> 0 <= i < 64 ->
  Z.testbit (insertbits off w f v) i =
  if (off <=? i) && (i <? off + w) then Z.testbit v (i - off) else Z.testbit f i.
Proof.
  intros off w f v i Ho Hw Hs Hi. unfold insertbits.
  rewrite Z.lor_spec, Z.land_spec. rewrite testbit_u by lia. rewrite Z.lnot_spec by lia.
  rewrite shl64_testbit by lia.
  rewrite (u_small 64 (64 - w)) by lia. rewrite (u_small 64 (64 - w - off)) by lia.
  rewrite shr64_testbit by lia. rewrite shl64_testbit by lia.
  replace (i <? 64) with true by lia. cbn [andb].
  replace (i + (64 - w - off) - (64 - w)) with (i - off) by lia.
  destruct (Z.leb_spec off i); cbn [andb].
  - rewrite mask_testbit by lia. destruct (Z.ltb_spec i (off + w)).
    + replace (i - off <? w) with true by lia. replace (i + (64 - w - off) <? 64) with true by lia.
      cbn [negb andb]. now rewrite andb_false_r.
    + replace (i - off <? w) with false by lia. replace (i + (64 - w - off) <? 64) with false by lia.
      cbn [negb andb]. now rewrite andb_true_r, orb_false_r.
  - rewrite (Z.testbit_neg_r _ (i - off)) by lia. rewrite (Z.testbit_neg_r v) by lia.
    cbn [negb]. now rewrite andb_false_r, andb_true_r, orb_false_r.
Qed.

Lemma s_testbit : forall w z i, 0 < w -> 0 <= i ->
  Z.testbit (s w z) i = Z.testbit z (if i <? w then i else w - 1).
Proof.
  intros w z i Hw Hi.
  assert (L : forall j, 0 <= j < w -> Z.testbit (s w z) j = Z.testbit z j).
  { apply eqm_testbit; [lia|]. apply s_eqm. lia. }
  destruct (Z.ltb_spec i w); [apply L; lia|].
  rewrite <- L by lia. pose proof (s_range w z Hw) as R. pose proof (proj1 (signed_bits w _ Hw) R) as R2; clear R; rename R2 into R.
  rewrite (R i) by lia. rewrite (R (w - 1)) by lia. reflexivity.
Qed.

Lemma extsbits_ok : forall off w v, 0 <= off -> 0 < w -> off + w <= 64 ->
  extsbits off w v = u64 (s w (v / 2 ^ off)).
Proof.
  intros off w v Ho Hw Hs. unfold extsbits, sar64.
  rewrite (u_small 64 (64 - (w + off))) by lia. rewrite (u_small 64 (64 - w)) by lia.
  rewrite (Z.mod_small (64 - w)) by lia. apply Z.bits_inj'. intros i Hi.
  rewrite !testbit_u by lia. destruct (Z.ltb_spec i 64); [|reflexivity]. cbn [andb].
  rewrite <- Z.shiftr_div_pow2, Z.shiftr_spec by lia. rewrite !s_testbit by lia.
  destruct (Z.ltb_spec i w).
  - replace (i + (64 - w) <? 64) with true by lia. rewrite shl64_testbit by lia.
    replace (i + (64 - w) <? 64) with true by lia. cbn [andb].
    rewrite <- Z.shiftr_div_pow2, Z.shiftr_spec by lia. f_equal. lia.
  - replace (i + (64 - w) <? 64) with false by lia. rewrite shl64_testbit by lia. cbn [andb].
    rewrite <- Z.shiftr_div_pow2, Z.shiftr_spec by lia.
    replace (64 - 1 <? 64) with true by lia. cbn [andb]. f_equal. lia.
Qed.

(** ** Executing the code *)

Lemma access_bytes_ok : forall b, 0 < b <= 64 ->
  exists n, access_bytes b = Some n /\ (1 <= n <= 8)%nat /\ b <= 8 * Z.of_nat n /\ 8 * (Z.of_nat n - 1) < b.
Proof.
  intros b H. unfold access_bytes.
  destruct (Z.leb_spec b 8); [exists 1%nat; split; [reflexivity|lia]|]. destruct (Z.leb_spec b 16); [exists 2%nat; split; [reflexivity|lia]|].
  destruct (Z.leb_spec b 24); [exists 3%nat; split; [reflexivity|lia]|]. destruct (Z.leb_spec b 32); [exists 4%nat; split; [reflexivity|lia]|].
  destruct (Z.leb_spec b 40); [exists 5%nat; split; [reflexivity|lia]|]. destruct (Z.leb_spec b 48); [exists 6%nat; split; [reflexivity|lia]|].
  destruct (Z.leb_spec b 56); [exists 7%nat; split; [reflexivity|lia]|]. destruct (Z.leb_spec b 64); [exists 8%nat; split; [reflexivity|lia]|lia].
Qed.

(** A field that can be accessed: inside 64 bits of the byte it begins in. *)
Definition accessible (off w : Z) : Prop := 0 <= off /\ 0 < w /\ off mod 8 + w <= 64.

Lemma off_split : forall off, off = off mod 8 + 8 * (off / 8).
Proof. intros. pose proof (Z.div_mod off 8 ltac:(lia)). lia. Qed.

Lemma membit_off : forall m a off i, membit m (u64 (a + off / 8)) (off mod 8 + i) = membit m a (off + i).
Proof.
  intros. rewrite membit_u64, membit_byte. f_equal. pose proof (off_split off). lia.
Qed.

(** Reading a field yields its value.  (An unsigned field of width 64 is excluded: see
    [c31_unsigned_load_of_full_width_refuted].) *)
Theorem c31_read_field :
  forall G signed off w a stk m, accessible off w -> (signed = false -> w < 64) ->
  exists code, resolve_bitfield signed off w = Some code /\
    exec_seq G code (a :: stk, m) = Some (field_value signed m a off w :: stk, m).
Proof.
  intros G signed off w a stk m (Ho & Hw & Hs) H64.
  pose proof (Z.mod_pos_bound off 8 ltac:(lia)) as M.
  destruct (access_bytes_ok (off mod 8 + w)) as (n & En & Hn & Hb & _); [lia|].
  unfold resolve_bitfield, load_bitfield. rewrite En. eexists. split; [reflexivity|].
  cbn [app exec_seq exec1].
  set (r := read m (u64 (a + off / 8)) n).
  assert (R : forall i, 0 <= i -> i < w -> Z.testbit r (i + off mod 8) = membit m a (off + i)).
  { intros i Hi Hiw. unfold r. rewrite read_testbit by lia. rewrite Z.add_comm, membit_off.
    replace (off mod 8 + i <? 8 * Z.of_nat n) with true by lia. reflexivity. }
  destruct signed.
  - cbn [exec1]. do 2 f_equal. f_equal. rewrite extsbits_ok by lia. unfold field_value. f_equal.
    apply s_compat; [lia|]. apply eqm_testbit; [lia|]. intros i Hi.
    rewrite <- Z.shiftr_div_pow2, Z.shiftr_spec by lia. rewrite R by lia.
    rewrite bits_value_testbit by lia. replace (i <? Z.of_nat (Z.to_nat w)) with true by lia. reflexivity.
  - cbn [exec1]. specialize (H64 eq_refl). do 2 f_equal. f_equal. unfold field_value.
    apply Z.bits_inj'. intros i Hi. rewrite extubits_testbit by lia.
    rewrite bits_value_testbit by lia. replace (i <? Z.of_nat (Z.to_nat w)) with (i <? w) by lia.
    destruct (Z.ltb_spec i w); [cbn [andb]; now apply R|reflexivity].
Qed.

(** Writing a field sets its bits to the low bits of the value and leaves every other
    bit of memory alone. *)
Definition updated (m m' : mem) (a off w v : Z) : Prop :=
  (forall k, 0 <= k < w -> membit m' a (off + k) = Z.testbit v k) /\
  (forall x j, 0 <= j < 8 ->
     (forall k, 0 <= k < w -> ~ (x = u64 (a + (off + k) / 8) /\ j = (off + k) mod 8)) ->
     Z.testbit (m' x) j = Z.testbit (m x) j).

Lemma exec_seq_app : forall G l1 l2 st,
  exec_seq G (l1 ++ l2) st = match exec_seq G l1 st with Some st' => exec_seq G l2 st' | None => None end.
Proof. induction l1; intros; cbn [app exec_seq]; [reflexivity|]. destruct (exec1 G a st); auto. Qed.

Theorem c31_write_field :
  forall G off w a v stk m, accessible off w -> w < 64 ->
  exists code m', store_bitfield off w = Some code /\
    exec_seq G code (v :: a :: stk, m) = Some (stk, m') /\ updated m m' a off w v.
Proof.
  intros G off w a v stk m (Ho & Hw & Hs) H64.
  pose proof (Z.mod_pos_bound off 8 ltac:(lia)) as M.
  destruct (access_bytes_ok (off mod 8 + w)) as (n & En & Hn & Hb & _); [lia|].
  unfold store_bitfield, load_bitfield. rewrite En.
  set (a' := u64 (a + off / 8)).
  set (r := insertbits (off mod 8) w (read m a' n) v).
  eexists _, (store m a' n r). split; [reflexivity|]. split.
  { reflexivity. }
  assert (Bit : forall i, 0 <= i < 8 * Z.of_nat n -> membit (store m a' n r) a' i =
     if (off mod 8 <=? i) && (i <? off mod 8 + w) then Z.testbit v (i - off mod 8) else membit m a' i).
  { intros i Hi. rewrite store_membit by lia. unfold r. rewrite insertbits_testbit by lia.
    rewrite read_testbit by lia. replace (i <? 8 * Z.of_nat n) with true by lia. reflexivity. }
  split.
  - intros k Hk. rewrite <- (membit_off (store m a' n r) a off k). fold a'. rewrite Bit by lia.
    replace (off mod 8 <=? off mod 8 + k) with true by lia.
    replace (off mod 8 + k <? off mod 8 + w) with true by lia. cbn [andb]. f_equal. lia.
  - intros x j Hj Hx.
    destruct (Z.eq_dec (store m a' n r x) (m x)) as [->|Ne]; [reflexivity|].
    assert (Ex : exists i, 0 <= i < Z.of_nat n /\ x = u64 (a' + i)).
    { assert (D : forall k, (forall i, 0 <= i < Z.of_nat k -> u64 (a' + i) <> x) \/
                            exists i, 0 <= i < Z.of_nat k /\ x = u64 (a' + i)).
      { induction k as [|k [IH|(i & Hi & E)]].
        - left. intros i Hi. lia.
        - destruct (Z.eq_dec (u64 (a' + Z.of_nat k)) x) as [E|E].
          + right. exists (Z.of_nat k). split; [lia|auto].
          + left. intros i Hi. destruct (Z.eq_dec i (Z.of_nat k)) as [->|]; [exact E|]. apply IH. lia.
        - right. exists i. split; [lia|exact E]. }
      destruct (D n) as [N|E]; [|exact E]. exfalso. apply Ne. unfold store. apply write_other.
      intros i Hi. rewrite bytes_of_length in Hi. now apply N. }
    destruct Ex as (i & Hi & ->).
    assert (B : forall mm, Z.testbit (mm (u64 (a' + i))) j = membit mm a' (8 * i + j)).
    { intros mm. unfold membit. replace (8 * i + j) with (j + i * 8) by lia.
      rewrite Z.div_add, Z.mod_add by lia. rewrite Z.div_small, Z.mod_small by lia.
      now rewrite Z.add_0_l. }
    rewrite !B. rewrite Bit by lia.
    destruct ((off mod 8 <=? 8 * i + j) && (8 * i + j <? off mod 8 + w)) eqn:E; [|reflexivity].
    exfalso. apply (Hx (8 * i + j - off mod 8)); [lia|].
    replace (off + (8 * i + j - off mod 8)) with (j + (i + off / 8) * 8) by (pose proof (off_split off); lia).
    rewrite Z.div_add, Z.mod_add by lia. rewrite Z.div_small, Z.mod_small by lia. split; [|reflexivity].
    unfold a'. replace (a + (0 + (i + off / 8))) with ((a + off / 8) + i) by lia.
    apply u_compat. apply eqm_add; [lia|apply u_eqm; lia|apply eqm_refl].
Qed.

(** What a field holds after a write: the value modulo 2^width, sign-extended when the
    field is signed. *)
Definition kept (signed : bool) (w v : Z) : Z := if signed then u64 (s w v) else v mod 2 ^ w.

Theorem c31_read_back :
  forall G signed off w a v stk m, accessible off w -> w < 64 ->
  exists st ld m', store_bitfield off w = Some st /\ resolve_bitfield signed off w = Some ld /\
    exec_seq G st (v :: a :: stk, m) = Some (stk, m') /\
    exec_seq G ld (a :: stk, m') = Some (kept signed w v :: stk, m').
Proof.
  intros G signed off w a v stk m Acc H64.
  destruct (c31_write_field G off w a v stk m Acc H64) as (st & m' & E1 & E2 & U1 & _).
  destruct (c31_read_field G signed off w a stk m' Acc (fun _ => H64)) as (ld & E3 & E4).
  exists st, ld, m'. split; [exact E1|]. split; [exact E3|]. split; [exact E2|].
  rewrite E4. do 2 f_equal. f_equal. destruct Acc as (Ho & Hw & Hs). unfold field_value, kept.
  assert (Q : forall i, 0 <= i < w -> Z.testbit (bits_value m' a off (Z.to_nat w)) i = Z.testbit v i).
  { intros i Hi. rewrite bits_value_testbit by lia. replace (i <? Z.of_nat (Z.to_nat w)) with true by lia.
    cbn [andb]. now apply U1. }
  destruct signed.
  - f_equal. apply s_compat; [lia|]. apply eqm_testbit; [lia|exact Q].
  - pose proof (bits_value_range (Z.to_nat w) m' a off) as R. rewrite Z2Nat.id in R by lia.
    rewrite <- (u_small w (bits_value m' a off (Z.to_nat w))) by exact R.
    apply u_compat. apply eqm_testbit; [lia|exact Q].
Qed.

(** The assignment expression yields the value the field then has. *)
Theorem c31_assignment_value :
  forall G signed off w a v stk m, accessible off w -> w < 64 ->
  exists code m', assign_bitfield signed off w = Some code /\
    exec_seq G code (v :: a :: stk, m) = Some (kept signed w v :: stk, m') /\ updated m m' a off w v.
Proof.
  intros G signed off w a v stk m Acc H64.
  destruct (c31_write_field G off w a v (v :: stk) m Acc H64) as (st & m' & E1 & E2 & U).
  unfold assign_bitfield. rewrite E1. eexists _, m'. split; [reflexivity|]. split; [|exact U].
  cbn [app exec_seq exec1 xchg nth_error replace_nth firstn skipn].
  rewrite exec_seq_app, E2. destruct Acc as (Ho & Hw & Hs).
  destruct signed; cbn [exec_seq exec1]; do 2 f_equal; f_equal.
  - rewrite extsbits_ok by lia. cbn. now rewrite Z.div_1_r.
  - unfold kept. apply Z.bits_inj'. intros i Hi. rewrite extubits_testbit by lia.
    change (v mod 2 ^ w) with (u w v). rewrite testbit_u by lia. now rewrite Z.add_0_r.
Qed.

(** Two fields that share no bit do not disturb each other. *)
Lemma bits_value_ext : forall n m m' a k, (forall i, 0 <= i < Z.of_nat n -> membit m' a (k + i) = membit m a (k + i)) ->
  bits_value m' a k n = bits_value m a k n.
Proof.
  induction n as [|n IH]; intros m m' a k H; [reflexivity|]. cbn [bits_value].
  pose proof (H 0 ltac:(lia)) as H0. rewrite Z.add_0_r in H0. rewrite H0. do 2 f_equal. apply IH.
  intros i Hi. replace (k + 1 + i) with (k + (i + 1)) by lia. apply H. lia.
Qed.

Theorem c31_disjoint_fields_independent :
  forall G off1 w1 off2 w2 a v stk m, accessible off1 w1 -> w1 < 64 -> 0 <= off2 -> 0 < w2 ->
  off1 + w1 <= 2 ^ 64 -> off2 + w2 <= 2 ^ 64 ->
  off1 + w1 <= off2 \/ off2 + w2 <= off1 ->
  exists code m', store_bitfield off1 w1 = Some code /\
    exec_seq G code (v :: a :: stk, m) = Some (stk, m') /\
    forall signed, field_value signed m' a off2 w2 = field_value signed m a off2 w2.
Proof.
  intros G off1 w1 off2 w2 a v stk m Acc H64 Ho2 Hw2 L1 L2 D.
  destruct (c31_write_field G off1 w1 a v stk m Acc H64) as (st & m' & E1 & E2 & _ & U).
  exists st, m'. split; [exact E1|]. split; [exact E2|]. destruct Acc as (Ho & Hw & Hs).
  assert (E : bits_value m' a off2 (Z.to_nat w2) = bits_value m a off2 (Z.to_nat w2)).
  { apply bits_value_ext. intros i Hi. unfold membit. apply U; [apply Z.mod_pos_bound; lia|].
    intros k Hk [X1 X2].
    pose proof (Z.div_mod (off2 + i) 8 ltac:(lia)). pose proof (Z.div_mod (off1 + k) 8 ltac:(lia)).
    pose proof (Z.mod_pos_bound (off2 + i) 8 ltac:(lia)). pose proof (Z.mod_pos_bound (off1 + k) 8 ltac:(lia)).
    apply u64_inj in X1; lia. }
  intros signed. unfold field_value. now rewrite E.
Qed.

(** A signed field as wide as a long is read correctly; the other accesses of width 64
    are wrong: the mask (1 << 64) - 1 comes out as 0. *)
Theorem c31_unsigned_load_of_full_width_refuted :
  ~ (forall G off a stk m, accessible off 64 ->
      exists code, resolve_bitfield false off 64 = Some code /\
        exec_seq G code (a :: stk, m) = Some (field_value false m a off 64 :: stk, m)).
Proof.
  intros H. destruct (H {| lbase := 0; gaddr := fun _ => 0 |} 0 0 [] (fun _ => 255)) as (code & E1 & E2).
  - unfold accessible. cbn. lia.
  - vm_compute in E1. injection E1 as <-. vm_compute in E2. discriminate E2.
Qed.

Theorem c31_store_of_full_width_refuted :
  ~ (forall G off a v stk m, accessible off 64 -> 0 <= v < 2 ^ 64 ->
      exists code m', store_bitfield off 64 = Some code /\
        exec_seq G code (v :: a :: stk, m) = Some (stk, m') /\ updated m m' a off 64 v).
Proof.
  intros H.
  destruct (H {| lbase := 0; gaddr := fun _ => 0 |} 0 0 0 [] (fun _ => 255)) as (code & m' & E1 & E2 & U & _).
  - unfold accessible. cbn. lia.
  - lia.
  - specialize (U 0 ltac:(lia)).
    unfold store_bitfield, load_bitfield in E1. cbn in E1. injection E1 as <-.
    cbn [exec_seq exec1 nth_error xchg replace_nth firstn skipn app] in E2. injection E2 as <-.
    vm_compute in U. discriminate U.
Qed.

(** ** The runtime's composite loads and stores *)

Lemma read_app : forall n k m a, read m a (n + k) = read m a n + 2 ^ (8 * Z.of_nat n) * read m (a + Z.of_nat n) k.
Proof.
  induction n as [|n IH]; intros k m a; cbn [plus read].
  - change (8 * Z.of_nat 0) with 0. rewrite Z.add_0_r. lia.
  - rewrite IH, pow256. replace (a + Z.of_nat (S n)) with (a + 1 + Z.of_nat n) by lia. ring.
Qed.

Lemma lor_shl : forall n x y, 0 <= n < 64 -> 0 <= x < 2 ^ n -> 0 <= y -> y * 2 ^ n < 2 ^ 64 ->
  Z.lor x (shl64 y n) = x + 2 ^ n * y.
Proof.
  intros n x y Hn Hx Hy Hb. apply Z.bits_inj'. intros i Hi.
  rewrite Z.lor_spec, testbit_split by lia.
  assert (E : shl64 y n = Z.shiftl y n).
  { unfold shl64. rewrite (Z.mod_small n) by lia. rewrite Z.shiftl_mul_pow2 by lia. apply u_small. nia. }
  rewrite E, Z.shiftl_spec by lia. destruct (Z.ltb_spec i n).
  - rewrite (Z.testbit_neg_r y) by lia. apply orb_false_r.
  - apply testbit_high_u in Hx; [|lia]. destruct Hx as [_ Hx]. rewrite Hx by lia. reflexivity.
Qed.

Lemma write_app : forall l1 l2 m a, write m a (l1 ++ l2) = write (write m a l1) (a + Z.of_nat (length l1)) l2.
Proof.
  induction l1 as [|x l1 IH]; intros; cbn [app write length].
  - now rewrite Z.add_0_r.
  - rewrite IH. f_equal. lia.
Qed.

Lemma bytes_of_app : forall n k v, bytes_of (n + k) v = bytes_of n v ++ bytes_of k (v / 2 ^ (8 * Z.of_nat n)).
Proof.
  induction n as [|n IH]; intros k v; cbn [plus bytes_of app].
  - change (8 * Z.of_nat 0) with 0. now rewrite Z.div_1_r.
  - f_equal. rewrite IH. do 2 f_equal. rewrite Z.div_div; [|lia|apply pow2_pos; lia]. now rewrite pow256.
Qed.

Lemma store_app : forall n k m a v, store m a (n + k) v =
  store (store m a n v) (a + Z.of_nat n) k (v / 2 ^ (8 * Z.of_nat n)).
Proof. intros. unfold store. rewrite bytes_of_app, write_app, bytes_of_length. reflexivity. Qed.

Lemma store_addr : forall m a n v, store m (u64 a) n v = store m a n v.
Proof. intros. unfold store. apply write_u64. Qed.

Theorem c31_runtime_loads_and_stores :
  forall n m a v, (1 <= n <= 8)%nat ->
    asm_load n m a = read m a n /\ asm_store n m a v = store m a n v.
Proof.
  intros n m a v H.
  assert (R : forall k b, 0 <= read m b k < 2 ^ (8 * Z.of_nat k)) by (intros; apply read_range).
  destruct n as [|[|[|[|[|[|[|[|[|n]]]]]]]]]; try lia; cbn [asm_load asm_store]; split; try reflexivity.
  - rewrite read_u64. pose proof (R 2%nat a). pose proof (R 1%nat (a + 2)).
    rewrite lor_shl; [|lia|exact H0|lia|lia]. symmetry. apply (read_app 2 1).
  - rewrite store_addr. symmetry. apply (store_app 2 1).
  - rewrite read_u64. pose proof (R 4%nat a). pose proof (R 1%nat (a + 4)).
    rewrite lor_shl; [|lia|exact H0|lia|lia]. symmetry. apply (read_app 4 1).
  - rewrite store_addr. symmetry. apply (store_app 4 1).
  - rewrite read_u64. pose proof (R 4%nat a). pose proof (R 2%nat (a + 4)).
    rewrite lor_shl; [|lia|exact H0|lia|lia]. symmetry. apply (read_app 4 2).
  - rewrite store_addr. symmetry. apply (store_app 4 2).
  - rewrite !read_u64. pose proof (R 4%nat a). pose proof (R 2%nat (a + 4)). pose proof (R 1%nat (a + 6)).
    rewrite (lor_shl 32 (read m a 4)); [|lia|exact H0|lia|lia].
    replace (read m a 4 + 2 ^ 32 * read m (a + 4) 2) with (read m a (4 + 2)) by apply (read_app 4 2).
    pose proof (R 6%nat a). rewrite lor_shl; [|lia|exact H3|lia|lia]. symmetry. apply (read_app 6 1).
  - rewrite !store_addr. symmetry. change 7%nat with (6 + 1)%nat. rewrite (store_app 6 1 m a v).
    change (store m a 6 v) with (store m a (4 + 2) v). rewrite (store_app 4 2 m a v).
    unfold shr64. change (32 mod 64) with 32. change (16 mod 64) with 16.
    rewrite Z.div_div by lia. reflexivity.
Qed.

Example c31_example :
  let m := store (fun _ => 0) 1000 8 0x1122334455667788 in
  accessible 13 23 /\
  field_value true m 1000 13 23 = u64 (s 23 (0x1122334455667788 / 2 ^ 13)) /\
  match store_bitfield 13 23 with
  | Some code =>
    match exec_seq {| lbase := 0; gaddr := fun _ => 0 |} code ([-1; 1000], m) with
    | Some (stk, m') => stk = [] /\ read m' 1000 8 = 0x1122334fffffff88 - 0x800
    | None => False
    end
  | None => False
  end.
Proof.
  vm_compute. split; [split; [discriminate|split; [reflexivity|discriminate]]|]. repeat split; reflexivity.
Qed.

Print Assumptions c31_read_field.
Print Assumptions c31_write_field.
Print Assumptions c31_read_back.
Print Assumptions c31_assignment_value.
Print Assumptions c31_disjoint_fields_independent.
Print Assumptions c31_unsigned_load_of_full_width_refuted.
Print Assumptions c31_store_of_full_width_refuted.
Print Assumptions c31_runtime_loads_and_stores.
