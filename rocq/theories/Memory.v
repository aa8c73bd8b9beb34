(** Byte-addressed memory with 64-bit addresses and little-endian multi-byte
    access.  Shared vocabulary of the C semantics and of the abstract machine. *)

From Coq Require Import ZArith Lia Bool List.
From Verif Require Import Bits.
Import ListNotations.
Open Scope Z_scope.

Definition mem := Z -> Z.

Definition upd (m : mem) (a b : Z) : mem := fun x => if x =? a then b else m x.

(** Addresses wrap modulo 2^64 as effective addresses do on the processor. *)
Fixpoint write (m : mem) (a : Z) (l : list Z) : mem :=
  match l with
  | [] => m
  | b :: l => write (upd m (u64 a) b) (a + 1) l
  end.

(** [bytes_of n v]: the [n] low bytes of [v], least significant first. *)
Fixpoint bytes_of (n : nat) (v : Z) : list Z :=
  match n with
  | O => []
  | S n => v mod 256 :: bytes_of n (v / 256)
  end.

(** [read m a n]: the unsigned value of the [n] bytes at [a]. *)
Fixpoint read (m : mem) (a : Z) (n : nat) : Z :=
  match n with
  | O => 0
  | S n => m (u64 a) mod 256 + 256 * read m (a + 1) n
  end.

Definition store (m : mem) (a : Z) (n : nat) (v : Z) : mem := write m a (bytes_of n v).

(** ** Facts *)

Lemma pow256 : forall n : nat, 2 ^ (8 * Z.of_nat (S n)) = 256 * 2 ^ (8 * Z.of_nat n).
Proof.
  intros. replace (8 * Z.of_nat (S n)) with (8 + 8 * Z.of_nat n) by lia.
  rewrite Z.pow_add_r by lia. reflexivity.
Qed.

Lemma read_range : forall n m a, 0 <= read m a n < 2 ^ (8 * Z.of_nat n).
Proof.
  induction n; intros; cbn [read].
  - change (2 ^ (8 * Z.of_nat 0)) with 1. lia.
  - rewrite pow256. specialize (IHn m (a + 1)).
    pose proof (Z.mod_pos_bound (m (u64 a)) 256 ltac:(lia)). lia.
Qed.

Lemma bytes_of_eqm : forall n a b, eqm (8 * Z.of_nat n) a b -> bytes_of n a = bytes_of n b.
Proof.
  induction n; intros a b E; cbn [bytes_of]; [reflexivity|].
  apply eqm_exists in E; [|lia]. destruct E as [k ->].
  rewrite pow256. f_equal.
  - replace (b + k * (256 * 2 ^ (8 * Z.of_nat n)))
      with (b + (k * 2 ^ (8 * Z.of_nat n)) * 256) by ring.
    apply Z.mod_add. lia.
  - apply IHn. apply eqm_exists; [lia|]. exists k.
    replace (b + k * (256 * 2 ^ (8 * Z.of_nat n)))
      with (b + (k * 2 ^ (8 * Z.of_nat n)) * 256) by ring.
    rewrite Z.div_add by lia. ring.
Qed.

Lemma bytes_of_u64 : forall n v, (n <= 8)%nat -> bytes_of n (u64 v) = bytes_of n v.
Proof.
  intros. apply bytes_of_eqm. apply (eqm_weaken _ 64); [lia|].
  apply u_eqm. lia.
Qed.

Lemma read_u64 : forall n m a, read m (u64 a) n = read m a n.
Proof.
  assert (A : forall n m a b, eqm 64 a b -> read m a n = read m b n).
  { induction n; intros; cbn [read]; [reflexivity|].
    rewrite (u_compat 64 a b H). f_equal. f_equal. apply IHn.
    apply eqm_add; [lia|exact H|apply eqm_refl]. }
  intros. apply A. apply u_eqm. lia.
Qed.

Lemma write_eqm : forall l m a b, eqm 64 a b -> write m a l = write m b l.
Proof.
  induction l; intros; cbn [write]; [reflexivity|].
  rewrite (u_compat 64 _ _ H). apply IHl. apply eqm_add; [lia|exact H|apply eqm_refl].
Qed.

Lemma write_u64 : forall l m a, write m (u64 a) l = write m a l.
Proof. intros. apply write_eqm, u_eqm. lia. Qed.

Lemma store_u64 : forall m a n v, (n <= 8)%nat -> store m a n (u64 v) = store m a n v.
Proof. intros. unfold store. now rewrite bytes_of_u64. Qed.

Lemma bytes_of_length : forall n v, length (bytes_of n v) = n.
Proof. induction n; simpl; auto. Qed.

(** Bytes outside the written window are untouched. *)
Lemma write_other : forall l m a x,
  (forall i, 0 <= i < Z.of_nat (length l) -> u64 (a + i) <> x) -> write m a l x = m x.
Proof.
  induction l; intros m a0 x H; cbn [write]; [reflexivity|].
  rewrite IHl.
  - unfold upd. destruct (x =? u64 a0) eqn:E; [|reflexivity].
    apply Z.eqb_eq in E. exfalso. apply (H 0); [cbn [length]; lia|]. rewrite Z.add_0_r. auto.
  - intros i Hi. replace (a0 + 1 + i) with (a0 + (1 + i)) by lia. apply H. cbn [length]. lia.
Qed.

Lemma u64_inj : forall a i j, 0 <= i < 2 ^ 64 -> 0 <= j < 2 ^ 64 -> u64 (a + i) = u64 (a + j) -> i = j.
Proof.
  intros a i j Hi Hj E. unfold u in E.
  assert (X : eqm 64 (a + i) (a + j)) by exact E.
  apply eqm_exists in X; [|lia]. destruct X as [k X].
  assert (i - j = k * 2 ^ 64) by lia. nia.
Qed.

Lemma write_at : forall l m a i d,
  0 <= i < Z.of_nat (length l) -> Z.of_nat (length l) <= 2 ^ 64 ->
  write m a l (u64 (a + i)) = nth (Z.to_nat i) l d.
Proof.
  induction l; intros m a0 i d Hi HL; cbn [length] in *; [lia|]. cbn [write].
  destruct (Z.eq_dec i 0) as [->|N].
  - rewrite write_other.
    + unfold upd. rewrite Z.add_0_r, Z.eqb_refl. reflexivity.
    + intros j Hj E. replace (a0 + 1 + j) with (a0 + (1 + j)) in E by lia.
      apply u64_inj in E; lia.
  - replace (a0 + i) with (a0 + 1 + (i - 1)) by lia.
    rewrite (IHl _ _ _ d) by lia.
    replace (Z.to_nat i) with (S (Z.to_nat (i - 1))) by lia. reflexivity.
Qed.

(** Reading back what was stored. *)
Lemma read_ext : forall n m m' a,
  (forall i, 0 <= i < Z.of_nat n -> m (u64 (a + i)) = m' (u64 (a + i))) -> read m a n = read m' a n.
Proof.
  induction n; intros; cbn [read]; [reflexivity|].
  f_equal.
  - specialize (H 0 ltac:(lia)). rewrite Z.add_0_r in H. now rewrite H.
  - f_equal. apply IHn. intros i Hi. replace (a + 1 + i) with (a + (1 + i)) by lia. apply H. lia.
Qed.

Lemma read_store_same : forall n m a v, (n <= 8)%nat ->
  read (store m a n v) a n = v mod 2 ^ (8 * Z.of_nat n).
Proof.
  intros n m a v Hn. unfold store.
  assert (G : forall k n a v, (n + k <= 8)%nat -> forall m, read (write m a (bytes_of n v)) a n = v mod 2 ^ (8 * Z.of_nat n)).
  { clear. intros k n. revert k. induction n; intros k a v Hn m; cbn [read bytes_of write].
    - change (2 ^ (8 * Z.of_nat 0)) with 1. now rewrite Z.mod_1_r.
    - rewrite (IHn (S k)) by lia.
      rewrite write_other.
      2:{ intros i Hi E. rewrite bytes_of_length in Hi.
          replace (a + 1 + i) with (a + (1 + i)) in E by lia.
          rewrite <- (Z.add_0_r a) in E at 2. apply u64_inj in E; lia. }
      unfold upd. rewrite Z.eqb_refl. rewrite Z.mod_mod by lia.
      rewrite pow256. rewrite Z.rem_mul_r; [reflexivity|lia|].
      apply pow2_pos. lia. }
  apply (G O). lia.
Qed.

(** Where the objects of a running function live: the base address of its locals
    area and the address of every global symbol. *)
Record renv := { lbase : Z; gaddr : nat -> Z }.
