(** C16: integer promotions and usual arithmetic conversions. *)
From Coq Require Import ZArith Lia Bool.
From Verif Require Import Bits CTypes TypeConvModel.
Open Scope Z_scope.

(** Integer promotions are exactly those of C17 6.3.1.1p2. *)
Theorem c16_integer_promotion :
  forall t : ity, k_int_promotion t None = Some (c_promote t).
Proof. exact k_promote_total. Qed.

(** A bit-field of type _Bool, int or unsigned int and admissible width promotes to
    int when int can represent all its values, and to unsigned int otherwise.
    The values of an N-bit field are those of N bits in its signedness. *)
Theorem c16_bitfield_promotion :
  forall (t : ity) (w : Z),
    (t = IBool /\ w = 1) \/ ((t = IInt \/ t = ISChar \/ t = IUInt) /\ 1 <= w <= 32) ->
    k_int_promotion t (Some w) =
      Some (if isigned t then IInt
            else if 2 ^ w - 1 <=? imax IInt then IInt else IUInt).
Proof.
  intros t w [[-> ->]|[T W]]; [reflexivity|].
  assert (w = 32 \/ 1 <= w <= 31) as [->|W'] by lia.
  - destruct T as [->|[->| ->]]; reflexivity.
  - assert (P : 2 ^ w <= 2 ^ 31) by (apply Z.pow_le_mono_r; lia).
    unfold k_int_promotion, k_bitfield_promotion.
    replace (w =? 32) with false by (symmetry; apply Z.eqb_neq; lia).
    replace (32 <=? w) with false by (symmetry; apply Z.leb_gt; lia).
    destruct T as [->|[->| ->]]; try reflexivity; cbn -[Z.pow].
    replace (2 ^ w - 1 <=? 2 ^ 31 - 1) with true; [reflexivity|].
    symmetry; apply Z.leb_le. lia.
Qed.

(** The common type has the width and signedness prescribed by C17 6.3.1.8, and
    swapping the operands changes neither.  (Partial: the property also asks for
    independence of the operand order as such, which fails between long and
    long long; see below.) *)
Theorem c16_usual_arithmetic_conversions_partial :
  forall a b : aty, exists t t',
    k_common_arithmetic a None b None = Some t /\
    k_common_arithmetic b None a None = Some t' /\
    aty_sim t (c_common_arith a b) = true /\
    aty_sim t' (c_common_arith a b) = true.
Proof.
  intros [x|x| | |] [y|y| | |];
  try (eexists; eexists; split; [|split; [|split]]; reflexivity);
  destruct x, y; eexists; eexists; (split; [|split; [|split]]); vm_compute; reflexivity.
Qed.

(** The analyzer picks exactly the C17 type, in either order, unless one promoted
    operand is a long and the other a long long (of whatever signedness). *)
Definition mixes_long_llong (x y : ity) : bool :=
  match x, y with
  | (ILong | IULong), (ILLong | IULLong) => true
  | (ILLong | IULLong), (ILong | IULong) => true
  | _, _ => false
  end.

Theorem c16_exact_type_without_long_mix :
  forall x y : ity, mixes_long_llong x y = false ->
    k_common_arithmetic (AInt x) None (AInt y) None = Some (AInt (c_common x y)) /\
    k_common_arithmetic (AInt y) None (AInt x) None = Some (AInt (c_common x y)).
Proof.
  intros [] [] H; try discriminate H; split; vm_compute; reflexivity.
Qed.

(** Default argument promotions (6.5.2.2p6). *)
Theorem c16_default_argument_promotion :
  (forall t, k_default_argument_promotion (AInt t) = Some (AInt (c_promote t))) /\
  k_default_argument_promotion AFloat = Some ADouble /\
  k_default_argument_promotion ADouble = Some ADouble /\
  k_default_argument_promotion ALDouble = Some ALDouble.
Proof. repeat split; destruct t; reflexivity. Qed.

(** The chosen type does depend on the order: long + long long has type long long,
    long long + long has type long. *)
Theorem c16_order_independence_refuted :
  exists a b, k_common_arithmetic a None b None <> k_common_arithmetic b None a None.
Proof. exists (AInt ILong), (AInt ILLong). vm_compute. congruence. Qed.

(** ... and for unsigned long with long long the result is not the C17 type
    (unsigned long long). *)
Theorem c16_exact_type_refuted :
  exists a b, k_common_arithmetic a None b None <> Some (c_common_arith a b).
Proof. exists (AInt IULong), (AInt ILLong). vm_compute. congruence. Qed.

(** Concrete instances of the positive theorems. *)
Example c16_int_uint : k_common_arithmetic (AInt IInt) None (AInt IUInt) None = Some (AInt IUInt).
Proof. reflexivity. Qed.
Example c16_uint_long : k_common_arithmetic (AInt IUInt) None (AInt ILong) None = Some (AInt ILong).
Proof. reflexivity. Qed.
Example c16_enum_float : k_common_arithmetic (AEnum IUInt) None AFloat None = Some AFloat.
Proof. reflexivity. Qed.
Example c16_bf : k_int_promotion IUInt (Some 31) = Some IInt /\ k_int_promotion IUInt (Some 32) = Some IUInt.
Proof. split; reflexivity. Qed.

Print Assumptions c16_integer_promotion.
Print Assumptions c16_bitfield_promotion.
Print Assumptions c16_usual_arithmetic_conversions_partial.
Print Assumptions c16_exact_type_without_long_mix.
Print Assumptions c16_default_argument_promotion.
