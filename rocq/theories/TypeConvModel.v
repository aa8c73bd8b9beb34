(** Model of the analyzer's arithmetic conversions:
    source/ast/type_conv.c, source/ast/type.c, source/ast/type/basic.c.

    The model covers the LP64 data model, the only one for which
    kefir_ast_type_traits_init succeeds (source/ast/type.c:163-183), and
    [character_type_signedness = true] (type.c:168).  NULL results of the C
    functions are [None]. *)

From Coq Require Import ZArith Lia Bool.
From Verif Require Import Bits CTypes.
Open Scope Z_scope.

(** Ranks stored in the basic types, source/ast/type/basic.c:91-105.  long and
    long long carry the same rank. *)
Definition k_rank (t : ity) : Z :=
  match t with
  | IBool => 0
  | IChar | IUChar | ISChar => 1
  | IUShort | IShort => 2
  | IUInt | IInt => 3
  | IULong | ILong => 4
  | IULLong | ILLong => 4
  end.

(** kefir_ast_type_is_signed, source/ast/type/basic.c:172 ff. *)
Definition k_is_signed (t : ity) : bool :=
  match t with
  | IChar => true (* type_traits->character_type_signedness *)
  | ISChar | IShort | IInt | ILong | ILLong => true
  | IBool | IUChar | IUShort | IUInt | IULong | IULLong => false
  end.

(** default_integral_type_fit_rank, source/ast/type.c:28-68, model LP64. *)
Definition k_fit_rank (t : ity) : Z :=
  match t with
  | IBool | IChar | IUChar | ISChar => 1
  | IUShort | IShort => 2
  | IUInt | IInt => 4
  | IULong | ILong => 8
  | IULLong | ILLong => 8
  end.

(** default_integral_type_fits, source/ast/type.c:70-102. *)
Definition k_fits (src dst : ity) : bool :=
  let ss := k_is_signed src in
  let ds := k_is_signed dst in
  if Bool.eqb ss ds || (ss && negb ds) then k_fit_rank src <=? k_fit_rank dst
  else if negb ss && ds then k_fit_rank src <? k_fit_rank dst
  else false.

(** Bit-field properties attached to an expression (struct
    kefir_ast_bitfield_properties): [None] or the width. *)
Definition bitprops := option Z.

(** default_bitfield_promotion, source/ast/type.c:143-156
    (signed_integer_width = 32 in the LP64 descriptor). *)
Definition k_bitfield_promotion (t : ity) (width : Z) : ity :=
  if (width =? 32) && (match t with ISChar | IShort | IInt | ILong | ILLong => true | _ => false end)
  then IInt
  else if 32 <=? width then t
  else IInt.

(** kefir_ast_type_int_promotion, source/ast/type_conv.c:24-57, after an
    enumeration has been replaced by its underlying type. *)
Definition k_int_promotion (t : ity) (bp : bitprops) : option ity :=
  let t := match bp with Some w => k_bitfield_promotion t w | None => t end in
  if k_rank t <? k_rank IInt then
    if k_fits t IInt then Some IInt
    else if k_fits t IUInt then Some IUInt
    else match bp with Some _ => Some t | None => None end
  else Some t.

(** kefir_ast_type_flip_integer_singedness, source/ast/type/basic.c:120-170. *)
Definition k_flip (t : ity) : ity :=
  match t with
  | IBool => IBool
  | IChar => IUChar
  | IUChar => ISChar | ISChar => IUChar
  | IUShort => IShort | IShort => IUShort
  | IUInt => IInt | IInt => IUInt
  | IULong => ILong | ILong => IULong
  | IULLong => ILLong | ILLong => IULLong
  end.

(** The integer part of kefir_ast_type_common_arithmetic,
    source/ast/type_conv.c:85-125. *)
Definition k_common_int (t1 : ity) (b1 : bitprops) (t2 : ity) (b2 : bitprops) : option ity :=
  match k_int_promotion t1 b1, k_int_promotion t2 b2 with
  | Some t1, Some t2 =>
    if ity_eqb t1 t2 then Some t1
    else
      let s1 := k_is_signed t1 in
      let s2 := k_is_signed t2 in
      if Bool.eqb s1 s2 then
        if k_rank t2 <? k_rank t1 then Some t1 else Some t2
      else if negb s1 && (k_rank t2 <=? k_rank t1) then Some t1
      else if s1 && (k_rank t1 <=? k_rank t2) then Some t2
      else if s1 && k_fits t2 t1 then Some t1
      else if negb s1 && k_fits t1 t2 then Some t2
      else if s1 then Some (k_flip t1) else Some (k_flip t2)
  | _, _ => None
  end.

(** kefir_ast_type_common_arithmetic, source/ast/type_conv.c:60-126.
    An enumeration carries its underlying type: unsigned int, or int if some value is
    negative (analyzer/declarator.c:263-268). *)
Definition k_common_arithmetic (a : aty) (b1 : bitprops) (b : aty) (b2 : bitprops) : option aty :=
  let a := match a with AEnum u => AInt u | a => a end in
  let b := match b with AEnum u => AInt u | b => b end in
  match a, b with
  | ALDouble, _ | _, ALDouble => Some ALDouble
  | ADouble, _ | _, ADouble => Some ADouble
  | AFloat, _ | _, AFloat => Some AFloat
  | AInt x, AInt y => match k_common_int x b1 y b2 with Some t => Some (AInt t) | None => None end
  | _, _ => None
  end.

(** kefir_ast_type_function_default_argument_promotion,
    source/ast/type_conv.c:128-137. *)
Definition k_default_argument_promotion (a : aty) : option aty :=
  match a with
  | AInt t => match k_int_promotion t None with Some t => Some (AInt t) | None => None end
  | AFloat => Some ADouble
  | a => Some a
  end.

(** ** Facts *)

Lemma k_promote_total : forall t, k_int_promotion t None = Some (c_promote t).
Proof. destruct t; reflexivity. Qed.

Lemma k_common_total : forall a b, exists t,
  k_common_int a None b None = Some t /\ ity_sim t (c_common a b) = true.
Proof. intros [] []; eexists; split; vm_compute; reflexivity. Qed.
