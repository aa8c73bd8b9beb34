(** C17 integer types for the LP64 data model: widths, signedness, ranks,
    promotions, usual arithmetic conversions and value conversion.  This file is
    specification only (C17 6.2.5, 6.3.1.1, 6.3.1.3, 6.3.1.8); it mentions no
    definition taken from the compiler. *)

From Coq Require Import ZArith Lia Bool.
From Verif Require Import Bits.
Open Scope Z_scope.

Inductive ity : Set :=
| IBool | IChar | ISChar | IUChar | IShort | IUShort | IInt | IUInt
| ILong | IULong | ILLong | IULLong.

Definition ity_eqb (a b : ity) : bool :=
  match a, b with
  | IBool, IBool | IChar, IChar | ISChar, ISChar | IUChar, IUChar
  | IShort, IShort | IUShort, IUShort | IInt, IInt | IUInt, IUInt
  | ILong, ILong | IULong, IULong | ILLong, ILLong | IULLong, IULLong => true
  | _, _ => false
  end.

Lemma ity_eqb_eq : forall a b, ity_eqb a b = true <-> a = b.
Proof. intros [] []; simpl; split; congruence. Qed.

(** Size in bytes of the object representation (System V AMD64 ABI, figure 3.1). *)
Definition isize (t : ity) : Z :=
  match t with
  | IBool | IChar | ISChar | IUChar => 1
  | IShort | IUShort => 2
  | IInt | IUInt => 4
  | ILong | IULong | ILLong | IULLong => 8
  end.

(** Width in bits of the value representation; [_Bool] holds 0 and 1 only. *)
Definition iwidth (t : ity) : Z :=
  match t with IBool => 1 | _ => 8 * isize t end.

(** Plain [char] is signed on this ABI. *)
Definition isigned (t : ity) : bool :=
  match t with
  | IChar | ISChar | IShort | IInt | ILong | ILLong => true
  | _ => false
  end.

Definition imin (t : ity) : Z := if isigned t then - 2 ^ (iwidth t - 1) else 0.
Definition imax (t : ity) : Z :=
  if isigned t then 2 ^ (iwidth t - 1) - 1 else 2 ^ iwidth t - 1.

Definition in_range (t : ity) (v : Z) : Prop := imin t <= v <= imax t.
Definition in_rangeb (t : ity) (v : Z) : bool := (imin t <=? v) && (v <=? imax t).

Lemma in_rangeb_spec : forall t v, in_rangeb t v = true <-> in_range t v.
Proof. intros. unfold in_rangeb, in_range. rewrite andb_true_iff, !Z.leb_le. tauto. Qed.

(** 6.3.1.1p1 conversion rank. *)
Definition irank (t : ity) : Z :=
  match t with
  | IBool => 0
  | IChar | ISChar | IUChar => 1
  | IShort | IUShort => 2
  | IInt | IUInt => 3
  | ILong | IULong => 4
  | ILLong | IULLong => 5
  end.

(** The unsigned type corresponding to a signed one (6.2.5p6). *)
Definition to_unsigned (t : ity) : ity :=
  match t with
  | IChar | ISChar => IUChar | IShort => IUShort | IInt => IUInt
  | ILong => IULong | ILLong => IULLong | t => t
  end.

(** [represents_all a b]: every value of type [a] is a value of type [b]. *)
Definition represents_all (a b : ity) : bool :=
  (imin b <=? imin a) && (imax a <=? imax b).

(** 6.3.1.1p2. *)
Definition c_promote (t : ity) : ity :=
  if irank t <=? irank IInt then
    if represents_all t IInt then IInt else IUInt
  else t.

(** 6.3.1.8p1, the integer part, clause by clause. *)
Definition c_common (a b : ity) : ity :=
  let a := c_promote a in
  let b := c_promote b in
  if ity_eqb a b then a
  else if Bool.eqb (isigned a) (isigned b) then
    if irank a <? irank b then b else a
  else
    let us := if isigned a then b else a in    (* the unsigned operand *)
    let sg := if isigned a then a else b in    (* the signed operand *)
    if irank sg <=? irank us then us
    else if represents_all us sg then sg
    else to_unsigned sg.

(** 6.3.1.2 and 6.3.1.3.  Conversion of an unrepresentable value to a signed type
    is implementation-defined; as in every compiler for this ABI it reduces modulo
    2^N. *)
Definition cconv (t : ity) (v : Z) : Z :=
  match t with
  | IBool => if v =? 0 then 0 else 1
  | _ => if isigned t then s (iwidth t) v else u (iwidth t) v
  end.

(** Two integer types that no program can distinguish by the values of
    expressions: same width, signedness and "boolness". *)
Definition ity_sim (a b : ity) : bool :=
  (iwidth a =? iwidth b) && Bool.eqb (isigned a) (isigned b).

(** Arithmetic types: integers, enumerations with the integer type each is compatible
    with (6.7.2.2p4) and real floating types. *)
Inductive aty : Set := AInt (t : ity) | AEnum (u : ity) | AFloat | ADouble | ALDouble.

Definition a_underlying (a : aty) : aty := match a with AEnum u => AInt u | a => a end.

(** 6.3.1.8p1 in full for real types. *)
Definition c_common_arith (a b : aty) : aty :=
  match a_underlying a, a_underlying b with
  | ALDouble, _ | _, ALDouble => ALDouble
  | ADouble, _ | _, ADouble => ADouble
  | AFloat, _ | _, AFloat => AFloat
  | AInt x, AInt y => AInt (c_common x y)
  | AEnum _, _ | _, AEnum _ => AInt IInt
  end.

Definition aty_sim (a b : aty) : bool :=
  match a, b with
  | AInt x, AInt y => ity_sim x y
  | AFloat, AFloat | ADouble, ADouble | ALDouble, ALDouble => true
  | _, _ => false
  end.

(** ** Facts *)

Lemma iwidth_pos : forall t, 0 < iwidth t <= 64.
Proof. destruct t; vm_compute; split; congruence. Qed.

Lemma cconv_range : forall t v, in_range t (cconv t v).
Proof.
  intros t v. unfold in_range, imin, imax.
  destruct t; cbn [cconv isigned]; unfold iwidth; cbn [isize Z.mul Pos.mul];
  [ destruct (v =? 0); split; discriminate
  | pose proof (s_range 8 v eq_refl) | pose proof (s_range 8 v eq_refl)
  | pose proof (u_range 8 v ltac:(discriminate)) | pose proof (s_range 16 v eq_refl)
  | pose proof (u_range 16 v ltac:(discriminate)) | pose proof (s_range 32 v eq_refl)
  | pose proof (u_range 32 v ltac:(discriminate)) | pose proof (s_range 64 v eq_refl)
  | pose proof (u_range 64 v ltac:(discriminate)) | pose proof (s_range 64 v eq_refl)
  | pose proof (u_range 64 v ltac:(discriminate)) ]; lia.
Qed.

Lemma cconv_id : forall t v, in_range t v -> cconv t v = v.
Proof.
  intros t v H. unfold in_range, imin, imax in H.
  destruct t; unfold cconv; cbn [isigned] in *; unfold iwidth in *; cbn [isize] in *;
  try (apply s_small; [reflexivity|lia]);
  try (apply u_small; lia).
  change (2 ^ 1) with 2 in H. destruct (v =? 0) eqn:E.
  - apply Z.eqb_eq in E; lia.
  - apply Z.eqb_neq in E; lia.
Qed.

(** Modular characterisation: for a non-[_Bool] type the converted value is
    congruent to the source modulo 2^N (the wording of 6.3.1.3p2). *)
Lemma cconv_eqm : forall t v, t <> IBool -> eqm (iwidth t) (cconv t v) v.
Proof.
  intros t v H. destruct t; try congruence; unfold cconv; cbn [isigned];
  first [ apply s_eqm; reflexivity | apply u_eqm; discriminate ].
Qed.

Lemma in_range_unique : forall t a b, t <> IBool ->
  in_range t a -> in_range t b -> eqm (iwidth t) a b -> a = b.
Proof.
  intros t a b NB Ha Hb E.
  rewrite <- (cconv_id t a Ha), <- (cconv_id t b Hb).
  destruct t; try congruence; unfold cconv; cbn [isigned];
  first [ apply s_compat; [reflexivity|exact E]
        | apply u_compat; exact E ].
Qed.

Lemma cconv_sim : forall a b v, ity_sim a b = true -> cconv a v = cconv b v.
Proof. intros [] [] v H; first [discriminate H | reflexivity]. Qed.

Lemma ity_sim_refl : forall a, ity_sim a a = true.
Proof. destruct a; reflexivity. Qed.
Lemma ity_sim_sym : forall a b, ity_sim a b = true -> ity_sim b a = true.
Proof. intros [] [] H; vm_compute in *; congruence. Qed.
Lemma ity_sim_trans : forall a b c, ity_sim a b = true -> ity_sim b c = true -> ity_sim a c = true.
Proof.
  intros a b c. unfold ity_sim. rewrite !andb_true_iff, !Z.eqb_eq, !eqb_true_iff.
  intros [] []; split; congruence.
Qed.
Definition all_ity : list ity :=
  (IBool :: IChar :: ISChar :: IUChar :: IShort :: IUShort :: IInt :: IUInt
   :: ILong :: IULong :: ILLong :: IULLong :: nil)%list.

Lemma all_ity_in : forall t, List.In t all_ity.
Proof. destruct t; simpl; tauto. Qed.

Lemma all_ity_forall : forall p : ity -> bool, List.forallb p all_ity = true -> forall t, p t = true.
Proof. intros p H t. rewrite List.forallb_forall in H. apply H, all_ity_in. Qed.

Lemma c_promote_sim : forall a a', ity_sim a a' = true -> ity_sim (c_promote a) (c_promote a') = true.
Proof.
  intros a a' H.
  assert (X : forall a a', implb (ity_sim a a') (ity_sim (c_promote a) (c_promote a')) = true).
  { intros x. apply all_ity_forall. revert x. apply all_ity_forall.
    vm_compute. reflexivity. }
  specialize (X a a'). rewrite H in X. exact X.
Qed.

Lemma c_common_sim : forall a b a' b',
  ity_sim a a' = true -> ity_sim b b' = true -> ity_sim (c_common a b) (c_common a' b') = true.
Proof.
  intros a b a' b' H H'.
  assert (X : forall a a' b b', implb (ity_sim a a' && ity_sim b b')
                (ity_sim (c_common a b) (c_common a' b')) = true).
  { intros x x' y. apply all_ity_forall. revert y. apply all_ity_forall.
    revert x'. apply all_ity_forall. revert x. apply all_ity_forall.
    vm_compute. reflexivity. }
  specialize (X a a' b b'). rewrite H, H' in X. exact X.
Qed.
