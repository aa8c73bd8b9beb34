(** C47: the compatibility check decides the relation of C17 6.2.7. *)
From Coq Require Import ZArith List Bool String Lia Permutation.
From Verif Require Import CompatModel CompatProofs PropCompat.
Import ListNotations.
Open Scope Z_scope.

(** ** Specification: C17 6.2.7, 6.7.3p10, 6.7.6.1p2, 6.7.6.2p6, 6.7.6.3p15 *)

Definition unq : qual := Q false false false.

(** A wrapper without qualifiers is no qualification. *)
Definition bare (t : ty) : ty := match t with TQual (Q false false false) a => a | _ => t end.

(** Constant array lengths (6.7.6.2p6: only constant lengths are compared). *)
Definition constant_length (b : bound) : option Z :=
  match b with Bounded n | BoundedStatic n => Some n | _ => None end.
Definition lengths_agree (a b : bound) : Prop :=
  forall x y, constant_length a = Some x -> constant_length b = Some y -> x = y.

Definition or_qual (a b : qual) : qual :=
  Q (q_const a || q_const b) (q_restrict a || q_restrict b) (q_volatile a || q_volatile b).
(** Adding qualifiers to a type. *)
Definition add_qual (q : qual) (t : ty) : ty :=
  match t with TQual q' a => TQual (or_qual q q') a | _ => TQual q t end.

(** 6.7.6.3p7, p8, p15: parameters of array and function type are adjusted to pointers, the qualifiers of the
    parameter itself do not count; va_list behaves as an array type. *)
Definition parameter (t : ty) : ty :=
  match t with
  | TArr _ _ e => TPtr e
  | TQual q (TArr _ _ e) => TPtr (add_qual q e)
  | TFun _ _ _ _ | TBasic BVaList => TPtr t
  | TQual _ a => a
  | _ => t
  end.

(** 6.5.2.2p6: types changed by the default argument promotions. *)
Definition changed_by_promotion (t : ty) : Prop :=
  match t with TBasic (BBool | BChar | BUChar | BSChar | BUShort | BSShort | BFloat) => True | _ => False end.
Definition result (t : ty) : ty := match t with TQual _ a => a | _ => t end.

(** [conforms t1 t2]: t1 and t2 are compatible. *)
Inductive conforms : ty -> ty -> Prop :=
| conforms_bare : forall t1 t2, conforms' (bare t1) (bare t2) -> conforms t1 t2
with conforms' : ty -> ty -> Prop :=
| CBasic : forall b, conforms' (TBasic b) (TBasic b)
(* 6.7.2.2p4 *)
| CEnumInt : forall c i es u, conforms' (TEnum c i es u) (TBasic u)
| CIntEnum : forall c i es u, conforms' (TBasic u) (TEnum c i es u)
(* 6.2.7p1: same tag; if both are complete, a one-to-one correspondence of enumerators with the same values *)
| CEnum : forall c1 c2 i es1 es2 u1 u2, (c1 = true -> c2 = true -> Permutation es1 es2) ->
    conforms' (TEnum c1 i es1 u1) (TEnum c2 i es2 u2)
| CPtr : forall a b, conforms a b -> conforms' (TPtr a) (TPtr b)
| CArr : forall b1 b2 q1 q2 e1 e2, conforms e1 e2 -> lengths_agree b1 b2 -> conforms' (TArr b1 q1 e1) (TArr b2 q2 e2)
(* 6.7.3p10; p9: qualifiers of an array qualify the element *)
| CQual : forall q a b, conforms a b -> conforms' (TQual q a) (TQual q b)
| CQualArr1 : forall q b z e t, conforms' (TArr b z (add_qual q e)) t -> conforms' (TQual q (TArr b z e)) t
| CQualArr2 : forall q b z e t, conforms' t (TArr b z (add_qual q e)) -> conforms' t (TQual q (TArr b z e))
| CFun : forall r1 r2 ps1 ps2 e, conforms (result r1) (result r2) ->
    Forall2 (fun p1 p2 => exists x1 x2, p_type p1 = Some x1 /\ p_type p2 = Some x2 /\ conforms (parameter x1) (parameter x2)) ps1 ps2 ->
    conforms' (TFun r1 ModeParameters ps1 e) (TFun r2 ModeParameters ps2 e)
| CFunOld : forall r1 r2 m1 m2 ps1 ps2 e1 e2, m1 <> ModeParameters -> m2 <> ModeParameters -> conforms (result r1) (result r2) ->
    conforms' (TFun r1 m1 ps1 e1) (TFun r2 m2 ps2 e2)
(* a prototype against a declarator without one: no ellipsis, parameters not changed by the promotions; against a
   definition with an identifier list also the number of parameters has to agree *)
| CFunProto1 : forall r1 r2 m2 ps1 ps2 e2, m2 <> ModeParameters -> conforms (result r1) (result r2) ->
    Forall (fun p => exists x, p_type p = Some x /\ ~ changed_by_promotion (parameter x)) ps1 ->
    (m2 = ModeIdentifiers -> List.length ps1 = List.length ps2) ->
    conforms' (TFun r1 ModeParameters ps1 false) (TFun r2 m2 ps2 e2)
| CFunProto2 : forall r1 r2 m1 ps1 ps2 e1, m1 <> ModeParameters -> conforms (result r1) (result r2) ->
    Forall (fun p => exists x, p_type p = Some x /\ ~ changed_by_promotion (parameter x)) ps2 ->
    (m1 = ModeIdentifiers -> List.length ps1 = List.length ps2) ->
    conforms' (TFun r1 m1 ps1 e1) (TFun r2 ModeParameters ps2 false)
(* 6.2.7p1: structures in order, unions in any order *)
| CStruct : forall c1 c2 i fs1 fs2, (c1 = true -> c2 = true -> Forall2 member fs1 fs2) ->
    conforms' (TStruct c1 i fs1) (TStruct c2 i fs2)
| CUnion : forall c1 c2 i fs1 fs2 fs, (c1 = true -> c2 = true -> Permutation fs2 fs /\ Forall2 member fs1 fs) ->
    conforms' (TUnion c1 i fs1) (TUnion c2 i fs2)
with member : field -> field -> Prop :=
| Member : forall n a w t1 t2, conforms t1 t2 -> member (Field n t1 a w) (Field n t2 a w).

(** ** The part of the types for which the check is right *)

(** No unions, no qualified array types, no definitions with identifier lists; with [v] only prototypes, without
    [v] no variadic functions. *)
Fixpoint regular (v : bool) (t : ty) : Prop :=
  match t with
  | TBasic _ | TEnum _ _ _ _ => True
  | TPtr a | TArr _ _ a => regular v a
  | TQual _ a => regular v a /\ (match a with TArr _ _ _ => False | _ => True end)
  | TFun r m ps e => (if v then m = ModeParameters else e = false /\ m <> ModeIdentifiers) /\ regular v r /\
      all (fun p => match p with Param (Some a) _ => regular v a | Param None _ => True end) ps
  | TStruct _ _ fs => all (fun f => match f with Field _ a _ _ => regular v a end) fs
  | TUnion _ _ _ => False
  end.

(** No enumerations *)
Fixpoint no_enum (t : ty) : Prop :=
  match t with
  | TBasic _ => True
  | TEnum _ _ _ _ => False
  | TPtr a | TArr _ _ a | TQual _ a => no_enum a
  | TFun r _ ps _ => no_enum r /\ all (fun p => match p with Param (Some a) _ => no_enum a | Param None _ => True end) ps
  | TStruct _ _ fs | TUnion _ _ fs => all (fun f => match f with Field _ a _ _ => no_enum a end) fs
  end.

Lemma bare_zero : forall t, bare t = zero_unqualified t.
Proof. intros []; try reflexivity. destruct q as [[] [] []]; reflexivity. Qed.

Lemma parameter_eq : forall v t, regular v t -> parameter t = unqualified (adjusted t).
Proof.
  intros v t R. destruct t as [b|a|b q a|q a|r m ps e|c i es u|c i fs|c i fs]; try reflexivity.
  - destruct b; reflexivity.
  - cbn. destruct (zero_qual q); reflexivity.
  - destruct R as (_ & R). destruct a; try reflexivity. destruct R.
Qed.

Lemma regular_zero_unqualified : forall v t, regular v t -> regular v (zero_unqualified t).
Proof. intros v [] W; cbn [zero_unqualified]; try exact W. destruct (zero_qual q); [apply W|exact W]. Qed.
Lemma regular_unqualified : forall v t, regular v t -> regular v (unqualified t).
Proof. intros v [] W; try exact W. apply W. Qed.
Lemma regular_parameter : forall v t, regular v t -> regular v (unqualified (adjusted t)).
Proof.
  intros v [] W; cbn [adjusted unqualified]; try exact W.
  - destruct b; exact I.
  - destruct (zero_qual q); exact W.
  - apply W.
Qed.
Lemma regular_param : forall v ps p x,
  all (fun p => match p with Param (Some a) _ => regular v a | Param None _ => True end) ps -> In p ps -> p_type p = Some x -> regular v x.
Proof.
  intros v ps p x W H E. pose proof (all_in _ _ _ _ W H) as K. destruct p as [[a|] s]; cbn [p_type] in E; [|discriminate].
  injection E as ->. exact K.
Qed.
Lemma regular_field : forall v fs f, all (fun f => match f with Field _ a _ _ => regular v a end) fs -> In f fs -> regular v (f_type f).
Proof. intros v fs f W H. pose proof (all_in _ _ _ _ W H) as K. destruct f. exact K. Qed.

(** ** Identical types are compatible *)

Lemma same_zero : forall a b, same a b = Yes -> same (zero_unqualified a) (zero_unqualified b) = Yes.
Proof.
  intros a b H. destruct a as [| | |q a| | | |], b as [| | |q' b| | | |]; try discriminate H; try exact H.
  cbn [same] in H. apply andr_yes in H. destruct H as (Q & H). apply of_bool_yes, qual_eqb_eq in Q. subst q'.
  cbn [zero_unqualified]. destruct (zero_qual q); [exact H|]. cbn [same]. rewrite qual_eqb_refl. exact H.
Qed.

Lemma same_unqualified : forall a b, same a b = Yes -> same (unqualified a) (unqualified b) = Yes.
Proof.
  intros a b H. destruct a as [| | |q a| | | |], b as [| | |q' b| | | |]; try discriminate H; try exact H.
  cbn [same] in H. apply andr_yes in H. apply H.
Qed.

Lemma same_adjusted : forall a b, same a b = Yes -> same (unqualified (adjusted a)) (unqualified (adjusted b)) = Yes.
Proof.
  intros a b H. destruct a as [x| |b1 q1 e1|q a|r m ps e| | |], b as [y| |b2 q2 e2|q' b|r' m' ps' e'| | |]; try discriminate H; try exact H.
  - cbn [same] in H. apply of_bool_yes in H. unfold basic_eqb in H. destruct (basic_eq_dec x y); [subst|discriminate].
    destruct y; reflexivity.
  - cbn [same] in H. apply andr_yes in H. cbn [adjusted]. destruct (zero_qual q1), (zero_qual q2); cbn [unqualified]; apply H.
  - cbn [same] in H. apply andr_yes in H. apply H.
Qed.

Lemma size_adjusted_lt : forall t, (size (unqualified (adjusted t)) <= S (size t))%nat.
Proof. exact size_parameter. Qed.

Lemma enumerators_eq : forall es1 es2, same_length es1 es2 = Yes -> both enumerator_same es1 es2 = Yes -> es1 = es2.
Proof.
  intros es1 es2 L H.
  assert (F : Forall2 eq es1 es2).
  { refine (both_forall _ _ _ _ _ L H _). intros [n v] [n' v'] _ _ E. unfold enumerator_same in E. cbn [fst snd] in E.
    apply andr_yes in E. destruct E as (E & E'). apply of_bool_yes, String.eqb_eq in E. subst.
    destruct v, v'; try discriminate E'; try reflexivity. apply of_bool_yes, Z.eqb_eq in E'. now subst. }
  clear L H. induction F; [reflexivity|]. now subst.
Qed.

Lemma bound_same_lengths : forall a b, bound_same a b = Yes -> lengths_agree a b.
Proof.
  intros a b H x y Ex Ey. destruct a, b; try discriminate Ex; try discriminate Ey; cbn in *; try discriminate H;
    apply of_bool_yes, Z.eqb_eq in H; congruence.
Qed.

Lemma enum_ids_eq : forall a b, enum_ids a b = Yes -> a = b.
Proof. intros [s|] [s'|] H; try discriminate H; [|reflexivity]. apply of_bool_yes, String.eqb_eq in H. now subst. Qed.

Lemma same_conforms_n : forall n v t1 t2, (size t1 < n)%nat -> wf t1 -> wf t2 -> regular v t1 -> regular v t2 ->
  same t1 t2 = Yes -> conforms t1 t2.
Proof.
  induction n as [|n IH]; intros v t1' t2' L W1' W2' R1' R2' H'; [lia|].
  constructor. rewrite !bare_zero. apply same_zero in H'.
  pose proof (wf_zero_unqualified _ W1') as W1. pose proof (wf_zero_unqualified _ W2') as W2.
  pose proof (regular_zero_unqualified _ _ R1') as R1. pose proof (regular_zero_unqualified _ _ R2') as R2.
  pose proof (size_zero_unqualified t1') as S1.
  remember (zero_unqualified t1') as t1. remember (zero_unqualified t2') as t2.
  assert (L' : (size t1 < S n)%nat) by lia. clear - IH L' W1 W2 R1 R2 H'. rename H' into H.
  destruct t1 as [b|a|b q a|q a|r m ps e|c i es u|c i fs|c i fs], t2 as [b'|a'|b' q' a'|q' a'|r' m' ps' e'|c' i' es' u'|c' i' fs'|c' i' fs'];
    try discriminate H.
  - apply of_bool_yes in H. unfold basic_eqb in H. destruct (basic_eq_dec b b'); [subst; constructor|discriminate].
  - constructor. cbn [same size] in *. apply (IH v); auto; lia.
  - cbn [same size] in *. apply andr_yes in H. destruct H as (H1 & H2). constructor; [apply (IH v); auto; lia|]. now apply bound_same_lengths.
  - cbn [same size] in *. apply andr_yes in H. destruct H as (H1 & H2). apply of_bool_yes, qual_eqb_eq in H1. subst.
    constructor. destruct W1, W2, R1, R2. apply (IH v); auto; lia.
  - cbn [same] in H. apply andr_yes in H. destruct H as (Hr & H). apply andr_yes in H. destruct H as (Hm & H).
    apply andr_yes in H. destruct H as (Hl & H). apply andr_yes in H. destruct H as (Hp & He).
    apply of_bool_yes in Hm. apply of_bool_yes, Bool.eqb_prop in He. subst e'.
    destruct W1 as (Wr1 & Wp1), W2 as (Wr2 & Wp2), R1 as (Rm1 & Rr1 & Rp1), R2 as (Rm2 & Rr2 & Rp2).
    assert (CR : conforms (result r) (result r')).
    { change (conforms (unqualified r) (unqualified r')). apply (IH v); auto using wf_unqualified, regular_unqualified, same_unqualified.
      pose proof (size_unqualified r). cbn [size] in L'. lia. }
    destruct m.
    + destruct m'; try discriminate Hm. apply CFun; [exact CR|].
      refine (both_forall _ _ _ _ _ Hl Hp _). intros [x s] [x' s'] I1 I2 E. apply andr_yes in E. destruct E as (E & _).
      destruct x as [x|].
      2: { pose proof (all_in _ _ _ _ Wp1 I1) as K. cbn in K. congruence. }
      destruct x' as [x'|]; [|discriminate E]. exists x, x'. cbn [p_type]. split; [reflexivity|]. split; [reflexivity|].
      pose proof (regular_param v _ _ x Rp1 I1 eq_refl) as Rx. pose proof (regular_param v _ _ x' Rp2 I2 eq_refl) as Rx'.
      rewrite (parameter_eq v _ Rx), (parameter_eq v _ Rx'). apply (IH v).
      * pose proof (size_param r ModeParameters ps e _ x I1 eq_refl). pose proof (size_parameter x). lia.
      * exact (wf_parameter _ (wf_param _ _ _ _ Wp1 I1 eq_refl)).
      * exact (wf_parameter _ (wf_param _ _ _ _ Wp2 I2 eq_refl)).
      * now apply regular_parameter.
      * now apply regular_parameter.
      * now apply same_adjusted.
    + destruct m'; try discriminate Hm. apply CFunOld; try discriminate. exact CR.
    + destruct m'; try discriminate Hm. apply CFunOld; try discriminate. exact CR.
  - cbn [same] in H. apply andr_yes in H. destruct H as (Hc & H). apply andr_yes in H. destruct H as (Hi & H).
    apply of_bool_yes, Bool.eqb_prop in Hc. subst c'. apply enum_ids_eq in Hi. subst i'. constructor. intros -> _.
    apply andr_yes in H. destruct H as (Hl & H). rewrite (enumerators_eq _ _ Hl H). apply Permutation_refl.
  - cbn [same] in H. apply andr_yes in H. destruct H as (Hc & H). apply andr_yes in H. destruct H as (Hi & H).
    apply of_bool_yes, Bool.eqb_prop in Hc. subst c'. apply of_bool_yes, strings_same_eq in Hi. subst i'. constructor. intros -> _.
    apply andr_yes in H. destruct H as (Hl & H). refine (both_forall _ _ _ _ _ Hl H _). intros f1 f2 I1 I2 E.
    pose proof (wf_field _ _ W1 I1) as Wf1. pose proof (wf_field _ _ W2 I2) as Wf2.
    pose proof (regular_field _ _ _ R1 I1) as Rf1. pose proof (regular_field _ _ _ R2 I2) as Rf2.
    pose proof (size_struct true i fs f1 I1) as Sf.
    destruct f1 as [n1 x1 a1 w1], f2 as [n2 x2 a2 w2]. cbn [f_name f_type f_align f_width] in *.
    apply andr_yes in E. destruct E as (E1 & E). apply andr_yes in E. destruct E as (E2 & E).
    apply andr_yes in E. destruct E as (E3 & E4). apply of_bool_yes, strings_same_eq in E1. apply of_bool_yes, Z.eqb_eq in E2.
    apply widths_yes in E3. subst. constructor. apply (IH v); auto; lia.
  - destruct R1.
Qed.

(** ** The two directions *)

Lemma bound_compatible_lengths : forall a b, bound_compatible a b = Yes <-> lengths_agree a b.
Proof.
  intros a b. split.
  - intros H x y Ex Ey. destruct a, b; try discriminate Ex; try discriminate Ey; cbn in *;
      apply of_bool_yes, Z.eqb_eq in H; congruence.
  - intros H. unfold bound_compatible. destruct a, b; try reflexivity; apply of_bool_yes, Z.eqb_eq, H; reflexivity.
Qed.

Lemma promotion_ok : forall x, wf x -> compatible x (promoted x) = Yes <-> ~ changed_by_promotion x.
Proof.
  intros x W. destruct x as [b|a|b q a|q a|r m ps e|c i es u|c i fs|c i fs];
    try (cbn [promoted changed_by_promotion]; split; [intros _ F; exact F|intros _; now apply compatible_refl]).
  destruct b; cbn [promoted changed_by_promotion]; rewrite compatible_basics; cbn; split; try (intros _ F; exact F); try reflexivity; intros H; try discriminate H; now destruct H.
Qed.

Lemma promoted_params : forall v ps,
  all (fun p => match p with Param (Some a) _ => wf a | Param None _ => False end) ps ->
  all (fun p => match p with Param (Some a) _ => regular v a | Param None _ => True end) ps ->
  each (fun p => match p_type p with
                 | Some x => let u := unqualified (adjusted x) in compatible u (promoted u)
                 | None => Ub
                 end) ps = Yes <->
  Forall (fun p => exists x, p_type p = Some x /\ ~ changed_by_promotion (parameter x)) ps.
Proof.
  intros v. induction ps as [|[[x|] s] ps IH]; intros W R; cbn [each all] in *.
  - split; [constructor|reflexivity].
  - destruct W as (Wx & W), R as (Rx & R). rewrite andr_yes, IH by assumption. cbn [p_type]. cbv zeta.
    rewrite promotion_ok by now apply wf_parameter. rewrite <- (parameter_eq v x Rx). split.
    + intros (A & B). constructor; [|exact B]. exists x. now split.
    + intros F. inversion F as [|? ? (y & E & A) B]; subst. injection E as <-. now split.
  - destruct W as ([] & _).
Qed.

Lemma all_typed : forall m ps,
  all (fun p => match p with Param (Some a) _ => wf a | Param None _ => m <> ModeParameters end) ps -> m = ModeParameters ->
  all (fun p => match p with Param (Some a) _ => wf a | Param None _ => False end) ps.
Proof.
  intros m ps W ->. induction ps as [|[[x|] s] ps IH]; cbn [all] in *; [exact I| |]; destruct W as (A & W); split; auto.
Qed.

Lemma check_conforms_n : forall n v t1 t2, (size t1 + size t2 < n)%nat -> wf t1 -> wf t2 -> regular v t1 -> regular v t2 ->
  compatible t1 t2 = Yes -> conforms t1 t2.
Proof.
  induction n as [|n IH]; intros v t1' t2' L W1' W2' R1' R2' H'; [lia|].
  rewrite (compatible_left t1' t2'), (compatible_right _ t2') in H' by auto using wf_zero_unqualified.
  constructor. rewrite !bare_zero.
  pose proof (wf_zero_unqualified _ W1') as W1. pose proof (wf_zero_unqualified _ W2') as W2.
  pose proof (regular_zero_unqualified _ _ R1') as R1. pose proof (regular_zero_unqualified _ _ R2') as R2.
  pose proof (size_zero_unqualified t1') as S1. pose proof (size_zero_unqualified t2') as S2.
  pose proof (not_zero _ W1') as Z1. pose proof (not_zero _ W2') as Z2.
  pose proof (zero_unqualified_idem _ W1') as D1. pose proof (zero_unqualified_idem _ W2') as D2.
  remember (zero_unqualified t1') as t1. remember (zero_unqualified t2') as t2.
  assert (L' : (size t1 + size t2 < S n)%nat) by lia. clear - IH L' W1 W2 R1 R2 Z1 Z2 D1 D2 H'. rename H' into H.
  rewrite (compatible_eq t1 t2) in H by assumption. unfold compat_step in H. rewrite D2 in H.
  cbv zeta in H. apply orr_yes in H. destruct H as [H|H].
  { pose proof (same_conforms_n (S (size t1)) v t1 t2 (le_n _) W1 W2 R1 R2 H) as C. inversion C as [? ? C' E1 E2]; subst.
    rewrite !bare_zero, D1, D2 in C'. exact C'. }
  clear D1 D2.
  destruct t1 as [b|a|b q a|q a|r m ps e|c i es u|c i fs|c i fs], t2 as [b'|a'|b' q' a'|q' a'|r' m' ps' e'|c' i' es' u'|c' i' fs'|c' i' fs'];
    try discriminate H; try (rewrite Z1 in H; discriminate H).
  - apply of_bool_yes in H. unfold basic_eqb in H. destruct (basic_eq_dec b b'); [subst; constructor|discriminate].
  - apply of_bool_yes in H. unfold basic_eqb in H. destruct (basic_eq_dec b u'); [subst; constructor|discriminate].
  - constructor. cbn [size] in *. apply (IH v); auto; lia.
  - apply andr_yes in H. destruct H as (H1 & H2). constructor; [cbn [size] in *; apply (IH v); auto; lia|].
    now apply bound_compatible_lengths.
  - apply andr_yes in H. destruct H as (H1 & H2). apply of_bool_yes, qual_eqb_eq in H1. subst.
    constructor. destruct W1, W2, R1, R2. cbn [size] in *. apply (IH v); auto; lia.
  - apply andr_yes in H. destruct H as (Hr & H).
    destruct W1 as (Wr1 & Wp1), W2 as (Wr2 & Wp2), R1 as (Rm1 & Rr1 & Rp1), R2 as (Rm2 & Rr2 & Rp2).
    assert (CR : conforms (result r) (result r')).
    { change (conforms (unqualified r) (unqualified r')). apply (IH v); auto using wf_unqualified, regular_unqualified.
      pose proof (size_unqualified r). pose proof (size_unqualified r'). cbn [size] in L'. lia. }
    destruct m, m'.
    + apply andr_yes in H. destruct H as (Hl & H). apply andr_yes in H. destruct H as (He & Hp).
      apply of_bool_yes, Bool.eqb_prop in He. subst e'. apply CFun; [exact CR|].
      refine (both_forall _ _ _ _ _ Hl Hp _). intros [x s] [x' s'] I1 I2 E. cbn [p_type] in E.
      destruct x as [x|], x' as [x'|]; try discriminate E. exists x, x'. cbn [p_type]. split; [reflexivity|]. split; [reflexivity|].
      pose proof (regular_param v _ _ x Rp1 I1 eq_refl) as Rx. pose proof (regular_param v _ _ x' Rp2 I2 eq_refl) as Rx'.
      rewrite (parameter_eq v _ Rx), (parameter_eq v _ Rx'). apply (IH v).
      * pose proof (size_param r ModeParameters ps e _ x I1 eq_refl). pose proof (size_parameter x).
        pose proof (size_param r' ModeParameters ps' e _ x' I2 eq_refl). pose proof (size_parameter x'). lia.
      * exact (wf_parameter _ (wf_param _ _ _ _ Wp1 I1 eq_refl)).
      * exact (wf_parameter _ (wf_param _ _ _ _ Wp2 I2 eq_refl)).
      * now apply regular_parameter.
      * now apply regular_parameter.
      * exact E.
    + exfalso. destruct v; [discriminate Rm2|]. now destruct Rm2.
    + apply andr_yes in H. destruct H as (He & H). apply of_bool_yes, negb_true_iff in He. subst e.
      apply CFunProto1; try discriminate; [exact CR|]. apply (promoted_params v); auto. now apply (all_typed ModeParameters).
    + exfalso. destruct v; [discriminate Rm1|]. now destruct Rm1.
    + apply CFunOld; try discriminate. exact CR.
    + apply CFunOld; try discriminate. exact CR.
    + apply andr_yes in H. destruct H as (He & H). destruct v; [discriminate Rm1|]. destruct Rm2 as (-> & _).
      apply CFunProto2; try discriminate; [exact CR|]. apply (promoted_params false); auto. now apply (all_typed ModeParameters).
    + apply CFunOld; try discriminate. exact CR.
    + apply CFunOld; try discriminate. exact CR.
  - apply of_bool_yes in H. unfold basic_eqb in H. destruct (basic_eq_dec u b'); [subst; constructor|discriminate].
  - apply andr_yes in H. destruct H as (Hi & H). apply enum_ids_eq in Hi. subst i'. constructor. intros -> ->.
    cbn [andb] in H. apply andr_yes in H. destruct H as (Hl & H). rewrite (enumerators_eq _ _ Hl H). apply Permutation_refl.
  - apply andr_yes in H. destruct H as (Hi & H). apply of_bool_yes, strings_same_eq in Hi. subst i'. constructor. intros -> ->.
    cbn [andb] in H. apply andr_yes in H. destruct H as (Hl & H). refine (both_forall _ _ _ _ _ Hl H _). intros f1 f2 I1 I2 E.
    pose proof (wf_field _ _ W1 I1) as Wf1. pose proof (wf_field _ _ W2 I2) as Wf2.
    pose proof (regular_field _ _ _ R1 I1) as Rf1. pose proof (regular_field _ _ _ R2 I2) as Rf2.
    pose proof (size_struct true i fs f1 I1) as Sf1. pose proof (size_struct true i fs' f2 I2) as Sf2.
    destruct f1 as [n1 x1 a1 w1], f2 as [n2 x2 a2 w2]. cbn [f_name f_type f_align f_width] in *.
    apply andr_yes in E. destruct E as (E1 & E). apply andr_yes in E. destruct E as (E2 & E).
    apply andr_yes in E. destruct E as (E3 & E4). apply of_bool_yes, strings_same_eq in E1. apply of_bool_yes, Z.eqb_eq in E2.
    apply widths_yes in E3. subst. constructor. apply (IH v); auto; lia.
  - destruct R1.
Qed.

Lemma same_not_wrong : forall t1 t2, plain t1 -> plain t2 -> same t1 t2 = Yes \/ same t1 t2 = No.
Proof.
  intros t1 t2 P1 P2. pose proof (same_defined _ _ P1 P2) as D. pose proof (same_nofuel (S (size t1)) t1 t2 (le_n _)) as NF.
  destruct (same t1 t2); auto; congruence.
Qed.

Lemma both_from : forall A (f : A -> A -> res) (P : A -> A -> Prop) l1 l2, Forall2 P l1 l2 ->
  (forall a b, In a l1 -> In b l2 -> P a b -> f a b = Yes) -> same_length l1 l2 = Yes /\ both f l1 l2 = Yes.
Proof.
  intros A f P l1 l2 F H. induction F as [|a b l1 l2 HP F IH]; [split; reflexivity|].
  destruct IH as (IH1 & IH2); [intros; apply H; auto; now right|]. split; [exact IH1|]. cbn [both].
  rewrite (H a b) by (auto; now left). exact IH2.
Qed.

Lemma no_enum_zero_unqualified : forall t, no_enum t -> no_enum (zero_unqualified t).
Proof. intros [] W; cbn [zero_unqualified]; try exact W. destruct (zero_qual q); exact W. Qed.
Lemma no_enum_unqualified : forall t, no_enum t -> no_enum (unqualified t).
Proof. intros [] W; exact W. Qed.
Lemma no_enum_parameter : forall t, no_enum t -> no_enum (unqualified (adjusted t)).
Proof.
  intros [] W; cbn [adjusted unqualified]; try exact W.
  - destruct b; exact I.
  - destruct (zero_qual q); exact W.
Qed.
Lemma no_enum_param : forall ps p x,
  all (fun p => match p with Param (Some a) _ => no_enum a | Param None _ => True end) ps -> In p ps -> p_type p = Some x -> no_enum x.
Proof.
  intros ps p x W H E. pose proof (all_in _ _ _ _ W H) as K. destruct p as [[a|] s]; cbn [p_type] in E; [|discriminate].
  injection E as ->. exact K.
Qed.
Lemma no_enum_field : forall fs f, all (fun f => match f with Field _ a _ _ => no_enum a end) fs -> In f fs -> no_enum (f_type f).
Proof. intros fs f W H. pose proof (all_in _ _ _ _ W H) as K. destruct f. exact K. Qed.

Lemma conforms_check_n : forall n v t1 t2, (size t1 + size t2 < n)%nat -> wf t1 -> wf t2 -> regular v t1 -> regular v t2 ->
  no_enum t1 -> no_enum t2 -> plain t1 -> plain t2 -> conforms t1 t2 -> compatible t1 t2 = Yes.
Proof.
  induction n as [|n IH]; intros v t1' t2' L W1' W2' R1' R2' N1' N2' P1' P2' H'; [lia|].
  rewrite (compatible_left t1' t2'), (compatible_right _ t2') by auto using wf_zero_unqualified.
  inversion H' as [x y H E1 E2]; subst x y. rewrite !bare_zero in H.
  pose proof (wf_zero_unqualified _ W1') as W1. pose proof (wf_zero_unqualified _ W2') as W2.
  pose proof (regular_zero_unqualified _ _ R1') as R1. pose proof (regular_zero_unqualified _ _ R2') as R2.
  pose proof (no_enum_zero_unqualified _ N1') as N1. pose proof (no_enum_zero_unqualified _ N2') as N2.
  pose proof (plain_zero_unqualified _ P1') as P1. pose proof (plain_zero_unqualified _ P2') as P2.
  pose proof (size_zero_unqualified t1') as S1. pose proof (size_zero_unqualified t2') as S2.
  pose proof (zero_unqualified_idem _ W2') as D2.
  remember (zero_unqualified t1') as t1. remember (zero_unqualified t2') as t2.
  assert (L' : (size t1 + size t2 < S n)%nat) by lia. clear - IH L' W1 W2 R1 R2 N1 N2 P1 P2 D2 H.
  rewrite (compatible_eq t1 t2) by assumption. unfold compat_step. rewrite D2. cbv zeta.
  destruct (same_not_wrong _ _ P1 P2) as [E|E]; rewrite E; [reflexivity|]. cbn [orr]. clear E D2.
  destruct H as [b|c i es u|c i es u|c1 c2 i es1 es2 u1 u2 H|a b H|b1 b2 q1 q2 e1 e2 H HL|q a b H|q b z e t H|q b z e t H
                |r1 r2 ps1 ps2 e H F|r1 r2 m1 m2 ps1 ps2 e1 e2 M1 M2 H|r1 r2 m2 ps1 ps2 e2 M2 H F K|r1 r2 m1 ps1 ps2 e1 M1 H F K
                |c1 c2 i fs1 fs2 H|c1 c2 i fs1 fs2 fs H];
    try (destruct N1; fail); try (destruct N2; fail); try (destruct R1; fail).
  - apply of_bool_yes. unfold basic_eqb. now destruct (basic_eq_dec b b).
  - cbn [size] in L'. apply (IH v); auto; lia.
  - cbn [size] in L'. apply andr_yes. split; [apply (IH v); auto; lia|]. now apply bound_compatible_lengths.
  - cbn [size] in L'. rewrite qual_eqb_refl. destruct W1, W2, R1, R2. apply (IH v); auto; lia.
  - destruct R1 as (_ & []).
  - destruct R2 as (_ & []).
  - destruct W1 as (Wr1 & Wp1), W2 as (Wr2 & Wp2), R1 as (Rm1 & Rr1 & Rp1), R2 as (Rm2 & Rr2 & Rp2), N1 as (Nr1 & Np1), N2 as (Nr2 & Np2),
      P1 as (Pr1 & Pp1), P2 as (Pr2 & Pp2).
    apply andr_yes. split.
    { apply (IH v); auto using wf_unqualified, regular_unqualified, no_enum_unqualified, plain_unqualified.
      pose proof (size_unqualified r1). pose proof (size_unqualified r2). cbn [size] in L'. lia. }
    eapply both_from in F; [destruct F as (F1 & F2)|].
    + rewrite F1. cbn [andr]. rewrite Bool.eqb_reflx. cbn [of_bool andr]. exact F2.
    + intros [x s] [x' s'] I1 I2 (y & y' & Ey & Ey' & C). cbn [p_type] in *. subst x x'.
      pose proof (regular_param v _ _ y Rp1 I1 eq_refl) as Rx. pose proof (regular_param v _ _ y' Rp2 I2 eq_refl) as Rx'.
      rewrite (parameter_eq v _ Rx), (parameter_eq v _ Rx') in C. apply (IH v).
      * pose proof (size_param r1 ModeParameters ps1 e _ y I1 eq_refl). pose proof (size_parameter y).
        pose proof (size_param r2 ModeParameters ps2 e _ y' I2 eq_refl). pose proof (size_parameter y'). lia.
      * exact (wf_parameter _ (wf_param _ _ _ _ Wp1 I1 eq_refl)).
      * exact (wf_parameter _ (wf_param _ _ _ _ Wp2 I2 eq_refl)).
      * now apply regular_parameter.
      * now apply regular_parameter.
      * exact (no_enum_parameter _ (no_enum_param _ _ _ Np1 I1 eq_refl)).
      * exact (no_enum_parameter _ (no_enum_param _ _ _ Np2 I2 eq_refl)).
      * exact (plain_parameter _ (plain_param _ _ _ Pp1 I1 eq_refl)).
      * exact (plain_parameter _ (plain_param _ _ _ Pp2 I2 eq_refl)).
      * exact C.
  - destruct W1 as (Wr1 & Wp1), W2 as (Wr2 & Wp2), R1 as (Rm1 & Rr1 & Rp1), R2 as (Rm2 & Rr2 & Rp2), N1 as (Nr1 & Np1), N2 as (Nr2 & Np2),
      P1 as (Pr1 & Pp1), P2 as (Pr2 & Pp2).
    apply andr_yes. split.
    { apply (IH v); auto using wf_unqualified, regular_unqualified, no_enum_unqualified, plain_unqualified.
      pose proof (size_unqualified r1). pose proof (size_unqualified r2). cbn [size] in L'. lia. }
    destruct m1, m2; try reflexivity; congruence.
  - destruct W1 as (Wr1 & Wp1), W2 as (Wr2 & Wp2), R1 as (Rm1 & Rr1 & Rp1), R2 as (Rm2 & Rr2 & Rp2), N1 as (Nr1 & Np1), N2 as (Nr2 & Np2),
      P1 as (Pr1 & Pp1), P2 as (Pr2 & Pp2).
    apply andr_yes. split.
    { apply (IH v); auto using wf_unqualified, regular_unqualified, no_enum_unqualified, plain_unqualified.
      pose proof (size_unqualified r1). pose proof (size_unqualified r2). cbn [size] in L'. lia. }
    apply (promoted_params v) in F; [|now apply (all_typed ModeParameters)|assumption].
    destruct m2; try congruence; cbn [negb of_bool andr]; exact F.
  - destruct W1 as (Wr1 & Wp1), W2 as (Wr2 & Wp2), R1 as (Rm1 & Rr1 & Rp1), R2 as (Rm2 & Rr2 & Rp2), N1 as (Nr1 & Np1), N2 as (Nr2 & Np2),
      P1 as (Pr1 & Pp1), P2 as (Pr2 & Pp2).
    apply andr_yes. split.
    { apply (IH v); auto using wf_unqualified, regular_unqualified, no_enum_unqualified, plain_unqualified.
      pose proof (size_unqualified r1). pose proof (size_unqualified r2). cbn [size] in L'. lia. }
    apply (promoted_params v) in F; [|now apply (all_typed ModeParameters)|assumption].
    destruct v; [congruence|]. destruct Rm1 as (-> & _).
    destruct m1; try congruence; cbn [negb of_bool andr]; exact F.
  - rewrite strings_same_refl. cbn [of_bool andr]. destruct (c1 && c2) eqn:C; [|reflexivity].
    apply andb_prop in C. destruct C as (C1 & C2). specialize (H C1 C2).
    eapply both_from in H; [apply andr_yes; exact H|].
    intros f1 f2 I1 I2 M.
    pose proof (wf_field _ _ W1 I1) as Wf1. pose proof (wf_field _ _ W2 I2) as Wf2.
    pose proof (regular_field _ _ _ R1 I1) as Rf1. pose proof (regular_field _ _ _ R2 I2) as Rf2.
    pose proof (no_enum_field _ _ N1 I1) as Nf1. pose proof (no_enum_field _ _ N2 I2) as Nf2.
    pose proof (plain_field _ _ P1 I1) as Pf1. pose proof (plain_field _ _ P2 I2) as Pf2.
    pose proof (size_struct c1 i fs1 f1 I1) as Sf1. pose proof (size_struct c2 i fs2 f2 I2) as Sf2.
    inversion M as [m a w x1 x2 C E1 E2]; subst f1 f2. cbn [f_name f_type f_align f_width] in *.
    rewrite strings_same_refl, Z.eqb_refl, widths_refl. cbn [of_bool andr]. apply (IH v); try assumption; try lia; tauto.
Qed.

(** ** C47 *)

(** Types reported compatible are compatible.  Partial: without unions (c18_unions_refuted), qualified array types,
    definitions with identifier lists, and variadic functions together with declarators without a prototype; each of
    these is refuted below. *)
Theorem c47_compatible_only_if_partial : forall v t1 t2, wf t1 -> wf t2 -> regular v t1 -> regular v t2 ->
  compatible t1 t2 = Yes -> conforms t1 t2.
Proof. intros v t1 t2. apply (check_conforms_n (S (size t1 + size t2))). lia. Qed.
Print Assumptions c47_compatible_only_if_partial.

(** Compatible types are reported compatible.  Partial: as above, and without enumerations and bit-fields. *)
Theorem c47_compatible_exactly_partial : forall v t1 t2, wf t1 -> wf t2 -> regular v t1 -> regular v t2 ->
  no_enum t1 -> no_enum t2 -> plain t1 -> plain t2 ->
  (compatible t1 t2 = Yes <-> conforms t1 t2) /\ (compatible t1 t2 = No <-> ~ conforms t1 t2).
Proof.
  intros v t1 t2 W1 W2 R1 R2 N1 N2 P1 P2.
  assert (E : compatible t1 t2 = Yes <-> conforms t1 t2).
  { split; [now apply (c47_compatible_only_if_partial v)|]. apply (conforms_check_n (S (size t1 + size t2)) v); auto. }
  split; [exact E|]. rewrite <- E. pose proof (c17_defined_partial t1 t2 W1 W2 P1 P2). pose proof (c17_terminates t1 t2 W1 W2).
  destruct (compatible t1 t2); split; intros; congruence.
Qed.
Print Assumptions c47_compatible_exactly_partial.

(** int f(); and int f(int, ...); are not compatible (6.7.6.3p15) but are reported so. *)
Theorem c47_variadic_refuted : exists t1 t2,
  t1 = TFun (TBasic BSInt) ModeEmpty [] false /\
  t2 = TFun (TBasic BSInt) ModeParameters [Param (Some (TBasic BSInt)) None] true /\
  wf t1 /\ wf t2 /\ compatible t1 t2 = Yes /\ ~ conforms t1 t2.
Proof.
  do 2 eexists. split; [reflexivity|]. split; [reflexivity|].
  split; [repeat split; discriminate|]. split; [repeat split; discriminate|]. split; [reflexivity|].
  intros C. inversion C as [? ? C' E1 E2]; subst. cbn [bare] in C'. inversion C'; subst; congruence.
Qed.
Print Assumptions c47_variadic_refuted.

(** int f(a, b) { ... } and int f(int); *)
Theorem c47_identifier_list_refuted : exists t1 t2,
  t1 = TFun (TBasic BSInt) ModeIdentifiers [Param None None; Param None None] false /\
  t2 = TFun (TBasic BSInt) ModeParameters [Param (Some (TBasic BSInt)) None] false /\
  wf t1 /\ wf t2 /\ compatible t1 t2 = Yes /\ compatible t2 t1 = Yes /\ ~ conforms t1 t2 /\ ~ conforms t2 t1.
Proof.
  do 2 eexists. split; [reflexivity|]. split; [reflexivity|].
  split; [repeat split; discriminate|]. split; [repeat split; discriminate|]. split; [reflexivity|]. split; [reflexivity|].
  split; intros C; inversion C as [? ? C' E1 E2]; subst; cbn [bare] in C'; inversion C'; subst; try congruence;
    match goal with K : _ = ModeIdentifiers -> _ |- _ => specialize (K eq_refl); discriminate K | K : _ -> List.length _ = List.length _ |- _ => specialize (K eq_refl); discriminate K end.
Qed.
Print Assumptions c47_identifier_list_refuted.

(** typedef int A[3]; void f(const A); and void f(const int * ); are compatible (6.7.6.3p7) but are reported
    incompatible. *)
Theorem c47_qualified_array_refuted : exists t1 t2,
  t1 = TFun (TBasic BVoid) ModeParameters [Param (Some (TQual (Q true false false) (TArr (Bounded 3) unq (TBasic BSInt)))) None] false /\
  t2 = TFun (TBasic BVoid) ModeParameters [Param (Some (TPtr (TQual (Q true false false) (TBasic BSInt)))) None] false /\
  wf t1 /\ wf t2 /\ compatible t1 t2 = No /\ conforms t1 t2.
Proof.
  do 2 eexists. split; [reflexivity|]. split; [reflexivity|].
  split; [repeat split; discriminate|]. split; [repeat split; discriminate|]. split; [reflexivity|].
  constructor. cbn [bare]. apply CFun; [constructor; constructor|].
  constructor; [|constructor]. do 2 eexists. split; [reflexivity|]. split; [reflexivity|]. cbn [parameter add_qual].
  constructor. cbn [bare]. constructor. constructor. cbn [bare]. constructor. constructor. cbn [bare]. constructor.
Qed.
Print Assumptions c47_qualified_array_refuted.

(** The enumerators of two compatible enumerations may be declared in different order (6.2.7p1). *)
Theorem c47_enumerations_refuted : exists t1 t2,
  t1 = TEnum true (Some "e"%string) [("A"%string, Some 0); ("B"%string, Some 1)] BUInt /\
  t2 = TEnum true (Some "e"%string) [("B"%string, Some 1); ("A"%string, Some 0)] BUInt /\
  wf t1 /\ wf t2 /\ regular true t1 /\ regular true t2 /\ compatible t1 t2 = No /\ conforms t1 t2.
Proof.
  do 2 eexists. split; [reflexivity|]. split; [reflexivity|]. split; [exact I|]. split; [exact I|]. split; [exact I|]. split; [exact I|].
  split; [reflexivity|]. constructor. cbn [bare]. constructor. intros _ _. constructor.
Qed.
Print Assumptions c47_enumerations_refuted.

(** ** Hypotheses are met *)

(** struct s { function pointer f: int (const char s[n], volatile double x[restrict], ...); struct t *next; }; *)
Definition ex47 (n : Z) (q : qual) (e : bool) : ty :=
  TStruct true (Some "s"%string)
    [Field (Some "f"%string) (TPtr (TFun (TQual q (TBasic BSInt)) ModeParameters
       [Param (Some (TArr (Bounded n) unq (TQual (Q true false false) (TBasic BChar)))) None;
        Param (Some (TArr Unbounded (Q false true false) (TBasic BDouble))) None] e)) 0 None;
     Field (Some "next"%string) (TPtr (TArr (Bounded n) unq (TStruct false (Some "t"%string) []))) 0 None].

Example c47_hypotheses : forall n q e, wf (ex47 n q e) /\ regular true (ex47 n q e) /\ no_enum (ex47 n q e) /\ plain (ex47 n q e).
Proof. intros. repeat split. Qed.
Example c47_yes : compatible (ex47 3 unq true) (ex47 3 (Q true false false) true) = Yes /\
  same (ex47 3 unq true) (ex47 3 (Q true false false) true) = No.
Proof. split; reflexivity. Qed.
Example c47_no : compatible (ex47 3 unq true) (ex47 4 unq true) = No /\ compatible (ex47 3 unq true) (ex47 3 unq false) = No.
Proof. split; reflexivity. Qed.
(** Without prototypes: int f(); against int f(int) and int f(char). *)
Example c47_old : let f := TFun (TBasic BSInt) ModeEmpty [] false in
  let g b := TFun (TBasic BSInt) ModeParameters [Param (Some (TBasic b)) None] false in
  wf f /\ regular false f /\ (forall b, wf (g b) /\ regular false (g b)) /\
  compatible f (g BSInt) = Yes /\ compatible (g BChar) f = No.
Proof. repeat split; try discriminate. Qed.
