(** C51: the composite type of two compatible types is the one of C17 6.2.7p3. *)
From Coq Require Import ZArith List Bool String Lia Permutation.
From Verif Require Import CompatModel CompatProofs PropCompat PropCompatSpec CompositeModel.
Import ListNotations.
Open Scope Z_scope.

(** ** Specification: C17 6.2.7p3 *)

(** Is the length of a variable length array given, or is it [*]? *)
Definition length_given (b : bound) : bool := match b with Vla true | VlaStatic true => true | _ => false end.
Definition length_star (b : bound) : bool := match b with Vla false | VlaStatic false => true | _ => false end.

(** A constant length wins, then a given variable length, then [*]; only two unknown lengths give an unknown one. *)
Definition joint_length (b1 b2 b3 : bound) : Prop :=
  match constant_length b1, constant_length b2 with
  | Some n, _ | None, Some n => constant_length b3 = Some n
  | None, None =>
    if length_given b1 || length_given b2 then length_given b3 = true
    else if length_star b1 || length_star b2 then length_star b3 = true
    else b3 = Unbounded
  end.

(** [joint t1 t2 t3]: t3 is a composite type of t1 and t2. *)
Inductive joint : ty -> ty -> ty -> Prop :=
| JBasic : forall b, joint (TBasic b) (TBasic b) (TBasic b)
(* an enumeration and its integer type: either is compatible with both *)
| JEnumInt : forall c i es u, joint (TEnum c i es u) (TBasic u) (TEnum c i es u)
| JEnumInt' : forall c i es u, joint (TEnum c i es u) (TBasic u) (TBasic u)
| JIntEnum : forall c i es u, joint (TBasic u) (TEnum c i es u) (TEnum c i es u)
| JIntEnum' : forall c i es u, joint (TBasic u) (TEnum c i es u) (TBasic u)
(* declarations of one tag: once completed, the type is complete (6.7.2.3p4) *)
| JEnum : forall i es1 es2 u1 u2, Permutation es1 es2 -> joint (TEnum true i es1 u1) (TEnum true i es2 u2) (TEnum true i es1 u1)
| JEnumLeft : forall i es1 es2 u1 u2, joint (TEnum true i es1 u1) (TEnum false i es2 u2) (TEnum true i es1 u1)
| JEnumRight : forall i es1 es2 u1 u2, joint (TEnum false i es1 u1) (TEnum true i es2 u2) (TEnum true i es2 u2)
| JEnumNone : forall i es1 es2 es3 u1 u2 u3, joint (TEnum false i es1 u1) (TEnum false i es2 u2) (TEnum false i es3 u3)
| JPtr : forall a b c, joint a b c -> joint (TPtr a) (TPtr b) (TPtr c)
| JArr : forall b1 b2 b3 q1 q2 q3 e1 e2 e3, joint e1 e2 e3 -> joint_length b1 b2 b3 ->
    joint (TArr b1 q1 e1) (TArr b2 q2 e2) (TArr b3 q3 e3)
| JQual : forall q a b c, joint a b c -> joint (TQual q a) (TQual q b) (TQual q c)
| JQualArr1 : forall q b z e t t3, joint (TArr b z (add_qual q e)) t t3 -> joint (TQual q (TArr b z e)) t t3
| JQualArr2 : forall q b z e t t3, joint t (TArr b z (add_qual q e)) t3 -> joint t (TQual q (TArr b z e)) t3
| JQualArr3 : forall q b z e t t', joint t t' (TArr b z (add_qual q e)) -> joint t t' (TQual q (TArr b z e))
(* both with a parameter type list: parameter by parameter *)
| JFun : forall r1 r2 r3 ps1 ps2 ps3 e, joint (result r1) (result r2) (result r3) -> joint_params ps1 ps2 ps3 ->
    joint (TFun r1 ModeParameters ps1 e) (TFun r2 ModeParameters ps2 e) (TFun r3 ModeParameters ps3 e)
(* one with a parameter type list: that list *)
| JFun1 : forall r1 r2 r3 m2 ps1 ps2 ps3 e2, m2 <> ModeParameters -> joint (result r1) (result r2) (result r3) ->
    map (fun p => option_map parameter (p_type p)) ps1 = map (fun p => option_map parameter (p_type p)) ps3 ->
    joint (TFun r1 ModeParameters ps1 false) (TFun r2 m2 ps2 e2) (TFun r3 ModeParameters ps3 false)
| JFun2 : forall r1 r2 r3 m1 ps1 ps2 ps3 e1, m1 <> ModeParameters -> joint (result r1) (result r2) (result r3) ->
    map (fun p => option_map parameter (p_type p)) ps2 = map (fun p => option_map parameter (p_type p)) ps3 ->
    joint (TFun r1 m1 ps1 e1) (TFun r2 ModeParameters ps2 false) (TFun r3 ModeParameters ps3 false)
| JFunOld : forall r1 r2 r3 m1 m2 m3 ps1 ps2 ps3 e1 e2 e3, m1 <> ModeParameters -> m2 <> ModeParameters -> m3 <> ModeParameters ->
    joint (result r1) (result r2) (result r3) ->
    joint (TFun r1 m1 ps1 e1) (TFun r2 m2 ps2 e2) (TFun r3 m3 ps3 e3)
| JStruct : forall i fs1 fs2 fs3, joint_members fs1 fs2 fs3 -> joint (TStruct true i fs1) (TStruct true i fs2) (TStruct true i fs3)
| JStructLeft : forall i fs1 fs2, joint (TStruct true i fs1) (TStruct false i fs2) (TStruct true i fs1)
| JStructRight : forall i fs1 fs2, joint (TStruct false i fs1) (TStruct true i fs2) (TStruct true i fs2)
| JStructNone : forall i fs1 fs2 fs3, joint (TStruct false i fs1) (TStruct false i fs2) (TStruct false i fs3)
| JUnion : forall i fs1 fs2 fs fs3, Permutation fs2 fs -> joint_members fs1 fs fs3 ->
    joint (TUnion true i fs1) (TUnion true i fs2) (TUnion true i fs3)
| JUnionLeft : forall i fs1 fs2, joint (TUnion true i fs1) (TUnion false i fs2) (TUnion true i fs1)
| JUnionRight : forall i fs1 fs2, joint (TUnion false i fs1) (TUnion true i fs2) (TUnion true i fs2)
| JUnionNone : forall i fs1 fs2 fs3, joint (TUnion false i fs1) (TUnion false i fs2) (TUnion false i fs3)
with joint_params : list param -> list param -> list param -> Prop :=
| JPNil : joint_params [] [] []
| JPCons : forall x1 x2 x3 s1 s2 s3 r1 r2 r3, joint (parameter x1) (parameter x2) (parameter x3) -> joint_params r1 r2 r3 ->
    joint_params (Param (Some x1) s1 :: r1) (Param (Some x2) s2 :: r2) (Param (Some x3) s3 :: r3)
with joint_members : list field -> list field -> list field -> Prop :=
| JMNil : joint_members [] [] []
| JMCons : forall n a w t1 t2 t3 r1 r2 r3, joint t1 t2 t3 -> joint_members r1 r2 r3 ->
    joint_members (Field n t1 a w :: r1) (Field n t2 a w :: r2) (Field n t3 a w :: r3).

(** ** The pairs of types for which the operation is right *)

Definition quals (t : ty) : qual := match t with TQual q _ => q | _ => unq end.

Inductive covered : ty -> ty -> Prop :=
| VBasic : forall b b', covered (TBasic b) (TBasic b')
| VBasicEnum : forall b c i es u, b <> BVaList -> covered (TBasic b) (TEnum c i es u)
| VEnumBasic : forall b c i es u, covered (TEnum c i es u) (TBasic b)
(* not the complete enumeration after the incomplete one *)
| VEnum : forall c1 c2 i1 i2 es1 es2 u1 u2, (c2 = true -> c1 = true) -> covered (TEnum c1 i1 es1 u1) (TEnum c2 i2 es2 u2)
| VPtr : forall a b, covered a b -> covered (TPtr a) (TPtr b)
(* not a given variable length after [*] *)
| VArr : forall b1 b2 q1 q2 e1 e2, covered e1 e2 -> (length_star b1 = true -> length_given b2 = false) ->
    covered (TArr b1 q1 e1) (TArr b2 q2 e2)
| VQual : forall q1 q2 a b, covered a b -> zero_qual q1 = false -> zero_qual q2 = false -> covered (TQual q1 a) (TQual q2 b)
(* two prototypes: the same qualifiers of the result; no qualified function or va_list as parameter *)
| VFun : forall r1 r2 ps1 ps2 e1 e2, quals r1 = quals r2 -> covered r1 r2 -> ps1 <> [] ->
    Forall2 (fun p1 p2 => forall x1 x2, p_type p1 = Some x1 -> p_type p2 = Some x2 ->
      covered (parameter x1) (parameter x2) /\ parameter (parameter x1) = parameter x1) ps1 ps2 ->
    covered (TFun r1 ModeParameters ps1 e1) (TFun r2 ModeParameters ps2 e2)
(* not two prototypes: the same result type *)
| VFunOld : forall r m1 m2 ps1 ps2 e1 e2, m1 <> ModeParameters \/ m2 <> ModeParameters ->
    covered (TFun r m1 ps1 e1) (TFun r m2 ps2 e2)
(* both complete or both incomplete *)
| VStruct : forall c i1 i2 fs1 fs2, (c = true -> Forall2 (fun f1 f2 => covered (f_type f1) (f_type f2)) fs1 fs2) ->
    covered (TStruct c i1 fs1) (TStruct c i2 fs2).

(** ** The fuel suffices *)

Lemma comp_params_ext : forall r r' ps1 ps2,
  (forall p x y, In p ps1 -> p_type p = Some x -> r (unqualified (adjusted x)) y = r' (unqualified (adjusted x)) y) ->
  comp_params r ps1 ps2 = comp_params r' ps1 ps2.
Proof.
  intros r r'. induction ps1 as [|p ps1 IH]; intros [|p2 ps2] H; try reflexivity. cbn [comp_params].
  destruct (p_type p) as [x|] eqn:E; [|reflexivity]. destruct (p_type p2) as [y|]; [|reflexivity].
  rewrite (H p x) by (auto; now left). rewrite IH; [reflexivity|]. intros p' x' y' I. apply H. now right.
Qed.
Lemma comp_fields_ext : forall r r' fs1 fs2, (forall f y, In f fs1 -> r (f_type f) y = r' (f_type f) y) ->
  comp_fields r fs1 fs2 = comp_fields r' fs1 fs2.
Proof.
  intros r r'. induction fs1 as [|f fs1 IH]; intros [|f2 fs2] H; try reflexivity. cbn [comp_fields].
  rewrite (H f) by now left. rewrite IH; [reflexivity|]. intros f' y I. apply H. now right.
Qed.
Lemma comp_members_ext : forall r r' l fs1 fs2, (forall f y, In f fs1 -> r (f_type f) y = r' (f_type f) y) ->
  comp_members r l fs1 fs2 = comp_members r' l fs1 fs2.
Proof.
  intros r r' l. induction fs1 as [|f fs1 IH]; intros fs2 H; try reflexivity. cbn [comp_members].
  rewrite IH by (intros f' y I; apply H; now right).
  destruct (match f_name f with Some n => match field_at l n with Some f0 => Comp f0 | None => Null end | None => unnamed_match f fs2 end); try reflexivity.
  cbn [bindc]. rewrite (H f) by now left. reflexivity.
Qed.

Lemma comp_fuel : forall n t1 t2 f f', (size t1 < n)%nat -> (n <= f)%nat -> (n <= f')%nat -> comp f t1 t2 = comp f' t1 t2.
Proof.
  induction n as [|n IH]; intros t1 t2 f f' L F F'; [lia|].
  destruct f as [|f]; [lia|]. destruct f' as [|f']; [lia|]. cbn [comp]. unfold comp_step. destruct (compatible t1 t2); try reflexivity.
  destruct t1 as [b|a|b q a|q a|r m ps e|c i es u|c i fs|c i fs], t2 as [b'|a'|b' q' a'|q' a'|r' m' ps' e'|c' i' es' u'|c' i' fs'|c' i' fs'];
    try reflexivity; try (cbn [size] in L; rewrite (IH a _ f f') by lia; reflexivity).
  - destruct m, m'; try reflexivity.
    rewrite (IH r r' f f') by (cbn [size] in L; lia).
    rewrite (comp_params_ext (comp f) (comp f')); [reflexivity|].
    intros p x y I E. pose proof (size_param r ModeParameters ps e p x I E). pose proof (size_parameter x). apply IH; lia.
  - destruct (c && c'); [|reflexivity]. rewrite (comp_fields_ext (comp f) (comp f')); [reflexivity|].
    intros g y I. pose proof (size_struct c i fs g I). apply IH; lia.
  - destruct (c && c'); [|reflexivity]. rewrite (comp_members_ext (comp f) (comp f')); [reflexivity|].
    intros g y I. pose proof (size_union c i fs g I). apply IH; lia.
Qed.

Lemma composite_eq : forall t1 t2, composite t1 t2 = comp_step composite t1 t2.
Proof.
  intros t1 t2. unfold composite at 1. cbn [comp]. unfold comp_step. destruct (compatible t1 t2); try reflexivity.
  assert (E : forall a b, (size a < size t1)%nat -> comp (size t1) a b = composite a b).
  { intros a b L. unfold composite. apply (comp_fuel (S (size a))); lia. }
  destruct t1 as [b|a|b q a|q a|r m ps e|c i es u|c i fs|c i fs], t2 as [b'|a'|b' q' a'|q' a'|r' m' ps' e'|c' i' es' u'|c' i' fs'|c' i' fs'];
    try reflexivity; try (rewrite E by (cbn [size]; lia); reflexivity).
  - destruct m, m'; try reflexivity. rewrite E by (cbn [size]; lia).
    rewrite (comp_params_ext _ composite); [reflexivity|].
    intros p x y I Ex. apply E. pose proof (size_param r ModeParameters ps e p x I Ex). pose proof (size_parameter x). lia.
  - destruct (c && c'); [|reflexivity]. rewrite (comp_fields_ext _ composite); [reflexivity|].
    intros g y I. apply E. apply size_struct. exact I.
  - destruct (c && c'); [|reflexivity]. rewrite (comp_members_ext _ composite); [reflexivity|].
    intros g y I. apply E. apply size_union. exact I.
Qed.

(** The operation always ends. *)
Lemma bindc_ends : forall A B (a : cres A) (f : A -> cres B), a <> Exhausted -> (forall x, a = Comp x -> f x <> Exhausted) -> bindc a f <> Exhausted.
Proof. intros A B [] f H K; cbn [bindc]; try discriminate; auto. Qed.

Lemma unnamed_ends : forall f fs, (forall g, In g fs -> compatible (f_type f) (f_type g) <> NoFuel) -> unnamed_match f fs <> Exhausted.
Proof.
  intros f. induction fs as [|g fs IH]; intros H; cbn [unnamed_match]; [discriminate|].
  specialize (IH (fun g I => H g (or_intror I))). specialize (H g (or_introl eq_refl)).
  destruct (f_name g); [exact IH|]. destruct (widths (f_width f) (f_width g)) eqn:Ew; cbn [andr]; try exact IH; try discriminate.
  - destruct (compatible (f_type f) (f_type g)); try discriminate; try exact IH. congruence.
  - destruct (f_width f), (f_width g); try discriminate Ew. unfold widths, of_bool in Ew. destruct (z =? z0); discriminate Ew.
Qed.

Lemma unnamed_match_in : forall f fs g, unnamed_match f fs = Comp g -> In g fs.
Proof.
  intros f. induction fs as [|x fs IH]; intros g H; cbn [unnamed_match] in H; [discriminate|].
  destruct (f_name x); [right; now apply IH|].
  destruct (andr (widths (f_width f) (f_width x)) (compatible (f_type f) (f_type x))); try discriminate.
  - injection H as ->. now left.
  - right. now apply IH.
Qed.

Lemma ends_n : forall n t1 t2, (size t1 < n)%nat -> wf t1 -> wf t2 -> composite t1 t2 <> Exhausted.
Proof.
  induction n as [|n IH]; intros t1 t2 L W1 W2; [lia|].
  rewrite composite_eq. unfold comp_step. pose proof (c17_terminates t1 t2 W1 W2).
  destruct (compatible t1 t2); try discriminate; [|congruence]. clear H.
  destruct t1 as [b|a|b q a|q a|r m ps e|c i es u|c i fs|c i fs], t2 as [b'|a'|b' q' a'|q' a'|r' m' ps' e'|c' i' es' u'|c' i' fs'|c' i' fs'];
    try discriminate;
    try (apply bindc_ends; [apply IH; [cbn [size] in L; lia|apply W1|apply W2]|discriminate]).
  - destruct m, m'; try discriminate. destruct W1 as (Wr1 & Wp1), W2 as (Wr2 & Wp2).
    apply bindc_ends; [apply IH; [cbn [size] in L; lia|assumption|assumption]|]. intros rt _. apply bindc_ends; [|discriminate].
    assert (G : forall l1 l2, incl l1 ps -> incl l2 ps' -> comp_params composite l1 l2 <> Exhausted).
    { induction l1 as [|p l1 IHl]; intros [|p2 l2] I1 I2; cbn [comp_params]; try discriminate.
      assert (J1 : In p ps) by (apply I1; now left). assert (J2 : In p2 ps') by (apply I2; now left).
      destruct (p_type p) as [x|] eqn:E1; [|discriminate]. destruct (p_type p2) as [y|] eqn:E2; [|discriminate].
      apply bindc_ends.
      - apply IH; [|exact (wf_parameter _ (wf_param _ _ _ _ Wp1 J1 E1))|exact (wf_parameter _ (wf_param _ _ _ _ Wp2 J2 E2))].
        pose proof (size_param r ModeParameters ps e p x J1 E1). pose proof (size_parameter x). lia.
      - intros c _. apply bindc_ends; [|discriminate]. apply IHl; [intros z I; apply I1; now right|intros z I; apply I2; now right]. }
    apply G; apply incl_refl.
  - destruct (c && c'); [|discriminate]. apply bindc_ends; [|discriminate].
    assert (G : forall l1 l2, incl l1 fs -> incl l2 fs' -> comp_fields composite l1 l2 <> Exhausted).
    { induction l1 as [|p l1 IHl]; intros [|p2 l2] I1 I2; cbn [comp_fields]; try discriminate.
      assert (J1 : In p fs) by (apply I1; now left). assert (J2 : In p2 fs') by (apply I2; now left).
      apply bindc_ends.
      - apply IH; [|exact (wf_field _ _ W1 J1)|exact (wf_field _ _ W2 J2)]. pose proof (size_struct c i fs p J1). lia.
      - intros k _. apply bindc_ends; [|discriminate]. apply IHl; [intros z I; apply I1; now right|intros z I; apply I2; now right]. }
    apply G; apply incl_refl.
  - destruct (c && c'); [|discriminate]. apply bindc_ends; [|discriminate]. destruct W1 as (_ & W1), W2 as (_ & W2).
    assert (G : forall l1, incl l1 fs -> comp_members composite fs l1 fs' <> Exhausted).
    { induction l1 as [|p l1 IHl]; intros I1; cbn [comp_members]; try discriminate.
      assert (J1 : In p fs) by (apply I1; now left).
      assert (G1 : forall g, In g fs' -> compatible (f_type p) (f_type g) <> NoFuel).
      { intros g J2. apply c17_terminates; [exact (wf_field _ _ W1 J1)|exact (wf_field _ _ W2 J2)]. }
      apply bindc_ends.
      - destruct (f_name p); [destruct (field_at fs s); discriminate|]. now apply unnamed_ends.
      - intros g Eg. apply bindc_ends.
        + apply IH; [pose proof (size_union c i fs p J1); lia|exact (wf_field _ _ W1 J1)|].
          destruct (f_name p).
          * destruct (field_at fs s) as [f0|] eqn:Ef; [|discriminate]. injection Eg as <-. apply field_at_some in Ef.
            exact (wf_field _ _ W1 (proj1 Ef)).
          * apply unnamed_match_in in Eg. exact (wf_field _ _ W2 Eg).
        + intros k _. apply bindc_ends; [|discriminate]. apply IHl. intros z I; apply I1; now right. }
    apply G, incl_refl.
Qed.

Theorem c51_terminates : forall t1 t2, wf t1 -> wf t2 -> composite t1 t2 <> Exhausted.
Proof. intros t1 t2. apply (ends_n (S (size t1))). lia. Qed.
Print Assumptions c51_terminates.

(** ** Compatible components *)

Lemma not_qual_zero : forall t, is_qual t = false -> zero_unqualified t = t.
Proof. intros [] H; try reflexivity. discriminate H. Qed.

Lemma inv_ptr : forall a b, wf a -> wf b -> compatible (TPtr a) (TPtr b) = Yes -> compatible a b = Yes.
Proof.
  intros a b W1 W2 H. rewrite compatible_eq in H by assumption. unfold compat_step in H. cbn [zero_unqualified] in H.
  cbv zeta in H. apply orr_yes in H. destruct H as [H|H]; [|exact H]. now apply same_compatible.
Qed.

Lemma inv_arr : forall b1 q1 a b2 q2 b, wf a -> wf b -> compatible (TArr b1 q1 a) (TArr b2 q2 b) = Yes ->
  compatible a b = Yes /\ lengths_agree b1 b2.
Proof.
  intros b1 q1 a b2 q2 b W1 W2 H. rewrite compatible_eq in H by assumption. unfold compat_step in H. cbn [zero_unqualified] in H.
  cbv zeta in H. apply orr_yes in H. destruct H as [H|H].
  - cbn [same] in H. apply andr_yes in H. destruct H as (H1 & H2). split; [now apply same_compatible|now apply bound_same_lengths].
  - apply andr_yes in H. destruct H as (H1 & H2). split; [exact H1|now apply bound_compatible_lengths].
Qed.

Lemma inv_qual : forall q1 a q2 b, wf (TQual q1 a) -> wf (TQual q2 b) -> zero_qual q2 = false ->
  compatible (TQual q1 a) (TQual q2 b) = Yes -> q1 = q2 /\ compatible a b = Yes.
Proof.
  intros q1 a q2 b W1 W2 Z H. rewrite compatible_eq in H by assumption. unfold compat_step in H. cbn [zero_unqualified] in H.
  rewrite Z in H. cbv zeta in H. destruct W1, W2. apply orr_yes in H. destruct H as [H|H].
  - cbn [same] in H. apply andr_yes in H. destruct H as (H1' & H2'). apply of_bool_yes, qual_eqb_eq in H1'.
    split; [exact H1'|now apply same_compatible].
  - apply andr_yes in H. destruct H as (H1' & H2'). apply of_bool_yes, qual_eqb_eq in H1'. now split.
Qed.

Lemma inv_fun : forall r1 ps1 e1 r2 ps2 e2, wf (TFun r1 ModeParameters ps1 e1) -> wf (TFun r2 ModeParameters ps2 e2) ->
  compatible (TFun r1 ModeParameters ps1 e1) (TFun r2 ModeParameters ps2 e2) = Yes ->
  compatible (unqualified r1) (unqualified r2) = Yes /\ e1 = e2 /\
  Forall2 (fun p1 p2 => exists x1 x2, p_type p1 = Some x1 /\ p_type p2 = Some x2 /\ In p1 ps1 /\ In p2 ps2 /\
    compatible (unqualified (adjusted x1)) (unqualified (adjusted x2)) = Yes) ps1 ps2.
Proof.
  intros r1 ps1 e1 r2 ps2 e2 W1 W2 H. rewrite compatible_eq in H by assumption. unfold compat_step in H. cbn [zero_unqualified] in H.
  cbv zeta in H. destruct W1 as (Wr1 & Wp1), W2 as (Wr2 & Wp2). apply orr_yes in H. destruct H as [H|H].
  - cbn [same] in H. apply andr_yes in H. destruct H as (Hr & H). apply andr_yes in H. destruct H as (_ & H).
    apply andr_yes in H. destruct H as (Hl & H). apply andr_yes in H. destruct H as (Hp & He).
    apply of_bool_yes, Bool.eqb_prop in He.
    split; [apply same_compatible; auto using wf_unqualified, same_unqualified|]. split; [exact He|].
    refine (both_forall _ _ _ _ _ Hl Hp _). intros p1 p2 I1 I2 E. apply andr_yes in E. destruct E as (E & _).
    destruct p1 as [[x|] s]; [|pose proof (all_in _ _ _ _ Wp1 I1) as K; cbn in K; congruence].
    destruct p2 as [[x'|] s']; [|discriminate E]. exists x, x'. cbn [p_type]. split; [reflexivity|]. split; [reflexivity|].
    split; [exact I1|]. split; [exact I2|]. apply same_compatible.
    + exact (wf_parameter _ (wf_param _ _ _ _ Wp1 I1 eq_refl)).
    + exact (wf_parameter _ (wf_param _ _ _ _ Wp2 I2 eq_refl)).
    + now apply same_adjusted.
  - apply andr_yes in H. destruct H as (Hr & H). apply andr_yes in H. destruct H as (Hl & H). apply andr_yes in H. destruct H as (He & Hp).
    apply of_bool_yes, Bool.eqb_prop in He. split; [exact Hr|]. split; [exact He|].
    refine (both_forall _ _ _ _ _ Hl Hp _). intros p1 p2 I1 I2 E.
    destruct (p_type p1) as [x|]; [|discriminate E]. destruct (p_type p2) as [x'|]; [|discriminate E]. exists x, x'. auto 6.
Qed.

Lemma quals_whole : forall r1 r2, wf r1 -> wf r2 -> covered r1 r2 -> quals r1 = quals r2 ->
  compatible (unqualified r1) (unqualified r2) = Yes -> compatible r1 r2 = Yes.
Proof.
  intros r1 r2 W1 W2 V Q H. inversion V; subst; try exact H.
  cbn [quals unqualified] in Q, H. subst q2. rewrite compatible_eq by assumption. unfold compat_step. cbn [zero_unqualified]. rewrite H2.
  cbv zeta. rewrite qual_eqb_refl. cbn [of_bool andr]. rewrite H.
  pose proof (same_nofuel (S (size (TQual q1 a))) (TQual q1 a) (TQual q1 b) (le_n _)) as NF.
  destruct (same (TQual q1 a) (TQual q1 b)) eqn:E; try reflexivity; [|congruence].
  exfalso. cbn [same] in E. rewrite qual_eqb_refl in E. cbn [of_bool andr] in E.
  rewrite compatible_eq in H by (try apply W1; apply W2). unfold compat_step in H. rewrite not_qual_zero in H by apply W2.
  rewrite E in H. discriminate H.
Qed.

(** ** Every type is a composite type of itself and itself *)

Lemma joint_length_refl : forall b, joint_length b b b.
Proof. intros [|n|n|[]|[]]; reflexivity. Qed.

Lemma joint_refl_n : forall n v t, (size t < n)%nat -> wf t -> regular v t -> joint t t t.
Proof.
  induction n as [|n IH]; intros v t L W R; [lia|].
  destruct t as [b|a|b q a|q a|r m ps e|c i es u|c i fs|c i fs].
  - constructor.
  - constructor. cbn [size] in L. apply (IH v); auto; lia.
  - constructor; [cbn [size] in L; apply (IH v); auto; lia|apply joint_length_refl].
  - destruct W, R. constructor. cbn [size] in L. apply (IH v); auto; lia.
  - destruct W as (Wr & Wp), R as (Rm & Rr & Rp).
    assert (JR : joint (result r) (result r) (result r)).
    { change (joint (unqualified r) (unqualified r) (unqualified r)).
      apply (IH v); auto using wf_unqualified, regular_unqualified. pose proof (size_unqualified r). cbn [size] in L. lia. }
    destruct m; [|now apply JFunOld|now apply JFunOld]. apply JFun; [exact JR|].
    assert (G : forall l, incl l ps -> joint_params l l l).
    { induction l as [|p l IHl]; intros I; [constructor|].
      assert (J : In p ps) by (apply I; now left). destruct p as [[x|] s].
      - constructor; [|apply IHl; intros z Iz; apply I; now right].
        pose proof (regular_param v _ _ x Rp J eq_refl) as Rx. rewrite (parameter_eq v _ Rx). apply (IH v).
        + pose proof (size_param r ModeParameters ps e _ x J eq_refl). pose proof (size_parameter x). lia.
        + exact (wf_parameter _ (wf_param _ _ _ _ Wp J eq_refl)).
        + now apply regular_parameter.
      - pose proof (all_in _ _ _ _ Wp J) as K. cbn in K. congruence. }
    apply G, incl_refl.
  - destruct c; [apply JEnum, Permutation_refl|apply JEnumNone].
  - destruct c; [apply JStruct|apply JStructNone].
    assert (G : forall l, incl l fs -> joint_members l l l).
    { induction l as [|p l IHl]; intros I; [constructor|].
      assert (J : In p fs) by (apply I; now left).
      pose proof (wf_field _ _ W J) as Wf. pose proof (regular_field _ _ _ R J) as Rf. pose proof (size_struct true i fs p J) as Sf.
      destruct p as [nm x al w]. constructor; [apply (IH v); auto; cbn [f_type] in Sf; lia|apply IHl; intros z Iz; apply I; now right]. }
    apply G, incl_refl.
  - destruct R.
Qed.
Lemma joint_refl : forall v t, wf t -> regular v t -> joint t t t.
Proof. intros v t. apply (joint_refl_n (S (size t))). lia. Qed.

(** ** Lengths *)

Lemma composite_length : forall b1 b2, lengths_agree b1 b2 -> (length_star b1 = true -> length_given b2 = false) ->
  joint_length b1 b2 (bound_composite b1 b2) /\
  lengths_agree (bound_composite b1 b2) b1 /\ lengths_agree (bound_composite b1 b2) b2.
Proof.
  intros b1 b2 A S. split; [|split].
  - destruct b1 as [|n|n|[]|[]], b2 as [|k|k|[]|[]]; try reflexivity; specialize (S eq_refl); discriminate S.
  - intros x y Ex Ey. destruct b1 as [|n|n|l|l], b2 as [|k|k|l'|l']; cbn in Ex, Ey; congruence.
  - intros x y Ex Ey. destruct b1 as [|n|n|l|l], b2 as [|k|k|l'|l']; cbn in Ex, Ey; try congruence;
      specialize (A _ _ eq_refl eq_refl); congruence.
Qed.

(** ** The composite type *)

Definition kind (t : ty) : nat :=
  match t with TArr _ _ _ => 1 | TQual _ _ => 2 | TFun _ _ _ _ => 3 | TBasic BVaList => 4 | _ => 0 end.

Lemma kind_parameter : forall t, parameter t = t -> (kind t = 0)%nat.
Proof.
  intros [b|a|b q a|q a|r m ps e|c i es u|c i fs|c i fs] H; try reflexivity; try discriminate H.
  - destruct b; try reflexivity. discriminate H.
  - exfalso. destruct a; cbn [parameter] in H; try discriminate H. apply (f_equal size) in H. cbn [size] in H. lia.
Qed.
Lemma parameter_kind : forall t, (kind t = 0)%nat -> parameter t = t.
Proof. intros [[]| | | | | | |] H; try reflexivity; discriminate H. Qed.

Lemma is_qual_kind : forall t, is_qual t = Nat.eqb (kind t) 2.
Proof. intros [[]| | | | | | |]; reflexivity. Qed.

Lemma Forall2_and : forall A B (P R : A -> B -> Prop) l1 l2, Forall2 P l1 l2 -> Forall2 R l1 l2 -> Forall2 (fun a b => P a b /\ R a b) l1 l2.
Proof. intros A B P R l1 l2 F G. induction F; inversion G; subst; constructor; auto. Qed.

(** Everything about the result *)
Definition good (v : bool) (t1 t2 t3 : ty) : Prop :=
  joint t1 t2 t3 /\ conforms t3 t1 /\ conforms t3 t2 /\ wf t3 /\ regular v t3 /\ kind t3 = kind t1 /\
  (no_enum t1 -> no_enum t2 -> no_enum t3) /\ (plain t1 -> plain t2 -> plain t3).

Lemma conforms_refl : forall v t, wf t -> regular v t -> conforms t t.
Proof. intros v t W R. apply (c47_compatible_only_if_partial v); auto. now apply compatible_refl. Qed.

(** If the operation returns its first (second) argument *)
Lemma good_left : forall v t1 t2, wf t1 -> wf t2 -> regular v t1 -> regular v t2 -> compatible t1 t2 = Yes -> joint t1 t2 t1 -> good v t1 t2 t1.
Proof.
  intros v t1 t2 W1 W2 R1 R2 C J. split; [exact J|]. split; [now apply (conforms_refl v)|].
  split; [now apply (c47_compatible_only_if_partial v)|]. tauto.
Qed.

Lemma conforms_sym_fun : forall v r m1 m2 ps1 ps2 e1 e2, wf (TFun r m1 ps1 e1) -> wf (TFun r m2 ps2 e2) ->
  regular v (TFun r m1 ps1 e1) -> regular v (TFun r m2 ps2 e2) -> m1 <> ModeParameters ->
  conforms (TFun r m1 ps1 e1) (TFun r m2 ps2 e2) -> conforms (TFun r m2 ps2 e2) (TFun r m1 ps1 e1).
Proof.
  intros v r m1 m2 ps1 ps2 e1 e2 W1 W2 R1 R2 M C.
  assert (CR : conforms (result r) (result r)).
  { change (conforms (unqualified r) (unqualified r)). apply (conforms_refl v); [apply wf_unqualified, W1|apply regular_unqualified, R1]. }
  inversion C as [? ? C' E1 E2]; subst. cbn [bare] in C'. constructor. cbn [bare].
  inversion C'; subst; try congruence.
  - now apply CFunOld.
  - apply CFunProto1; auto. intros E. symmetry. auto.
Qed.

Lemma composite_good_n : forall n v t1 t2, (size t1 < n)%nat -> wf t1 -> wf t2 -> regular v t1 -> regular v t2 -> covered t1 t2 ->
  compatible t1 t2 = Yes -> exists t3, composite t1 t2 = Comp t3 /\ good v t1 t2 t3.
Proof.
  induction n as [|n IH]; intros v t1 t2 L W1 W2 R1 R2 V C; [lia|].
  pose proof (c47_compatible_only_if_partial v t1 t2 W1 W2 R1 R2 C) as CF.
  rewrite composite_eq. unfold comp_step. rewrite C.
  destruct V as [b b'|b c i es u NV|b c i es u|c1 c2 i1 i2 es1 es2 u1 u2 HC|a b V|b1 b2 q1 q2 e1 e2 V HB|q1 q2 a b V Z1 Z2
                |r1 r2 ps1 ps2 e1 e2 HQ V NE F|r m1 m2 ps1 ps2 e1 e2 HM|c i1 i2 fs1 fs2 F].
  - (* arithmetic types *)
    rewrite compatible_basics in C. apply of_bool_yes in C. unfold basic_eqb in C.
    destruct (basic_eq_dec b b') as [->|]; [|discriminate]. exists (TBasic b'). split; [reflexivity|].
    apply good_left; auto; [rewrite compatible_basics, basic_eqb_refl; reflexivity|constructor].
  - inversion CF as [? ? CF' E1 E2]; subst. cbn [bare] in CF'. inversion CF'; subst. eexists. split; [reflexivity|].
    split; [constructor|]. split; [constructor; constructor|]. split; [now apply (conforms_refl v)|].
    split; [exact I|]. split; [exact I|]. split; [|tauto]. destruct u; try reflexivity. congruence.
  - inversion CF as [? ? CF' E1 E2]; subst. cbn [bare] in CF'. inversion CF'; subst. eexists. split; [reflexivity|].
    apply good_left; auto. constructor.
  - inversion CF as [? ? CF' E1 E2]; subst. cbn [bare] in CF'. inversion CF' as [| | |? ? ? ? ? ? ? HP| | | | | | | | | | |]; subst. eexists. split; [reflexivity|].
    apply good_left; auto. destruct c1, c2.
    + apply JEnum, HP; reflexivity.
    + apply JEnumLeft.
    + specialize (HC eq_refl). discriminate HC.
    + apply JEnumNone.
  - (* pointers *)
    apply inv_ptr in C; auto. cbn [size] in L. destruct (IH v a b) as (c & Ec & G); auto; [lia|]. rewrite Ec. cbn [bindc].
    eexists. split; [reflexivity|]. destruct G as (J & C1 & C2 & W & R & K & N & P).
    split; [now constructor|]. split; [constructor; cbn [bare]; now constructor|]. split; [constructor; cbn [bare]; now constructor|]. cbn. tauto.
  - (* arrays *)
    apply inv_arr in C; auto. destruct C as (C & A). cbn [size] in L. destruct (IH v e1 e2) as (c & Ec & G); auto; [lia|]. rewrite Ec. cbn [bindc].
    eexists. split; [reflexivity|]. destruct G as (J & C1 & C2 & W & R & K & N & P).
    destruct (composite_length b1 b2 A HB) as (B1 & B2 & B3).
    split; [now constructor|]. split; [constructor; cbn [bare]; now constructor|]. split; [constructor; cbn [bare]; now constructor|]. cbn. tauto.
  - (* qualified types *)
    apply inv_qual in C; auto. destruct C as (-> & C). cbn [size] in L. destruct W1 as (W1 & Q1), W2 as (W2 & Q2), R1 as (R1 & A1), R2 as (R2 & A2).
    cbn [unqualified]. destruct (IH v a b) as (c & Ec & G); auto; [lia|]. rewrite Ec. cbn [bindc]. rewrite Z1.
    eexists. split; [reflexivity|]. destruct G as (J & C1 & C2 & W & R & K & N & P).
    assert (Qc : is_qual c = false) by (rewrite is_qual_kind, K, <- is_qual_kind; exact Q1).
    replace (qualify q2 c) with (TQual q2 c) by (destruct c; try reflexivity; discriminate Qc).
    assert (Bq : forall x, bare (TQual q2 x) = TQual q2 x) by (intros x; destruct q2 as [[] [] []]; try reflexivity; discriminate Z2).
    split; [now constructor|]. split; [constructor; rewrite !Bq; now constructor|]. split; [constructor; rewrite !Bq; now constructor|].
    split; [now split|]. split; [|cbn; tauto]. split; [exact R|]. destruct c; try exact I. destruct a as [bb| | | | | | |]; try discriminate K; [destruct bb; discriminate K|exact A1].
  - (* two prototypes *)
    pose proof C as C0. apply inv_fun in C; auto. destruct C as (Cr & -> & FP).
    destruct W1 as (Wr1 & Wp1), W2 as (Wr2 & Wp2), R1 as (Rm1 & Rr1 & Rp1), R2 as (Rm2 & Rr2 & Rp2).
    assert (Cr' : compatible r1 r2 = Yes) by now apply quals_whole.
    destruct (IH v r1 r2) as (r3 & Er & Gr); auto; [cbn [size] in L; lia|]. rewrite Er. cbn [bindc].
    assert (GP : forall l1 l2, incl l1 ps1 ->
      Forall2 (fun p1 p2 => exists x1 x2, p_type p1 = Some x1 /\ p_type p2 = Some x2 /\ In p1 ps1 /\ In p2 ps2 /\
        compatible (unqualified (adjusted x1)) (unqualified (adjusted x2)) = Yes) l1 l2 ->
      Forall2 (fun p1 p2 => forall x1 x2, p_type p1 = Some x1 -> p_type p2 = Some x2 ->
        covered (parameter x1) (parameter x2) /\ parameter (parameter x1) = parameter x1) l1 l2 ->
      exists l3, comp_params composite l1 l2 = Comp l3 /\ joint_params l1 l2 l3 /\
        Forall2 (fun p3 p1 => exists x3 x1, p_type p3 = Some x3 /\ p_type p1 = Some x1 /\ conforms (parameter x3) (parameter x1)) l3 l1 /\
        Forall2 (fun p3 p2 => exists x3 x2, p_type p3 = Some x3 /\ p_type p2 = Some x2 /\ conforms (parameter x3) (parameter x2)) l3 l2 /\
        all (fun p => match p with Param (Some a) _ => wf a | Param None _ => False end) l3 /\
        all (fun p => match p with Param (Some a) _ => regular v a | Param None _ => True end) l3 /\
        (all (fun p => match p with Param (Some a) _ => no_enum a | Param None _ => True end) l1 ->
         all (fun p => match p with Param (Some a) _ => no_enum a | Param None _ => True end) l2 ->
         all (fun p => match p with Param (Some a) _ => no_enum a | Param None _ => True end) l3) /\
        (all (fun p => match p with Param (Some a) _ => plain a | Param None _ => True end) l1 ->
         all (fun p => match p with Param (Some a) _ => plain a | Param None _ => True end) l2 ->
         all (fun p => match p with Param (Some a) _ => plain a | Param None _ => True end) l3)).
    { intros l1 l2 Inc FP'. induction FP' as [|[y1 s1] [y2 s2] l1 l2 (x1 & x2 & E1 & E2 & I1 & I2 & Cx) FP' IHl]; intros FV.
      - exists []. split; [reflexivity|]. repeat split; try constructor; auto.
      - inversion FV as [|? ? ? ? Hx FV']; subst. cbn [p_type] in E1, E2. subst y1 y2.
        destruct (IHl (fun z Iz => Inc z (or_intror Iz)) FV') as (l3 & El & J & F1 & F2 & A1 & A2 & A3 & A4). clear IHl.
        destruct (Hx x1 x2 eq_refl eq_refl) as (Vx & Px).
        pose proof (regular_param v _ _ x1 Rp1 I1 eq_refl) as Rx1. pose proof (regular_param v _ _ x2 Rp2 I2 eq_refl) as Rx2.
        pose proof (wf_param _ _ _ _ Wp1 I1 eq_refl) as Wx1. pose proof (wf_param _ _ _ _ Wp2 I2 eq_refl) as Wx2.
        rewrite (parameter_eq v _ Rx1), (parameter_eq v _ Rx2) in Vx.
        destruct (IH v (unqualified (adjusted x1)) (unqualified (adjusted x2))) as (x3 & Ex & G);
          auto using wf_parameter, regular_parameter.
        { pose proof (size_param r1 ModeParameters ps1 e2 _ x1 I1 eq_refl). pose proof (size_parameter x1). lia. }
        destruct G as (Jx & C1 & C2 & Wx & Rx & K & N & P).
        assert (P3 : parameter x3 = x3).
        { apply parameter_kind. rewrite K. apply kind_parameter. rewrite <- (parameter_eq v _ Rx1). exact Px. }
        exists (Param (Some x3) None :: l3). cbn [comp_params p_type]. rewrite Ex. cbn [bindc]. rewrite El. cbn [bindc].
        split; [reflexivity|]. split; [constructor; [|exact J]; rewrite P3, (parameter_eq v _ Rx1), (parameter_eq v _ Rx2); exact Jx|].
        split; [constructor; [|exact F1]; exists x3, x1; split; [reflexivity|]; split; [reflexivity|]; rewrite P3, (parameter_eq v _ Rx1); exact C1|].
        split; [constructor; [|exact F2]; exists x3, x2; split; [reflexivity|]; split; [reflexivity|]; rewrite P3, (parameter_eq v _ Rx2); exact C2|].
        cbn [all]. split; [now split|]. split; [now split|]. split.
        + intros (N1 & M1) (N2 & M2). split; [|now apply A3]. now apply N; apply no_enum_parameter.
        + intros (N1 & M1) (N2 & M2). split; [|now apply A4]. now apply P; apply plain_parameter. }
    destruct (GP ps1 ps2 (incl_refl _) FP F) as (l3 & El & J & F1 & F2 & A1 & A2 & A3 & A4). clear GP. rewrite El. cbn [bindc].
    assert (M3 : match l3 with [] => ModeEmpty | _ => ModeParameters end = ModeParameters).
    { destruct l3; [|reflexivity]. inversion J; subst. now destruct NE. }
    rewrite M3. eexists. split; [reflexivity|]. destruct Gr as (Jr & C1 & C2 & Wr & Rr & K & N & P).
    assert (U : joint (result r1) (result r2) (result r3) /\ conforms (result r3) (result r1) /\ conforms (result r3) (result r2)).
    { change (joint (unqualified r1) (unqualified r2) (unqualified r3) /\ conforms (unqualified r3) (unqualified r1) /\ conforms (unqualified r3) (unqualified r2)).
      destruct (IH v (unqualified r1) (unqualified r2)) as (u3 & Eu & Gu);
        auto using wf_unqualified, regular_unqualified.
      - pose proof (size_unqualified r1). cbn [size] in L. lia.
      - destruct V; cbn [unqualified]; try (econstructor; eauto; fail). exact V.
      - enough (unqualified r3 = u3) as -> by (destruct Gu as (? & ? & ? & _); auto).
        rewrite composite_eq in Er. unfold comp_step in Er. rewrite Cr' in Er.
        destruct (is_qual r1) eqn:Q1.
        + destruct V; try discriminate Q1. cbn [unqualified] in *. rewrite Eu in Er. cbn [bindc] in Er. rewrite H in Er. injection Er as <-.
          destruct Gu as (_ & _ & _ & _ & _ & Ku & _).
          assert (Qu : is_qual u3 = false) by (rewrite is_qual_kind, Ku, <- is_qual_kind; apply Wr1).
          destruct u3; try reflexivity. discriminate Qu.
        + assert (Q2 : is_qual r2 = false) by (destruct V; try reflexivity; discriminate Q1).
          assert (E1 : unqualified r1 = r1) by (destruct r1; try reflexivity; discriminate Q1).
          assert (E2 : unqualified r2 = r2) by (destruct r2; try reflexivity; discriminate Q2).
          rewrite E1, E2 in Eu. rewrite composite_eq in Eu. unfold comp_step in Eu. rewrite Cr', Er in Eu. injection Eu as ->.
          assert (Q3 : is_qual u3 = false) by (rewrite is_qual_kind, K, <- is_qual_kind; exact Q1).
          destruct u3; try reflexivity. discriminate Q3. }
    destruct U as (U1 & U2 & U3).
    split; [now constructor|].
    split; [constructor; cbn [bare]; now constructor|].
    split; [constructor; cbn [bare]; now constructor|].
    split.
    { split; [exact Wr|]. clear - A1. induction l3 as [|[[x|] s] l3 IHl]; cbn [all] in *; [exact I| |tauto]. split; [apply A1|apply IHl, A1]. }
    split; [now repeat split|]. split; [reflexivity|]. cbn. tauto.
  - (* not two prototypes *)
    assert (JR : joint (result r) (result r) (result r)).
    { change (joint (unqualified r) (unqualified r) (unqualified r)).
      apply (joint_refl v); [apply wf_unqualified, W1|apply regular_unqualified, R1]. }
    inversion CF as [? ? CF' E1 E2]; subst. cbn [bare] in CF'.
    inversion CF'; subst; try (destruct HM; congruence).
    + (* no prototype *)
      assert (Jany : forall m3 ps3 e3, m3 <> ModeParameters -> joint (TFun r m1 ps1 e1) (TFun r m2 ps2 e2) (TFun r m3 ps3 e3)) by (intros; now apply JFunOld).
      destruct m1, m2; try congruence; (eexists; split; [reflexivity|]); try (apply good_left; auto; fail);
        (split; [now apply Jany|]); (split; [apply (conforms_sym_fun v); auto|]); (split; [now apply (conforms_refl v)|]); tauto.
    + (* the first *)
      destruct m2; try congruence; (eexists; split; [reflexivity|]); (apply good_left; auto); now apply JFun1.
    + (* the second *)
      destruct m1; try congruence; (eexists; split; [reflexivity|]);
        (split; [now apply JFun2|]); (split; [apply (conforms_sym_fun v); auto|]); (split; [now apply (conforms_refl v)|]); tauto.
  - (* structures *)
    inversion CF as [? ? CF' E1 E2]; subst. cbn [bare] in CF'. inversion CF' as [| | | | | | | | | | | | |? ? ? ? ? HM|]; subst.
    destruct c; cbn [andb].
    2: { eexists. split; [reflexivity|]. split; [constructor|]. split; [constructor; cbn [bare]; constructor; discriminate|].
         split; [constructor; cbn [bare]; constructor; discriminate|]. cbn. tauto. }
    specialize (HM eq_refl eq_refl). specialize (F eq_refl).
    apply c18_structures in C; auto. destruct C as (_ & C).
    pose proof (Forall2_and _ _ _ _ _ _ C (Forall2_and _ _ _ _ _ _ F HM)) as FA.
    assert (GF : forall l1 l2, incl l1 fs1 -> incl l2 fs2 ->
      Forall2 (fun f1 f2 => members_match f1 f2 /\ covered (f_type f1) (f_type f2) /\ member f1 f2) l1 l2 ->
      exists l3, comp_fields composite l1 l2 = Comp l3 /\ joint_members l1 l2 l3 /\ Forall2 member l3 l1 /\ Forall2 member l3 l2 /\
        all (fun f => match f with Field _ a _ _ => wf a end) l3 /\ all (fun f => match f with Field _ a _ _ => regular v a end) l3 /\
        (all (fun f => match f with Field _ a _ _ => no_enum a end) l1 -> all (fun f => match f with Field _ a _ _ => no_enum a end) l2 ->
         all (fun f => match f with Field _ a _ _ => no_enum a end) l3) /\
        (all (fun f => match f with Field _ a _ w => plain a /\ w = None end) l1 -> all (fun f => match f with Field _ a _ w => plain a /\ w = None end) l2 ->
         all (fun f => match f with Field _ a _ w => plain a /\ w = None end) l3)).
    { intros l1 l2 Inc1 Inc2 FA'. induction FA' as [|f1 f2 l1 l2 (M & Vf & HMf) FA' IHl].
      - exists []. split; [reflexivity|]. repeat split; try constructor; auto.
      - destruct IHl as (l3 & El & J & F1 & F2 & A1 & A2 & A3 & A4); [intros z Iz; apply Inc1; now right|intros z Iz; apply Inc2; now right|].
        assert (I1 : In f1 fs1) by (apply Inc1; now left). assert (I2 : In f2 fs2) by (apply Inc2; now left).
        destruct M as (_ & _ & _ & M).
        destruct (IH v (f_type f1) (f_type f2)) as (c & Ec & G); auto.
        { pose proof (size_struct true i2 fs1 f1 I1). lia. }
        { exact (wf_field _ _ W1 I1). } { exact (wf_field _ _ W2 I2). }
        { exact (regular_field _ _ _ R1 I1). } { exact (regular_field _ _ _ R2 I2). }
        inversion HMf as [nm al w x1 x2 Cx E1 E2]; subst f1 f2. cbn [comp_fields f_type f_name f_align f_width] in *. rewrite Ec, El. cbn [bindc].
        destruct G as (Jc & C1 & C2 & Wc & Rc & K & N & P).
        eexists. split; [reflexivity|]. split; [now constructor|]. split; [constructor; [now constructor|exact F1]|].
        split; [constructor; [now constructor|exact F2]|]. cbn [all]. split; [now split|]. split; [now split|]. split.
        + intros (N1 & O1) (N2 & O2). auto.
        + intros ((N1 & X1) & O1) ((N2 & X2) & O2). auto. }
    destruct (GF fs1 fs2 (incl_refl _) (incl_refl _) FA) as (l3 & El & J & F1 & F2 & A1 & A2 & A3 & A4). rewrite El. cbn [bindc].
    eexists. split; [reflexivity|]. split; [now constructor|]. split; [constructor; cbn [bare]; constructor; auto|].
    split; [constructor; cbn [bare]; constructor; auto|]. cbn. tauto.
Qed.

(** ** C51 *)

(** Two types reported compatible have a composite type: the one of 6.2.7p3, compatible with both.  Partial: for the
    types of [regular] and the pairs of [covered]; what these leave out is refuted below. *)
Theorem c51_composite_partial : forall v t1 t2, wf t1 -> wf t2 -> regular v t1 -> regular v t2 -> covered t1 t2 ->
  compatible t1 t2 = Yes ->
  exists t3, composite t1 t2 = Comp t3 /\ joint t1 t2 t3 /\ conforms t3 t1 /\ conforms t3 t2 /\ wf t3 /\ regular v t3.
Proof.
  intros v t1 t2 W1 W2 R1 R2 V C. destruct (composite_good_n (S (size t1)) v t1 t2 (le_n _) W1 W2 R1 R2 V C) as (t3 & E & G).
  exists t3. destruct G as (J & C1 & C2 & W & R & _). auto 8.
Qed.
Print Assumptions c51_composite_partial.

(** Without enumerations and bit-fields: exactly the compatible types have a composite type, and the compiler itself
    takes it to be compatible with both. *)
Theorem c51_exactly_partial : forall v t1 t2, wf t1 -> wf t2 -> regular v t1 -> regular v t2 -> covered t1 t2 ->
  no_enum t1 -> no_enum t2 -> plain t1 -> plain t2 ->
  (conforms t1 t2 -> exists t3, composite t1 t2 = Comp t3 /\ joint t1 t2 t3 /\ compatible t3 t1 = Yes /\ compatible t3 t2 = Yes) /\
  (~ conforms t1 t2 -> composite t1 t2 = Null).
Proof.
  intros v t1 t2 W1 W2 R1 R2 V N1 N2 P1 P2. destruct (c47_compatible_exactly_partial v t1 t2 W1 W2 R1 R2 N1 N2 P1 P2) as (Y & No').
  split.
  - intros C. apply Y in C. destruct (composite_good_n (S (size t1)) v t1 t2 (le_n _) W1 W2 R1 R2 V C) as (t3 & E & G).
    exists t3. destruct G as (J & C1 & C2 & W & R & _ & N & P). specialize (N N1 N2). specialize (P P1 P2).
    split; [exact E|]. split; [exact J|].
    split; [apply (c47_compatible_exactly_partial v t3 t1 W W1 R R1 N N1 P P1)|apply (c47_compatible_exactly_partial v t3 t2 W W2 R R2 N N2 P P2)]; assumption.
  - intros C. apply No' in C. rewrite composite_eq. unfold comp_step. now rewrite C.
Qed.
Print Assumptions c51_exactly_partial.

(** *** What is left out *)

Local Ltac conform := constructor; cbn [bare].
Definition int_ : ty := TBasic BSInt.
Definition arr (b : bound) : ty := TPtr (TArr b unq int_).

(** The qualifiers of the result of a function do not matter (6.7.6.3p5), but two declarations that differ in them have
    no composite type: the second of
        const int f(int); int f(int);
    leaves f without a type (a null pointer, which nothing checks). *)
Theorem c51_result_qualifiers_refuted : exists t1 t2,
  t1 = TFun (TQual (Q true false false) int_) ModeParameters [Param (Some int_) None] false /\
  t2 = TFun int_ ModeParameters [Param (Some int_) None] false /\
  wf t1 /\ wf t2 /\ regular true t1 /\ regular true t2 /\ conforms t1 t2 /\ compatible t1 t2 = Yes /\ composite t1 t2 = Null.
Proof.
  do 2 eexists. split; [reflexivity|]. split; [reflexivity|]. split; [repeat split|]. split; [repeat split|].
  split; [repeat split|]. split; [repeat split|]. split; [|split; reflexivity].
  conform. apply CFun; [conform; constructor|]. constructor; [|constructor]. exists int_, int_. split; [reflexivity|]. split; [reflexivity|].
  conform. constructor.
Qed.
Print Assumptions c51_result_qualifiers_refuted.

(** A prototype hides what the other declaration says about the result: f, declared as function without prototype that
    returns a pointer to an array of three ints, and then with a prototype and an array of unknown length. *)
Theorem c51_result_refuted : exists t1 t2,
  t1 = TFun (arr (Bounded 3)) ModeEmpty [] false /\
  t2 = TFun (arr Unbounded) ModeParameters [Param (Some int_) None] false /\
  wf t1 /\ wf t2 /\ regular false t1 /\ regular false t2 /\ conforms t1 t2 /\ composite t1 t2 = Comp t2 /\ ~ joint t1 t2 t2.
Proof.
  do 2 eexists. split; [reflexivity|]. split; [reflexivity|]. split; [repeat split|]. split; [repeat split|].
  split; [repeat split; discriminate|]. split; [repeat split; discriminate|]. split; [|split; [reflexivity|]].
  - apply (c47_compatible_only_if_partial false); try (repeat split; discriminate).
  - intros J. inversion J; subst; try congruence. unfold arr in *.
    match goal with H : joint (result _) (result _) (result _) |- _ => cbn [result] in H; inversion H; subst; clear H end.
    match goal with H : joint (TArr _ _ _) _ _ |- _ => inversion H; subst; clear H end.
    match goal with H : joint_length _ _ _ |- _ => discriminate H end.
Qed.
Print Assumptions c51_result_refuted.

(** An incomplete and a complete structure give an incomplete one; an incomplete enumeration hides the complete one. *)
Theorem c51_incomplete_refuted : exists t1 t2 t1' t2' t3,
  t1 = TStruct true (Some "s"%string) [Field (Some "a"%string) int_ 0 None] /\ t2 = TStruct false (Some "s"%string) [] /\
  t3 = TStruct false (Some "s"%string) [] /\
  composite t1 t2 = Comp t3 /\ composite t2 t1 = Comp t3 /\ ~ joint t1 t2 t3 /\ ~ joint t2 t1 t3 /\
  t1' = TEnum false (Some "e"%string) [] BUInt /\ t2' = TEnum true (Some "e"%string) [("A"%string, None)] BUInt /\
  composite t1' t2' = Comp t1' /\ ~ joint t1' t2' t1'.
Proof.
  do 5 eexists. split; [reflexivity|]. split; [reflexivity|]. split; [reflexivity|]. split; [reflexivity|]. split; [reflexivity|].
  split; [intros J; inversion J|]. split; [intros J; inversion J|].
  split; [reflexivity|]. split; [reflexivity|]. split; [reflexivity|]. intros J; inversion J.
Qed.
Print Assumptions c51_incomplete_refuted.

(** The length [*] hides the length that the other array type gives. *)
Theorem c51_star_refuted : exists t1 t2,
  t1 = arr (Vla false) /\ t2 = arr (Vla true) /\ conforms t1 t2 /\ composite t1 t2 = Comp t1 /\ ~ joint t1 t2 t1.
Proof.
  do 2 eexists. split; [reflexivity|]. split; [reflexivity|]. split; [|split; [reflexivity|]].
  - apply (c47_compatible_only_if_partial true); try (repeat split; discriminate).
  - intros J. inversion J; subst. match goal with H : joint (TArr _ _ _) _ _ |- _ => inversion H; subst; clear H end.
    match goal with H : joint_length _ _ _ |- _ => discriminate H end.
Qed.
Print Assumptions c51_star_refuted.

(** The members of a union are combined with themselves instead of those of the other type. *)
Theorem c51_unions_refuted : exists t1 t2,
  t1 = TUnion true (Some "u"%string) [Field (Some "p"%string) (arr Unbounded) 0 None] /\
  t2 = TUnion true (Some "u"%string) [Field (Some "p"%string) (arr (Bounded 3)) 0 None] /\
  wf t1 /\ wf t2 /\ conforms t1 t2 /\ composite t1 t2 = Comp t1 /\ ~ joint t1 t2 t1.
Proof.
  do 2 eexists. split; [reflexivity|]. split; [reflexivity|].
  split; [split; [repeat constructor; intros []|repeat split]|]. split; [split; [repeat constructor; intros []|repeat split]|].
  split; [|split; [reflexivity|]].
  - conform. apply CUnion with (fs := [Field (Some "p"%string) (arr (Bounded 3)) 0 None]). intros _ _. split; [apply Permutation_refl|].
    constructor; [|constructor]. constructor. apply (c47_compatible_only_if_partial true); try (repeat split; discriminate).
  - intros J. inversion J as [| | | | | | | | | | | | | | | | | | | | | | |? ? ? ? ? P M| | |]; subst.
    apply Permutation_length_1_inv in P. subst. inversion M as [|? ? ? ? ? ? ? ? ? Jp]; subst.
    inversion Jp; subst. match goal with H : joint (TArr _ _ _) _ _ |- _ => inversion H; subst; clear H end.
    match goal with H : joint_length _ _ _ |- _ => discriminate H end.
Qed.
Print Assumptions c51_unions_refuted.

(** A parameter of type const va_list becomes one of type pointer to va_list. *)
Theorem c51_va_list_refuted : exists t t',
  t = TFun int_ ModeParameters [Param (Some (TQual (Q true false false) (TBasic BVaList))) None] false /\
  t' = TFun int_ ModeParameters [Param (Some (TBasic BVaList)) None] false /\
  wf t /\ regular true t /\ composite t t = Comp t' /\ compatible t' t = No.
Proof. do 2 eexists. split; [reflexivity|]. split; [reflexivity|]. repeat split. Qed.
Print Assumptions c51_va_list_refuted.

(** ** Hypotheses are met *)

(** struct s { int ( *f)(char p[], int ( *q)[n], ...); struct t ( *a[2])[m]; } *)
Definition ex51 (n m : bound) (q : qual) : ty :=
  TStruct true (Some "s"%string)
    [Field (Some "f"%string) (TPtr (TFun int_ ModeParameters
       [Param (Some (TArr Unbounded unq (TQual (Q true false false) (TBasic BChar)))) None;
        Param (Some (if zero_qual q then arr n else TQual q (arr n))) None] true)) 0 None;
     Field (Some "a"%string) (TArr (Bounded 2) unq (TPtr (TArr m unq (TStruct false (Some "t"%string) [])))) 0 None].

Example c51_hypotheses : let t1 := ex51 Unbounded (Bounded 4) (Q true false false) in let t2 := ex51 (Bounded 3) Unbounded unq in
  wf t1 /\ wf t2 /\ regular true t1 /\ regular true t2 /\ covered t1 t2 /\ compatible t1 t2 = Yes /\ no_enum t1 /\ no_enum t2 /\ plain t1 /\ plain t2.
Proof.
  cbv zeta. split; [repeat split|]. split; [repeat split|]. split; [repeat split|]. split; [repeat split|].
  split; [|split; [reflexivity|repeat split]].
  apply VStruct. intros _. repeat constructor; cbn; try discriminate; try (intros; discriminate).
  - injection H as <-. injection H0 as <-. cbn. repeat constructor.
  - injection H as <-. reflexivity.
  - injection H as <-. injection H0 as <-. cbn. repeat constructor.
  - injection H as <-. reflexivity.
Qed.
Example c51_result : composite (ex51 Unbounded (Bounded 4) (Q true false false)) (ex51 (Bounded 3) Unbounded unq) =
  Comp (TStruct true (Some "s"%string)
    [Field (Some "f"%string) (TPtr (TFun int_ ModeParameters
       [Param (Some (TPtr (TQual (Q true false false) (TBasic BChar)))) None; Param (Some (arr (Bounded 3))) None] true)) 0 None;
     Field (Some "a"%string) (TArr (Bounded 2) unq (TPtr (TArr (Bounded 4) unq (TStruct false (Some "t"%string) [])))) 0 None]).
Proof. reflexivity. Qed.
Example c51_old : let f := TFun int_ ModeEmpty [] false in let g := TFun int_ ModeParameters [Param (Some int_) None] false in
  covered f g /\ covered g f /\ regular false f /\ regular false g /\ composite f g = Comp g /\ composite g f = Comp g.
Proof. cbv zeta. repeat split; try discriminate; constructor; (now left) || (now right). Qed.
