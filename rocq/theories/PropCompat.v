(** C17, C18: type compatibility. *)
From Coq Require Import ZArith List Bool String Lia.
From Verif Require Import CompatModel CompatProofs.
Import ListNotations.
Open Scope Z_scope.

(** ** Sizes and well-formedness of the types the comparison recurs on *)
Lemma size_zero_unqualified : forall t, (size (zero_unqualified t) <= size t)%nat.
Proof. intros []; cbn [zero_unqualified]; try apply le_n. destruct (zero_qual q); cbn [size]; lia. Qed.
Lemma wf_zero_unqualified : forall t, wf t -> wf (zero_unqualified t).
Proof. intros [] W; cbn [zero_unqualified]; try exact W. destruct (zero_qual q); [apply W|exact W]. Qed.
Lemma wf_unqualified : forall t, wf t -> wf (unqualified t).
Proof. intros [] W; cbn [unqualified]; try exact W. apply W. Qed.
Lemma size_unqualified : forall t, (size (unqualified t) <= size t)%nat.
Proof. intros []; cbn [unqualified]; try apply le_n. cbn [size]. lia. Qed.
Lemma wf_adjusted : forall t, wf t -> wf (adjusted t).
Proof.
  intros [] W; cbn [adjusted]; try exact W.
  - destruct b; exact I.
  - destruct (zero_qual q); [exact W|]. split; [exact W|reflexivity].
Qed.
Lemma size_adjusted : forall t, (size (adjusted t) <= S (size t))%nat.
Proof.
  intros []; cbn [adjusted]; try (cbn [size]; lia).
  - destruct b; cbn [size]; lia.
  - destruct (zero_qual q); cbn [size]; lia.
Qed.
Lemma wf_parameter : forall t, wf t -> wf (unqualified (adjusted t)).
Proof. intros. now apply wf_unqualified, wf_adjusted. Qed.
Lemma size_parameter : forall t, (size (unqualified (adjusted t)) <= S (size t))%nat.
Proof. intros. pose proof (size_unqualified (adjusted t)). pose proof (size_adjusted t). lia. Qed.

Lemma zero_unqualified_idem : forall t, wf t -> zero_unqualified (zero_unqualified t) = zero_unqualified t.
Proof.
  intros [] W; cbn [zero_unqualified]; try reflexivity. destruct (zero_qual q) eqn:Z.
  - destruct W as (_ & W). destruct t; try reflexivity. discriminate.
  - cbn [zero_unqualified]. now rewrite Z.
Qed.

(** ** One step *)
Definition promoted_pair (r : ty -> ty -> res) (p : param) : res :=
  match p_type p with
  | Some x => r (unqualified (adjusted x)) (promoted (unqualified (adjusted x)))
  | None => Ub
  end.

Lemma promoted_cases : forall t, promoted t = t \/ exists b b', t = TBasic b /\ promoted t = TBasic b'.
Proof. intros []; try (left; reflexivity). destruct b; try (left; reflexivity); right; cbn; eauto. Qed.

Section Ext.
Context (r r' : ty -> ty -> res) (t1 t2 : ty).
Hypothesis small : forall a b, wf a -> wf b -> (size a + size b < size t1 + size t2)%nat -> r a b = r' a b.
Hypothesis refl : forall u, wf u -> r u u = r' u u.
Hypothesis basics : forall b b', r (TBasic b) (TBasic b') = r' (TBasic b) (TBasic b').

Lemma promoted_ext : forall m ps,
  all (fun p => match p with Param (Some a) _ => wf a | Param None _ => m <> ModeParameters end) ps ->
  each (promoted_pair r) ps = each (promoted_pair r') ps.
Proof.
  intros m ps W. apply each_ext. intros p I. unfold promoted_pair. destruct (p_type p) as [x|] eqn:E; [|reflexivity].
  pose proof (wf_parameter _ (wf_param _ _ _ _ W I E)) as Wu.
  destruct (promoted_cases (unqualified (adjusted x))) as [-> | (b & b' & -> & ->)]; [now apply refl|apply basics].
Qed.

Lemma step_ext : wf t1 -> wf t2 -> compat_step r t1 t2 = compat_step r' t1 t2.
Proof.
  intros W1 W2'. unfold compat_step. pose proof (wf_zero_unqualified _ W2') as W2.
  pose proof (size_zero_unqualified t2) as S2. remember (zero_unqualified t2) as y. clear Heqy W2'.
  cbv zeta. f_equal.
  destruct t1 as [b|a|b q a|q a|rt m ps e|c i es u|c i fs|c i fs] eqn:T1, y as [b'|a'|b' q' a'|q' a'|rt' m' ps' e'|c' i' es' u'|c' i' fs'|c' i' fs'];
    try reflexivity; try (cbn [size] in *; f_equal; apply small; [apply W1|(apply W2)|cbn [size]; lia]; fail).
  - apply small; [exact W1|exact W2|cbn [size] in *; lia].
  - destruct W1 as (Wr1 & Wp1), W2 as (Wr2 & Wp2). f_equal.
    + apply small; [now apply wf_unqualified|now apply wf_unqualified|].
      pose proof (size_unqualified rt). pose proof (size_unqualified rt'). cbn [size] in *. lia.
    + pose proof (promoted_ext m ps Wp1) as P1. pose proof (promoted_ext m' ps' Wp2) as P2.
      destruct m; [destruct m'| |].
      * f_equal. f_equal. apply both_ext. intros p p' I I'.
        destruct (p_type p) as [x|] eqn:E; [|reflexivity]. destruct (p_type p') as [x'|] eqn:E'; [|reflexivity].
        apply small; [exact (wf_parameter _ (wf_param _ _ _ _ Wp1 I E))|exact (wf_parameter _ (wf_param _ _ _ _ Wp2 I' E'))|].
        pose proof (size_parameter x). pose proof (size_parameter x').
        pose proof (size_param rt ModeParameters ps e p x I E). pose proof (size_param rt' ModeParameters ps' e' p' x' I' E'). lia.
      * f_equal. exact P1.
      * f_equal. exact P1.
      * destruct m'; try reflexivity. f_equal. exact P2.
      * destruct m'; try reflexivity. f_equal. exact P2.
  - f_equal. destruct (c && c'); [|reflexivity]. f_equal. apply both_ext. intros f f' I I'. do 3 f_equal.
    apply small; [exact (wf_field fs f W1 I)|exact (wf_field fs' f' W2 I')|].
    pose proof (size_struct c i fs f I). pose proof (size_struct c' i' fs' f' I'). lia.
  - destruct W1 as (D1 & W1), W2 as (D2 & W2). f_equal. destruct (c && c'); [|reflexivity]. f_equal. apply each_ext. intros f I.
    destruct (f_name f) as [x|] eqn:N.
    + rewrite (field_at_self fs f x D1 I N). f_equal. apply refl. exact (wf_field fs f W1 I).
    + assert (G : forall l, incl l fs' ->
        some_match (fun f2 => andr (widths (f_width f) (f_width f2)) (r (f_type f) (f_type f2))) l =
        some_match (fun f2 => andr (widths (f_width f) (f_width f2)) (r' (f_type f) (f_type f2))) l).
      { induction l as [|g l IH]; intros Il; [reflexivity|]. cbn [some_match].
        rewrite IH by (intros z Iz; apply Il; now right). destruct (f_name g); [reflexivity|]. do 2 f_equal.
        assert (Ig : In g fs') by (apply Il; now left).
        apply small; [exact (wf_field fs f W1 I)|exact (wf_field fs' g W2 Ig)|].
        pose proof (size_union c i fs f I). pose proof (size_union c' i' fs' g Ig). lia. }
      apply G, incl_refl.
Qed.
End Ext.

(** ** Reflexivity *)
Lemma same_qual_other : forall q a b, is_qual b = false -> same (TQual q a) b = No.
Proof. intros q a []; cbn; congruence. Qed.

Lemma step_refl : forall r t, wf t -> (is_qual t = false \/ forall a, wf a -> is_qual a = false -> r a a = Yes) -> compat_step r t t = Yes.
Proof.
  intros r t W H. unfold compat_step. cbv zeta.
  assert (D : zero_unqualified t = t \/ exists q a, t = TQual q a /\ zero_qual q = true).
  { destruct t; try (now left). cbn [zero_unqualified]. destruct (zero_qual q) eqn:Z; [right; eauto|now left]. }
  destruct D as [-> | (q & a & -> & Z)].
  - rewrite same_refl; [reflexivity|assumption].
  - destruct W as (W & Nq). cbn [zero_unqualified]. rewrite Z, same_qual_other by assumption. cbn [orr].
    destruct H as [H|H]; [discriminate|].
    destruct a; cbn [is_qual] in Nq; try discriminate Nq; cbn [of_bool andr]; apply H; auto.
Qed.

Lemma compat_refl : forall n t, (2 <= n)%nat -> wf t -> compat n t t = Yes.
Proof.
  intros [|[|n]] t L W; try lia. cbn [compat]. apply step_refl; [assumption|right]. intros a Wa Na.
  change (compat_step (compat n) a a = Yes). apply step_refl; auto.
Qed.

Lemma compat_basic : forall n m b b', (1 <= n)%nat -> (1 <= m)%nat -> compat n (TBasic b) (TBasic b') = compat m (TBasic b) (TBasic b').
Proof. intros [|n] [|m] b b' L M; try lia. reflexivity. Qed.

Lemma fuel : forall n t1 t2 f f', (size t1 + size t2 < n)%nat -> (n <= f)%nat -> (n <= f')%nat -> wf t1 -> wf t2 ->
  compat f t1 t2 = compat f' t1 t2.
Proof.
  induction n as [|n IH]; intros t1 t2 f f' L F F' W1 W2; [lia|].
  pose proof (size_pos t1). pose proof (size_pos t2).
  destruct f as [|f]; [lia|]. destruct f' as [|f']; [lia|]. cbn [compat]. apply step_ext; try assumption.
  - intros a b Wa Wb Lab. apply IH; try assumption; lia.
  - intros u Wu. rewrite !compat_refl; try assumption; try lia. reflexivity.
  - intros b b'. apply compat_basic; lia.
Qed.

Lemma compatible_eq : forall t1 t2, wf t1 -> wf t2 -> compatible t1 t2 = compat_step compatible t1 t2.
Proof.
  intros t1 t2 W1 W2. unfold compatible at 1. cbn [compat]. pose proof (size_pos t1). pose proof (size_pos t2).
  apply step_ext; try assumption.
  - intros a b Wa Wb L. unfold compatible. apply (fuel (S (size a + size b))); try assumption; lia.
  - intros u Wu. unfold compatible. pose proof (size_pos u). rewrite !compat_refl; try assumption; try lia. reflexivity.
  - intros b b'. unfold compatible. apply compat_basic; cbn [size]; lia.
Qed.

Lemma compatible_refl : forall t, wf t -> compatible t t = Yes.
Proof. intros t W. unfold compatible. pose proof (size_pos t). apply compat_refl; [lia|assumption]. Qed.

Lemma compatible_basics : forall b b', compatible (TBasic b) (TBasic b') = of_bool (basic_eqb b b').
Proof. intros. rewrite compatible_eq by exact I. unfold compat_step. cbn. now destruct (basic_eqb b b'). Qed.

(** ** Qualified types without qualifiers *)
Lemma compatible_right : forall t1 t2, wf t1 -> wf t2 -> compatible t1 t2 = compatible t1 (zero_unqualified t2).
Proof.
  intros t1 t2 W1 W2. rewrite (compatible_eq t1 t2), (compatible_eq t1 (zero_unqualified t2)) by auto using wf_zero_unqualified.
  unfold compat_step. now rewrite zero_unqualified_idem.
Qed.

Lemma not_zero : forall t, wf t -> match zero_unqualified t with TQual q _ => zero_qual q = false | _ => True end.
Proof.
  intros [] W; cbn [zero_unqualified]; try exact I. destruct (zero_qual q) eqn:Z; [|exact Z].
  destruct W as (_ & W). destruct t; try exact I. discriminate.
Qed.

Lemma other_qual : forall r a q b, is_qual a = false -> zero_qual q = false -> compat_step r a (TQual q b) = No.
Proof. intros r a q b N Z. unfold compat_step. cbn [zero_unqualified]. rewrite Z. destruct a; try discriminate N; reflexivity. Qed.

Lemma zero_not_eq : forall q q', zero_qual q = true -> zero_qual q' = false -> qual_eqb q q' = false.
Proof. intros [[] [] []] [[] [] []]; cbn; congruence. Qed.

Lemma compatible_left : forall t1 t2, wf t1 -> wf t2 -> compatible t1 t2 = compatible (zero_unqualified t1) t2.
Proof.
  intros t1 t2 W1 W2. destruct t1 as [| | |q a| | | |]; try reflexivity. cbn [zero_unqualified].
  destruct (zero_qual q) eqn:Z; [|reflexivity]. destruct W1 as (Wa & Na).
  rewrite (compatible_right a t2) by assumption.
  rewrite compatible_eq by (try split; assumption). pose proof (not_zero t2 W2) as NZ.
  unfold compat_step. pose proof (wf_zero_unqualified t2 W2) as W2'. pose proof (zero_unqualified_idem t2 W2) as ID.
  destruct (is_qual (zero_unqualified t2)) eqn:Q2.
  - destruct (zero_unqualified t2) as [| | |q2 b| | | |]; try discriminate Q2.
    rewrite (compatible_eq a (TQual q2 b)) by assumption. rewrite other_qual by assumption.
    cbn [same]. rewrite (zero_not_eq _ _ Z NZ). reflexivity.
  - rewrite same_qual_other by assumption. cbn [orr].
    destruct (zero_unqualified t2); try discriminate Q2; rewrite Z; reflexivity.
Qed.

(** ** C17: termination and definedness *)

(** No untagged enumeration, no bit-field anywhere in the type. *)
Fixpoint plain (t : ty) : Prop :=
  match t with
  | TBasic _ => True
  | TEnum _ i _ _ => i <> None
  | TPtr a | TArr _ _ a | TQual _ a => plain a
  | TFun r _ ps _ => plain r /\ all (fun p => match p with Param (Some a) _ => plain a | Param None _ => True end) ps
  | TStruct _ _ fs | TUnion _ _ fs => all (fun f => match f with Field _ a _ w => plain a /\ w = None end) fs
  end.

Lemma plain_field : forall fs f, all (fun f => match f with Field _ a _ w => plain a /\ w = None end) fs -> In f fs ->
  plain (f_type f) /\ f_width f = None.
Proof. intros fs f W H. pose proof (all_in _ _ _ _ W H) as K. destruct f. exact K. Qed.
Lemma plain_param : forall ps p x,
  all (fun p => match p with Param (Some a) _ => plain a | Param None _ => True end) ps -> In p ps -> p_type p = Some x -> plain x.
Proof.
  intros ps p x W H E. pose proof (all_in _ _ _ _ W H) as K. destruct p as [[a|] s]; cbn [p_type] in E; [|discriminate].
  injection E as ->. exact K.
Qed.
Lemma plain_zero_unqualified : forall t, plain t -> plain (zero_unqualified t).
Proof. intros [] W; cbn [zero_unqualified]; try exact W. destruct (zero_qual q); exact W. Qed.
Lemma plain_parameter : forall t, plain t -> plain (unqualified (adjusted t)).
Proof.
  intros [] W; cbn [adjusted unqualified]; try exact W.
  - destruct b; exact I.
  - destruct (zero_qual q); exact W.
Qed.
Lemma plain_unqualified : forall t, plain t -> plain (unqualified t).
Proof. intros [] W; exact W. Qed.

Lemma same_defined_n : forall n t1 t2, (size t1 < n)%nat -> plain t1 -> plain t2 -> same t1 t2 <> Ub.
Proof.
  induction n as [|n IH]; intros t1 t2 L P1 P2; [lia|].
  assert (NF : Ub <> Yes) by discriminate.
  assert (OB : forall b, of_bool b <> Ub) by (intros; apply of_bool_defined).
  destruct t1 as [b|a|b q a|q a|r m ps e|c i es u|c i fs|c i fs], t2 as [b'|a'|b' q' a'|q' a'|r' m' ps' e'|c' i' es' u'|c' i' fs'|c' i' fs'];
    try (cbn; discriminate); cbn [same].
  - apply OB.
  - apply IH; [cbn [size] in L; lia|exact P1|exact P2].
  - cbn [size] in L. apply andr_not; [assumption| |apply IH; [lia|exact P1|exact P2]]. destruct b, b'; cbn [bound_same]; try apply OB; discriminate.
  - cbn [size] in L. apply andr_not; [assumption|apply OB|apply IH; [lia|exact P1|exact P2]].
  - destruct P1 as (R1 & P1), P2 as (R2 & P2). repeat apply andr_not; try assumption; try apply OB.
    + apply IH; [cbn [size] in L; lia|assumption|assumption].
    + apply both_not; [assumption|]. intros p p' I I'. apply andr_not; [assumption| |apply OB].
      destruct p as [[x|] s], p' as [[x'|] s']; try discriminate. apply IH.
      * pose proof (size_param r m ps e _ x I eq_refl). lia.
      * exact (plain_param _ _ _ P1 I eq_refl).
      * exact (plain_param _ _ _ P2 I' eq_refl).
  - repeat apply andr_not; try assumption; try apply OB.
    + cbn [plain] in P1, P2. destruct i, i'; try congruence. apply OB.
    + destruct c; [|discriminate]. apply andr_not; [assumption|apply OB|]. apply both_not; [assumption|].
      intros [s v] [s' v'] _ _. unfold enumerator_same. apply andr_not; [assumption|apply OB|].
      destruct v, v'; cbn; try discriminate. apply OB.
  - repeat apply andr_not; try assumption; try apply OB.
    destruct c; [|discriminate]. apply andr_not; [assumption|apply OB|]. apply both_not; [assumption|].
    intros f f' I I'. destruct (plain_field _ _ P1 I) as (A1 & B1). destruct (plain_field _ _ P2 I') as (A2 & B2).
    pose proof (size_struct true i fs _ I) as Sz.
    destruct f as [n1 x1 a1 w1]. cbn [f_name f_align f_width f_type] in *. rewrite B1, B2.
    repeat apply andr_not; try assumption; try apply OB.
    + discriminate.
    + apply IH; [|assumption|assumption]. cbn [size] in *. lia.
  - repeat apply andr_not; try assumption; try apply OB.
    destruct c; [|discriminate]. apply andr_not; [assumption| |apply OB]. apply each_not; [assumption|].
    intros f I. destruct (plain_field _ _ P1 I) as (A1 & B1). pose proof (size_union true i fs _ I) as Sz.
    destruct f as [[n1|] x1 a1 w1]; [|discriminate]. destruct (field_at fs' n1) as [f2|] eqn:E; [|discriminate].
    destruct (field_at_some _ _ _ E) as (I2 & _). destruct (plain_field _ _ P2 I2) as (A2 & B2).
    cbn [f_width f_type] in *. rewrite B1, B2. apply andr_not; [assumption|discriminate|].
    apply IH; [|assumption|assumption]. cbn [size] in *. lia.
Qed.

Lemma same_defined : forall t1 t2, plain t1 -> plain t2 -> same t1 t2 <> Ub.
Proof. intros t1 t2. apply (same_defined_n (S (size t1))). lia. Qed.

Section Not.
Context (r : ty -> ty -> res) (R : res) (t1 t2 : ty).
Hypothesis RY : R = Ub \/ R = NoFuel.
Hypothesis small : forall a b, wf a -> wf b -> (R = Ub -> plain a /\ plain b) -> (size a + size b < size t1 + size t2)%nat -> r a b <> R.
Hypothesis refl : forall u, wf u -> r u u <> R.
Hypothesis basics : forall b b', r (TBasic b) (TBasic b') <> R.

Lemma bool_not : forall b, of_bool b <> R.
Proof. intros b. destruct RY as [-> | ->]; apply of_bool_defined. Qed.

Lemma promoted_not : forall ps,
  all (fun p => match p with Param (Some a) _ => wf a | Param None _ => ModeParameters <> ModeParameters end) ps ->
  each (promoted_pair r) ps <> R.
Proof.
  intros ps W. apply each_not; [destruct RY; subst; discriminate|]. intros p I. unfold promoted_pair.
  destruct (p_type p) as [x|] eqn:E.
  - pose proof (wf_parameter _ (wf_param _ _ _ _ W I E)) as Wu.
    destruct (promoted_cases (unqualified (adjusted x))) as [-> | (b & b' & -> & ->)]; [now apply refl|apply basics].
  - pose proof (all_in _ _ _ _ W I) as K. destruct p as [[a|] s]; cbn [p_type] in E; congruence.
Qed.

Lemma step_not : wf t1 -> wf t2 -> (R = Ub -> plain t1 /\ plain t2) -> compat_step r t1 t2 <> R.
Proof.
  intros W1 W2' P. unfold compat_step. pose proof (wf_zero_unqualified _ W2') as W2.
  assert (P' : R = Ub -> plain t1 /\ plain (zero_unqualified t2)).
  { intros E. destruct (P E). split; [assumption|]. now apply plain_zero_unqualified. }
  pose proof (size_zero_unqualified t2) as S2. remember (zero_unqualified t2) as y. clear Heqy W2' P.
  assert (NY : R <> Yes) by (destruct RY; subst; discriminate).
  assert (ND : No <> R) by (destruct RY; subst; discriminate).
  assert (YD : Yes <> R) by (destruct RY; subst; discriminate).
  pose proof bool_not as OB. pose proof promoted_not as PN. cbv zeta. apply orr_not.
  { destruct RY as [E|E].
    - rewrite E. apply same_defined; apply P'; exact E.
    - rewrite E. apply (same_nofuel (S (size t1))). lia. }
  destruct t1 as [b|a|b q a|q a|rt m ps e|c i es u|c i fs|c i fs] eqn:T1, y as [b'|a'|b' q' a'|q' a'|rt' m' ps' e'|c' i' es' u'|c' i' fs'|c' i' fs'];
    try exact ND; try apply OB;
    try (apply andr_not; [exact NY|apply OB|]; apply small; [apply W1|first [apply W2|exact W2]|exact P'|cbn [size] in *; lia]; fail).
  - apply small; [exact W1|exact W2|exact P'|cbn [size] in *; lia].
  - apply andr_not; [exact NY| |].
    + apply small; [exact W1|exact W2|exact P'|cbn [size] in *; lia].
    + destruct b, b'; cbn [bound_compatible]; try exact YD; apply OB.
  - destruct W1 as (Wr1 & Wp1), W2 as (Wr2 & Wp2). apply andr_not; [exact NY| |].
    + apply small; [now apply wf_unqualified|now apply wf_unqualified| |].
      * intros E. destruct (P' E) as ((X & _) & (Y & _)). split; now apply plain_unqualified.
      * pose proof (size_unqualified rt). pose proof (size_unqualified rt'). cbn [size] in *. lia.
    + destruct m; [destruct m'| |].
      * repeat apply andr_not; try exact NY; try apply OB. apply both_not; [exact NY|]. intros p p' I I'.
        destruct (p_type p) as [x|] eqn:E.
        2:{ pose proof (all_in _ _ _ _ Wp1 I) as K. destruct p as [[z|] s]; cbn [p_type] in E; congruence. }
        destruct (p_type p') as [x'|] eqn:E'.
        2:{ pose proof (all_in _ _ _ _ Wp2 I') as K. destruct p' as [[z|] s]; cbn [p_type] in E'; congruence. }
        apply small.
        -- exact (wf_parameter _ (wf_param _ _ _ _ Wp1 I E)).
        -- exact (wf_parameter _ (wf_param _ _ _ _ Wp2 I' E')).
        -- intros ER. destruct (P' ER) as ((_ & X) & (_ & Y)).
           split; apply plain_parameter; [exact (plain_param _ _ _ X I E)|exact (plain_param _ _ _ Y I' E')].
        -- pose proof (size_parameter x). pose proof (size_parameter x').
           pose proof (size_param rt ModeParameters ps e p x I E). pose proof (size_param rt' ModeParameters ps' e' p' x' I' E'). lia.
      * apply andr_not; [exact NY|apply OB|]. now apply PN.
      * apply andr_not; [exact NY|apply OB|]. now apply PN.
      * destruct m'; try exact YD. apply andr_not; [exact NY|apply OB|]. now apply PN.
      * destruct m'; try exact YD. apply andr_not; [exact NY|apply OB|]. now apply PN.
  - apply andr_not; [exact NY| |].
    + destruct RY as [E|E].
      * destruct (P' E) as (X & Y). cbn [plain] in X, Y. destruct i, i'; try congruence. apply OB.
      * rewrite E in *. destruct i, i'; cbn; try discriminate. apply of_bool_defined.
    + destruct (c && c'); [|exact YD]. apply andr_not; [exact NY|apply OB|]. apply both_not; [exact NY|].
      intros [s v] [s' v'] _ _. unfold enumerator_same. apply andr_not; [exact NY|apply OB|].
      destruct v, v'; cbn [fst snd]; try assumption; apply OB.
  - apply andr_not; [exact NY|apply OB|]. destruct (c && c'); [|exact YD].
    apply andr_not; [exact NY|apply OB|]. apply both_not; [exact NY|]. intros f f' I I'.
    repeat apply andr_not; try exact NY; try apply OB.
    + destruct RY as [E|E].
      * destruct (P' E) as (X & Y). destruct (plain_field _ _ X I) as (_ & ->). destruct (plain_field _ _ Y I') as (_ & ->). exact YD.
      * rewrite E in *. destruct (f_width f), (f_width f'); cbn; try discriminate. apply of_bool_defined.
    + apply small; [exact (wf_field fs f W1 I)|exact (wf_field fs' f' W2 I')| |].
      * intros E. destruct (P' E) as (X & Y). split; [apply (plain_field _ _ X I)|apply (plain_field _ _ Y I')].
      * pose proof (size_struct c i fs f I). pose proof (size_struct c' i' fs' f' I'). lia.
  - destruct W1 as (D1 & W1), W2 as (D2 & W2). apply andr_not; [exact NY|apply OB|]. destruct (c && c'); [|exact YD].
    apply andr_not; [exact NY| |apply OB]. apply each_not; [exact NY|]. intros f I.
    assert (M : forall f', In f' fs' -> andr (widths (f_width f) (f_width f')) (r (f_type f) (f_type f')) <> R).
    { intros f' I'. apply andr_not; [exact NY| |].
      + destruct RY as [E|E].
        * destruct (P' E) as (X & Y). destruct (plain_field _ _ X I) as (_ & ->). destruct (plain_field _ _ Y I') as (_ & ->). exact YD.
        * rewrite E in *. destruct (f_width f), (f_width f'); cbn; try discriminate. apply of_bool_defined.
      + apply small; [exact (wf_field fs f W1 I)|exact (wf_field fs' f' W2 I')| |].
        * intros E. destruct (P' E) as (X & Y). split; [apply (plain_field _ _ X I)|apply (plain_field _ _ Y I')].
        * pose proof (size_union c i fs f I). pose proof (size_union c' i' fs' f' I'). lia. }
    destruct (f_name f) as [x|] eqn:N.
    + rewrite (field_at_self fs f x D1 I N). rewrite widths_refl. cbn [andr]. apply refl. exact (wf_field fs f W1 I).
    + assert (G : forall l, incl l fs' ->
        some_match (fun f2 => andr (widths (f_width f) (f_width f2)) (r (f_type f) (f_type f2))) l <> R).
      { induction l as [|g l IH]; intros Il; [exact ND|]. cbn [some_match].
        assert (T : some_match (fun f2 => andr (widths (f_width f) (f_width f2)) (r (f_type f) (f_type f2))) l <> R)
          by (apply IH; intros z Iz; apply Il; now right).
        destruct (f_name g); [exact T|]. apply orr_not; [|exact T]. apply M, Il. now left. }
      apply G, incl_refl.
Qed.
End Not.

Lemma compatible_not : forall n R t1 t2, (size t1 + size t2 < n)%nat -> R = Ub \/ R = NoFuel -> wf t1 -> wf t2 ->
  (R = Ub -> plain t1 /\ plain t2) -> compatible t1 t2 <> R.
Proof.
  induction n as [|n IH]; intros R t1 t2 L RY W1 W2 P; [lia|]. rewrite compatible_eq by assumption.
  apply step_not; try assumption.
  - intros a b Wa Wb Pab Lab. apply IH; try assumption. lia.
  - intros u Wu. rewrite compatible_refl by assumption. destruct RY; subst; discriminate.
  - intros b b'. rewrite compatible_basics. destruct RY; subst; apply of_bool_defined.
Qed.

(** ** C17: symmetry *)

(** No variadic function type; every union member has a name. *)
Fixpoint tame (t : ty) : Prop :=
  match t with
  | TBasic _ | TEnum _ _ _ _ => True
  | TPtr a | TArr _ _ a | TQual _ a => tame a
  | TFun r _ ps e => e = false /\ tame r /\ all (fun p => match p with Param (Some a) _ => tame a | Param None _ => True end) ps
  | TStruct _ _ fs => all (fun f => match f with Field _ a _ _ => tame a end) fs
  | TUnion _ _ fs => all (fun f => match f with Field n a _ _ => tame a /\ n <> None end) fs
  end.

Lemma tame_zero_unqualified : forall t, tame t -> tame (zero_unqualified t).
Proof. intros [] W; cbn [zero_unqualified]; try exact W. destruct (zero_qual q); exact W. Qed.
Lemma tame_unqualified : forall t, tame t -> tame (unqualified t).
Proof. intros [] W; exact W. Qed.
Lemma tame_parameter : forall t, tame t -> tame (unqualified (adjusted t)).
Proof.
  intros [] W; cbn [adjusted unqualified]; try exact W.
  - destruct b; exact I.
  - destruct (zero_qual q); exact W.
Qed.
Lemma tame_param : forall ps p x,
  all (fun p => match p with Param (Some a) _ => tame a | Param None _ => True end) ps -> In p ps -> p_type p = Some x -> tame x.
Proof.
  intros ps p x W H E. pose proof (all_in _ _ _ _ W H) as K. destruct p as [[a|] s]; cbn [p_type] in E; [|discriminate].
  injection E as ->. exact K.
Qed.
Lemma tame_field : forall fs f, all (fun f => match f with Field _ a _ _ => tame a end) fs -> In f fs -> tame (f_type f).
Proof. intros fs f W H. pose proof (all_in _ _ _ _ W H) as K. destruct f. exact K. Qed.
Lemma tame_member : forall fs f, all (fun f => match f with Field n a _ _ => tame a /\ n <> None end) fs -> In f fs ->
  tame (f_type f) /\ f_name f <> None.
Proof. intros fs f W H. pose proof (all_in _ _ _ _ W H) as K. destruct f. exact K. Qed.

Lemma own_members : forall fs fs', NoDup (named fs) -> all (fun f => match f with Field _ a _ _ => wf a end) fs ->
  all (fun f => match f with Field n a _ _ => tame a /\ n <> None end) fs ->
  each (fun f1 =>
          match f_name f1 with
          | Some x =>
            match field_at fs x with
            | None => No
            | Some f2 => andr (widths (f_width f1) (f_width f2)) (compatible (f_type f1) (f_type f2))
            end
          | None => some_match (fun f2 => andr (widths (f_width f1) (f_width f2)) (compatible (f_type f1) (f_type f2))) fs'
          end) fs = Yes.
Proof.
  intros fs fs' D W T. rewrite each_yes. intros f I. destruct (tame_member _ _ T I) as (_ & N).
  destruct (f_name f) as [x|] eqn:E; [|congruence]. rewrite (field_at_self fs f x D I E), widths_refl. cbn [andr].
  apply compatible_refl. exact (wf_field fs f W I).
Qed.

Lemma symmetric_n : forall n t1 t2, (size t1 + size t2 < n)%nat -> wf t1 -> wf t2 -> tame t1 -> tame t2 ->
  agree (compatible t1 t2) (compatible t2 t1).
Proof.
  induction n as [|n IH]; intros t1' t2' L W1' W2' T1' T2'; [lia|].
  rewrite (compatible_left t1' t2'), (compatible_right _ t2') by auto using wf_zero_unqualified.
  rewrite (compatible_left t2' t1'), (compatible_right _ t1') by auto using wf_zero_unqualified.
  pose proof (wf_zero_unqualified _ W1') as W1. pose proof (wf_zero_unqualified _ W2') as W2.
  pose proof (tame_zero_unqualified _ T1') as T1. pose proof (tame_zero_unqualified _ T2') as T2.
  pose proof (size_zero_unqualified t1') as S1. pose proof (size_zero_unqualified t2') as S2.
  pose proof (not_zero _ W1') as Z1. pose proof (not_zero _ W2') as Z2.
  pose proof (zero_unqualified_idem _ W1') as D1. pose proof (zero_unqualified_idem _ W2') as D2.
  remember (zero_unqualified t1') as t1. remember (zero_unqualified t2') as t2.
  assert (L' : (size t1 + size t2 < S n)%nat) by lia. clear - IH L' W1 W2 T1 T2 Z1 Z2 D1 D2.
  rewrite (compatible_eq t1 t2), (compatible_eq t2 t1) by assumption. unfold compat_step. rewrite D1, D2.
  clear D1 D2. cbv zeta. apply agree_orr; [now apply same_agree|].
  destruct t1 as [b|a|b q a|q a|r m ps e|c i es u|c i fs|c i fs], t2 as [b'|a'|b' q' a'|q' a'|r' m' ps' e'|c' i' es' u'|c' i' fs'|c' i' fs'];
    try apply agree_refl;
    try (rewrite Z1; apply agree_refl); try (rewrite Z2; apply agree_refl);
    try (rewrite basic_eqb_sym; apply agree_refl).
  - apply IH; [cbn [size] in L'; lia|assumption..].
  - apply agree_andr; [apply IH; [cbn [size] in L'; lia|assumption..]|]. apply agree_eq, bound_compatible_sym.
  - rewrite qual_eqb_sym. apply agree_andr; [apply agree_refl|].
    apply IH; [cbn [size] in L'; lia|apply W1|apply W2|exact T1|exact T2].
  - destruct W1 as (Wr1 & Wp1), W2 as (Wr2 & Wp2), T1 as (-> & Tr1 & Tp1), T2 as (-> & Tr2 & Tp2).
    apply agree_andr.
    + apply IH; auto using wf_unqualified, tame_unqualified.
      pose proof (size_unqualified r). pose proof (size_unqualified r'). cbn [size] in L'. lia.
    + destruct m, m'; try apply agree_refl. apply agree_andr; [apply agree_same_length|].
      cbn [Bool.eqb of_bool andr]. apply agree_both. intros p p' I I'.
      destruct (p_type p) as [x|] eqn:E, (p_type p') as [x'|] eqn:E'; try apply agree_refl.
      apply IH.
      * pose proof (size_parameter x). pose proof (size_parameter x').
        pose proof (size_param r ModeParameters ps false p x I E). pose proof (size_param r' ModeParameters ps' false p' x' I' E'). lia.
      * exact (wf_parameter _ (wf_param _ _ _ _ Wp1 I E)).
      * exact (wf_parameter _ (wf_param _ _ _ _ Wp2 I' E')).
      * exact (tame_parameter _ (tame_param _ _ _ Tp1 I E)).
      * exact (tame_parameter _ (tame_param _ _ _ Tp2 I' E')).
  - apply agree_eq. rewrite enum_ids_sym. f_equal. rewrite andb_comm. destruct (c' && c); [|reflexivity].
    rewrite same_length_sym. f_equal. clear. revert es'.
    induction es as [|x es IHe]; intros [|x' es']; try reflexivity. cbn [both]. now rewrite enumerator_same_sym, IHe.
  - rewrite strings_same_sym. apply agree_andr; [apply agree_refl|]. rewrite andb_comm. destruct (c' && c); [|apply agree_refl].
    apply agree_andr; [apply agree_same_length|]. apply agree_both. intros f f' I I'.
    rewrite strings_same_sym, Z.eqb_sym, widths_sym. repeat (apply agree_andr; [apply agree_refl|]).
    apply IH; [|exact (wf_field fs f W1 I)|exact (wf_field fs' f' W2 I')|exact (tame_field fs f T1 I)|exact (tame_field fs' f' T2 I')].
    pose proof (size_struct c i fs f I). pose proof (size_struct c' i' fs' f' I'). lia.
  - destruct W1 as (N1 & W1), W2 as (N2 & W2). rewrite strings_same_sym. apply agree_andr; [apply agree_refl|].
    rewrite andb_comm. destruct (c' && c); [|apply agree_refl].
    rewrite (own_members fs fs') by assumption. rewrite (own_members fs' fs) by assumption. cbn [andr].
    apply agree_same_length.
Qed.

(** ** C18 *)
Definition members_match (f1 f2 : field) : Prop :=
  f_name f1 = f_name f2 /\ f_align f1 = f_align f2 /\ f_width f1 = f_width f2 /\ compatible (f_type f1) (f_type f2) = Yes.

Lemma same_compatible : forall t1 t2, wf t1 -> wf t2 -> same t1 t2 = Yes -> compatible t1 t2 = Yes.
Proof.
  intros t1 t2 W1 W2 H. destruct (is_qual t2) eqn:Q2.
  - destruct t2 as [| | |q2 b| | | |]; try discriminate Q2. destruct t1 as [| | |q1 a| | | |]; try discriminate H.
    cbn [same] in H. apply andr_yes in H. destruct H as (Hq & H). apply of_bool_yes, qual_eqb_eq in Hq. subst q2.
    destruct (zero_qual q1) eqn:Z.
    + rewrite compatible_left, compatible_right by (try apply wf_zero_unqualified; assumption). cbn [zero_unqualified]. rewrite Z.
      destruct W1 as (W1 & N1), W2 as (W2 & N2). rewrite compatible_eq by assumption. unfold compat_step.
      replace (zero_unqualified b) with b by (destruct b; try reflexivity; discriminate). rewrite H. reflexivity.
    + rewrite compatible_eq by assumption. unfold compat_step. cbn [zero_unqualified]. rewrite Z. cbn [same].
      rewrite qual_eqb_refl, H. reflexivity.
  - rewrite compatible_eq by assumption. unfold compat_step.
    replace (zero_unqualified t2) with t2 by (destruct t2; try reflexivity; discriminate). rewrite H. reflexivity.
Qed.

Lemma both_forall : forall A (f : A -> A -> res) (P : A -> A -> Prop) l1 l2,
  same_length l1 l2 = Yes -> both f l1 l2 = Yes -> (forall a b, In a l1 -> In b l2 -> f a b = Yes -> P a b) -> Forall2 P l1 l2.
Proof.
  intros A f P l1 l2 L. unfold same_length in L. apply of_bool_yes, Nat.eqb_eq in L. revert l2 L.
  induction l1 as [|a l1 IH]; intros [|b l2] L H HP; try discriminate L; [constructor|].
  cbn [both] in H. apply andr_yes in H. destruct H as (H1 & H2). constructor; [apply HP; auto; now left|].
  apply IH; [now injection L|assumption|]. intros; apply HP; auto; now right.
Qed.

Lemma orr_yes : forall a b, orr a b = Yes -> a = Yes \/ b = Yes.
Proof. destruct a; cbn; intuition discriminate. Qed.

Theorem c18_structures : forall i1 i2 fs1 fs2, wf (TStruct true i1 fs1) -> wf (TStruct true i2 fs2) ->
  compatible (TStruct true i1 fs1) (TStruct true i2 fs2) = Yes -> i1 = i2 /\ Forall2 members_match fs1 fs2.
Proof.
  intros i1 i2 fs1 fs2 W1 W2 H. rewrite compatible_eq in H by assumption. unfold compat_step in H. cbn [zero_unqualified] in H.
  apply orr_yes in H. destruct H as [H|H].
  - cbn [same] in H. apply andr_yes in H. destruct H as (_ & H). apply andr_yes in H. destruct H as (Hi & H).
    apply of_bool_yes, strings_same_eq in Hi. split; [assumption|]. apply andr_yes in H. destruct H as (Hl & H).
    refine (both_forall _ _ _ _ _ Hl H _). intros f1 f2 I1 I2 E. pose proof (wf_field _ _ W1 I1) as Wf1. pose proof (wf_field _ _ W2 I2) as Wf2.
    destruct f1 as [n1 x1 a1 w1]. apply andr_yes in E. destruct E as (E1 & E). apply andr_yes in E. destruct E as (E2 & E).
    apply andr_yes in E. destruct E as (E3 & E4). apply of_bool_yes, strings_same_eq in E1. apply of_bool_yes, Z.eqb_eq in E2.
    apply widths_yes in E3. cbn [f_type] in *. repeat split; cbn [f_name f_align f_width f_type]; try assumption.
    now apply same_compatible.
  - apply andr_yes in H. destruct H as (Hi & H).
    apply of_bool_yes, strings_same_eq in Hi. split; [assumption|]. cbn [andb] in H. apply andr_yes in H. destruct H as (Hl & H).
    refine (both_forall _ _ _ _ _ Hl H _). intros f1 f2 I1 I2 E.
    apply andr_yes in E. destruct E as (E1 & E). apply andr_yes in E. destruct E as (E2 & E).
    apply andr_yes in E. destruct E as (E3 & E4). apply of_bool_yes, strings_same_eq in E1. apply of_bool_yes, Z.eqb_eq in E2.
    apply widths_yes in E3. repeat split; assumption.
Qed.
Print Assumptions c18_structures.

(** For types without untagged enumerations and bit-fields the condition is also sufficient. *)
Theorem c18_structures_exact : forall i1 i2 fs1 fs2, wf (TStruct true i1 fs1) -> wf (TStruct true i2 fs2) ->
  plain (TStruct true i1 fs1) -> plain (TStruct true i2 fs2) ->
  (compatible (TStruct true i1 fs1) (TStruct true i2 fs2) = Yes <-> i1 = i2 /\ Forall2 members_match fs1 fs2).
Proof.
  intros i1 i2 fs1 fs2 W1 W2 P1 P2. split; [now apply c18_structures|]. intros (<- & F).
  rewrite compatible_eq by assumption. unfold compat_step. cbn [zero_unqualified].
  pose proof (same_defined _ _ P1 P2) as D. pose proof (same_nofuel (S (size (TStruct true i1 fs1))) (TStruct true i1 fs1) (TStruct true i1 fs2) (le_n _)) as NF.
  destruct (same (TStruct true i1 fs1) (TStruct true i1 fs2)); try congruence; cbn [orr]; [reflexivity|].
  rewrite strings_same_refl. cbn [andb of_bool andr]. clear W1 W2 P1 P2 D NF.
  assert (L : same_length fs1 fs2 = Yes).
  { unfold same_length. induction F; [reflexivity|]. exact IHF. }
  rewrite L. cbn [andr]. clear L. induction F as [|f1 f2 l1 l2 (E1 & E2 & E3 & E4) F IH]; [reflexivity|].
  cbn [both]. rewrite E1, E2, E3, E4, strings_same_refl, Z.eqb_refl, widths_refl. exact IH.
Qed.
Print Assumptions c18_structures_exact.

(** Unions: the lookup goes to the wrong table, the members of the second union are never looked at. *)
Theorem c18_unions_refuted : exists t u a b,
  t = TUnion true (Some "u"%string) [Field (Some "a"%string) a 0 None] /\
  u = TUnion true (Some "u"%string) [Field (Some "b"%string) b 0 None] /\
  wf t /\ wf u /\ plain t /\ plain u /\ a = TBasic BSInt /\ b = TPtr (TBasic BDouble) /\
  compatible a b = No /\ compatible t u = Yes.
Proof.
  exists (TUnion true (Some "u"%string) [Field (Some "a"%string) (TBasic BSInt) 0 None]),
         (TUnion true (Some "u"%string) [Field (Some "b"%string) (TPtr (TBasic BDouble)) 0 None]),
         (TBasic BSInt), (TPtr (TBasic BDouble)).
  assert (N : forall x : string, NoDup [x]) by (intros; constructor; [intros []|constructor]).
  repeat split; try reflexivity; apply N.
Qed.
Print Assumptions c18_unions_refuted.

(** Any two complete unions with the same tag and the same number of members, all named, are "compatible". *)
Theorem c18_unions_any : forall i fs1 fs2, wf (TUnion true i fs1) -> wf (TUnion true i fs2) ->
  plain (TUnion true i fs1) -> plain (TUnion true i fs2) -> tame (TUnion true i fs1) ->
  List.length fs1 = List.length fs2 -> compatible (TUnion true i fs1) (TUnion true i fs2) = Yes.
Proof.
  intros i fs1 fs2 W1 W2 P1 P2 T1 L. rewrite compatible_eq by assumption. unfold compat_step. cbn [zero_unqualified].
  pose proof (same_defined _ _ P1 P2) as D. pose proof (same_nofuel (S (size (TUnion true i fs1))) (TUnion true i fs1) (TUnion true i fs2) (le_n _)) as NF.
  destruct (same (TUnion true i fs1) (TUnion true i fs2)); try congruence; cbn [orr]; [reflexivity|].
  rewrite strings_same_refl. cbn [andb of_bool andr]. destruct W1 as (D1 & W1). cbv zeta. rewrite own_members by assumption.
  cbn [andr]. unfold same_length. now rewrite L, Nat.eqb_refl.
Qed.
Print Assumptions c18_unions_any.

(** ** C17 *)
Theorem c17_reflexive : forall t, wf t -> compatible t t = Yes.
Proof. exact compatible_refl. Qed.
Print Assumptions c17_reflexive.

Theorem c17_terminates : forall t1 t2, wf t1 -> wf t2 -> compatible t1 t2 <> NoFuel.
Proof.
  intros t1 t2 W1 W2. apply (compatible_not (S (size t1 + size t2))); auto. intros E. discriminate E.
Qed.
Print Assumptions c17_terminates.

(** Partial: without untagged enumerations and bit-fields. *)
Theorem c17_defined_partial : forall t1 t2, wf t1 -> wf t2 -> plain t1 -> plain t2 -> compatible t1 t2 <> Ub.
Proof. intros t1 t2 W1 W2 P1 P2. apply (compatible_not (S (size t1 + size t2))); auto. Qed.
Print Assumptions c17_defined_partial.

(** Partial: without variadic function types and unnamed union members; where both comparisons are defined. *)
Theorem c17_symmetric_partial : forall t1 t2, wf t1 -> wf t2 -> tame t1 -> tame t2 ->
  compatible t1 t2 <> Ub -> compatible t2 t1 <> Ub -> compatible t1 t2 = compatible t2 t1.
Proof. intros t1 t2 W1 W2 T1 T2. apply (symmetric_n (S (size t1 + size t2))); auto. Qed.
Print Assumptions c17_symmetric_partial.

Theorem c17_symmetric_plain : forall t1 t2, wf t1 -> wf t2 -> tame t1 -> tame t2 -> plain t1 -> plain t2 ->
  compatible t1 t2 = compatible t2 t1.
Proof. intros. apply c17_symmetric_partial; try assumption; now apply c17_defined_partial. Qed.
Print Assumptions c17_symmetric_plain.

(** int f(); against int g(char *, ...); *)
Theorem c17_symmetric_refuted : exists f g,
  f = TFun (TBasic BSInt) ModeEmpty [] false /\
  g = TFun (TBasic BSInt) ModeParameters [Param (Some (TPtr (TBasic BChar))) None] true /\
  wf f /\ wf g /\ plain f /\ plain g /\ compatible f g = Yes /\ compatible g f = No.
Proof. do 2 eexists. repeat split; try reflexivity. Qed.
Print Assumptions c17_symmetric_refuted.

(** union u { int a; int : 3; int : 3; } against union u { float a; int : 3; int : 4; } *)
Theorem c17_symmetric_unions_refuted : exists t u,
  t = TUnion true (Some "u"%string) [Field (Some "a"%string) (TBasic BSInt) 0 None; Field None (TBasic BSInt) 0 (Some 3);
                                     Field None (TBasic BSInt) 0 (Some 3)] /\
  u = TUnion true (Some "u"%string) [Field (Some "a"%string) (TBasic BFloat) 0 None; Field None (TBasic BSInt) 0 (Some 3);
                                     Field None (TBasic BSInt) 0 (Some 4)] /\
  wf t /\ wf u /\ compatible t u = Yes /\ compatible u t = No.
Proof.
  assert (N : forall x : string, NoDup [x]) by (intros; constructor; [intros []|constructor]).
  do 2 eexists. repeat split; try reflexivity; apply N.
Qed.
Print Assumptions c17_symmetric_unions_refuted.

(** An enumeration with a tag against one without: strcmp of a null pointer. *)
Theorem c17_defined_refuted : exists t u,
  t = TEnum true (Some "e"%string) [("A"%string, None)] BSInt /\
  u = TEnum true None [("A"%string, None)] BSInt /\
  wf t /\ wf u /\ compatible t u = Ub /\ compatible u t = Ub.
Proof. do 2 eexists. repeat split; reflexivity. Qed.
Print Assumptions c17_defined_refuted.

(** struct s { int a : 3; } against struct s { int a; }: the missing width is read. *)
Theorem c17_defined_bitfield_refuted : exists t u,
  t = TStruct true (Some "s"%string) [Field (Some "a"%string) (TBasic BSInt) 0 (Some 3)] /\
  u = TStruct true (Some "s"%string) [Field (Some "a"%string) (TBasic BSInt) 0 None] /\
  wf t /\ wf u /\ compatible t u = Ub /\ compatible u t = Ub.
Proof. do 2 eexists. repeat split; reflexivity. Qed.
Print Assumptions c17_defined_bitfield_refuted.

(** ** Hypotheses are met *)
Definition ex_struct (n : Z) : ty :=
  TStruct true (Some "s"%string)
    [Field (Some "next"%string) (TPtr (TStruct false (Some "s"%string) [])) 0 None;
     Field (Some "f"%string) (TPtr (TFun (TBasic BVoid) ModeParameters
        [Param (Some (TArr (Bounded n) (Q false false false) (TQual (Q true false false) (TBasic BChar)))) None;
         Param (Some (TQual (Q false false true) (TEnum true (Some "e"%string) [("A"%string, Some 0)] BSInt))) None] false)) 0 None;
     Field (Some "u"%string) (TUnion true None [Field (Some "x"%string) (TBasic BSInt) 0 None; Field (Some "y"%string) (TBasic BFloat) 0 None]) 0 None].

Example c17_hypotheses : wf (ex_struct 3) /\ tame (ex_struct 3) /\ plain (ex_struct 3) /\ wf (ex_struct 4) /\ tame (ex_struct 4) /\
  plain (ex_struct 4) /\ compatible (ex_struct 3) (ex_struct 4) = Yes /\ same (ex_struct 3) (ex_struct 4) = No.
Proof.
  assert (N : NoDup ["x"%string; "y"%string]).
  { constructor; [intros [H|[]]; discriminate|]. constructor; [intros []|constructor]. }
  repeat split; try discriminate; try exact N; reflexivity.
Qed.

(** The two directions can both give No, and both give Yes for distinct types: int against an enumeration. *)
Example c17_enum_basic : compatible (TBasic BSInt) (TEnum true None [("A"%string, None)] BSInt) = Yes /\
  compatible (TEnum true None [("A"%string, None)] BSInt) (TBasic BSInt) = Yes /\
  compatible (TPtr (TBasic BSInt)) (TPtr (TBasic BUInt)) = No.
Proof. repeat split; reflexivity. Qed.
