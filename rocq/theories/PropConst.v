(** Properties C20 and C21: integer constant expressions.

    Program: [keval] (ConstEval.v), the compile-time evaluator.  Specification:
    [ceval] (CSem.v), the value the expression has when executed. *)

From Coq Require Import ZArith List Bool Lia.
From Coq Require Import ZifyBool ZifyNat ZifyN.
From Verif Require Import Bits CTypes TypeConvModel Memory CSem IRMachine ExprCompile ArithProofs ExprSide ExprProofs.
From Verif Require Import ConstEval PropExpr.
Import ListNotations.
Open Scope Z_scope.

(** ** C20 *)

(** Full statement (false, see [c20_value_refuted]): for every integer constant
    expression [e] whose execution is defined, [keval S e = OVal (s64 v)] with [v]
    its value.  Proved: the same under [const_ok], which rules out the expressions
    whose 64-bit evaluation needs a truncation the evaluator does not perform. *)
Theorem c20_value_partial : forall S G e m v m',
  int_const e = true -> const_ok e = true -> ceval S G RV e m (Some (v, m')) ->
  keval S e = OVal (s64 v).
Proof.
  intros S G e m v m' IC OK H. apply ceval_cvalue in H; auto.
  destruct (cvalue e) as [w|] eqn:E; [|discriminate]. injection H as -> ->.
  now apply keval_value.
Qed.

(** Without unsigned operands nothing needs truncation: every subexpression has a
    type that promotes to a signed type (so _Bool, char, unsigned char, short,
    unsigned short, int, long, long long and their mixtures). *)
Fixpoint signed_only (e : expr) : bool :=
  isigned (c_promote (cit e)) &&
  match e with
  | EUn _ a | ECast _ a => signed_only a
  | EBin _ a b | ELAnd a b | ELOr a b => signed_only a && signed_only b
  | ECond c a b => signed_only c && signed_only a && signed_only b
  | _ => true
  end.

Definition sp (t : ity) : bool := isigned (c_promote t).

Lemma sp_range : forall t x, sp t = true -> in_range t x -> - 2 ^ 63 <= x < 2 ^ 63.
Proof. intros t x H R. apply promote_range in R. exact (in_range_signed _ _ H R). Qed.

Lemma sp_common : forall a b, sp a = true -> sp b = true -> isigned (c_common a b) = true.
Proof. intros a b A B. destruct a; destruct b; try discriminate; reflexivity. Qed.

Lemma common_bounds : forall a b, sp a = true -> sp b = true ->
  (imin (c_common a b) <= imin (c_promote a) /\ imax (c_promote a) <= imax (c_common a b)) /\
  (imin (c_common a b) <= imin (c_promote b) /\ imax (c_promote b) <= imax (c_common a b)).
Proof.
  assert (H : forall a, forallb (fun b => if sp a then if sp b then
      (imin (c_common a b) <=? imin (c_promote a)) && (imax (c_promote a) <=? imax (c_common a b)) &&
      ((imin (c_common a b) <=? imin (c_promote b)) && (imax (c_promote b) <=? imax (c_common a b))) else true else true)
      all_ity = true) by (apply all_ity_forall; vm_compute; reflexivity).
  intros a b A B. specialize (H a). rewrite forallb_forall in H. specialize (H b (all_ity_in b)).
  rewrite A, B in H. lia.
Qed.

Lemma common_range : forall a b x, sp a = true -> sp b = true -> in_range a x -> in_range (c_common a b) x.
Proof.
  intros a b x A B R. apply promote_range in R. pose proof (common_bounds a b A B). unfold in_range in *. lia.
Qed.

Lemma common_range_r : forall a b x, sp a = true -> sp b = true -> in_range b x -> in_range (c_common a b) x.
Proof.
  intros a b x A B R. apply promote_range in R. pose proof (common_bounds a b A B). unfold in_range in *. lia.
Qed.

Lemma exact_ok : forall t h r, isigned t = true -> in_range t r -> h = r -> i64 h && same64 h r = true.
Proof.
  intros t h r S R ->. pose proof (in_range_signed _ _ S R). apply andb_true_intro. split.
  - apply in_rangeb_spec. unfold in_range, imin, imax. cbn. lia.
  - apply Z.eqb_refl.
Qed.

Lemma signed_bin_ok : forall op a b x y r, sp a = true -> sp b = true -> in_range a x -> in_range b y ->
  cbin_int op a b x y = Some r -> bin_ok op a b x y = true.
Proof.
  intros op a b x y r A B X Y H.
  pose proof (sp_common a b A B) as SG. pose proof (common_range a b x A B X) as CX.
  pose proof (common_range_r a b y A B Y) as CY.
  pose proof (cbin_range op a b x y r X Y H) as R. cbn [cit] in R.
  pose proof (sp_range a x A X). pose proof (sp_range b y B Y).
  assert (C : same64 (cconv (c_common a b) x) x && same64 (cconv (c_common a b) y) y = true).
  { rewrite (cconv_id _ _ CX), (cconv_id _ _ CY). unfold same64. now rewrite !Z.eqb_refl. }
  assert (W : forall z, wrap (c_common a b) z = Some r -> z = r).
  { intros z E. unfold wrap in E. rewrite SG in E. destruct (in_rangeb _ z); now inversion E. }
  unfold bin_ok. cbv zeta. rewrite C.
  destruct op; cbn [andb]; auto; rewrite ?H, ?SG; cbn [class_of] in R.
  - rewrite !s64_small by lia. apply (exact_ok (c_common a b)); auto. unfold cbin_int in H. cbn [class_of c_arith] in H.
    rewrite (cconv_id _ _ CX), (cconv_id _ _ CY) in H. now apply W.
  - rewrite !s64_small by lia. apply (exact_ok (c_common a b)); auto. unfold cbin_int in H. cbn [class_of c_arith] in H.
    rewrite (cconv_id _ _ CX), (cconv_id _ _ CY) in H. now apply W.
  - rewrite !s64_small by lia. apply (exact_ok (c_common a b)); auto. unfold cbin_int in H. cbn [class_of c_arith] in H.
    rewrite (cconv_id _ _ CX), (cconv_id _ _ CY) in H. now apply W.
  - rewrite !s64_small by lia. unfold cbin_int in H. cbn [class_of] in H. unfold c_shift in H.
    destruct ((0 <=? y) && (y <? iwidth (c_promote a))); [|discriminate]. unfold sp in A. rewrite A in H.
    destruct ((0 <=? x) && in_rangeb (c_promote a) (x * 2 ^ y)) eqn:Q; [|discriminate].
    apply andb_prop in Q. destruct Q as [-> Q]. injection H as <-.
    apply (exact_ok (c_promote a)); auto.
  - unfold sp in A. rewrite A. reflexivity.
Qed.

Lemma signed_un_ok : forall op a x r, sp a = true -> in_range a x -> cun op (TInt a) x = Some r -> un_ok op a x = true.
Proof.
  intros op a x r A X H. pose proof (sp_range a x A X) as RX.
  destruct op; unfold un_ok; rewrite ?H; auto; cbn [cun] in H; rewrite ?s64_small by lia.
  - unfold wrap in H. unfold sp in A. rewrite A in H.
    destruct (in_rangeb (c_promote a) (- x)) eqn:Q; [|discriminate]. injection H as <-.
    apply in_rangeb_spec in Q. apply (exact_ok (c_promote a)); auto.
  - injection H as <-. apply promote_range in X.
    assert (in_range (c_promote a) (Z.lnot x)).
    { unfold sp in A. unfold in_range, imin, imax in *. rewrite A in *. unfold Z.lnot. lia. }
    rewrite cconv_id by assumption. apply Z.eqb_refl.
Qed.

Lemma signed_const_ok : forall e v, int_const e = true -> signed_only e = true -> cvalue e = Some v -> const_ok e = true.
Proof.
  assert (SP : forall e, signed_only e = true -> sp (cit e) = true).
  { intros e H. destruct e; cbn [signed_only] in H; apply andb_prop in H; tauto. }
  induction e; intros r IC SO H; cbn [int_const] in IC; try discriminate;
    cbn [signed_only] in SO; apply andb_prop in SO; destruct SO as [SN SO]; cbn [cvalue] in H; cbn [const_ok]; auto.
  - apply bindo_some in H. destruct H as (x & Ex & H). rewrite (IHe x), Ex by auto. cbn [andb].
    apply (signed_un_ok op (cit e) x r); auto. now apply cvalue_range.
  - apply andb_prop in IC. destruct IC as [I1 I2]. apply andb_prop in SO. destruct SO as [S1 S2].
    apply bindo_some in H. destruct H as (x & Ex & H). apply bindo_some in H. destruct H as (y & Ey & H).
    rewrite (IHe1 x), (IHe2 y), Ex, Ey by auto. cbn [andb].
    apply (signed_bin_ok op (cit e1) (cit e2) x y r); auto; now apply cvalue_range.
  - apply andb_prop in IC. destruct IC as [I1 I2]. apply andb_prop in SO. destruct SO as [S1 S2].
    apply bindo_some in H. destruct H as (x & Ex & H). rewrite (IHe1 x), Ex by auto. cbn [andb].
    destruct (x =? 0); auto. apply bindo_some in H. destruct H as (y & Ey & H). eauto.
  - apply andb_prop in IC. destruct IC as [I1 I2]. apply andb_prop in SO. destruct SO as [S1 S2].
    apply bindo_some in H. destruct H as (x & Ex & H). rewrite (IHe1 x), Ex by auto. cbn [andb].
    destruct (x =? 0); auto. apply bindo_some in H. destruct H as (y & Ey & H). eauto.
  - apply andb_prop in IC. destruct IC as [IC I3]. apply andb_prop in IC. destruct IC as [I1 I2].
    apply andb_prop in SO. destruct SO as [SO S3]. apply andb_prop in SO. destruct SO as [S1 S2].
    apply bindo_some in H. destruct H as (x & Ex & H). rewrite (IHe1 x), Ex by auto. cbn [andb].
    apply bindo_some in H. destruct H as (w & Ew & H). cbv zeta.
    destruct (x =? 0); rewrite Ew; [rewrite (IHe3 w) by auto|rewrite (IHe2 w) by auto]; cbn [andb];
      (rewrite cconv_id; [apply Z.eqb_refl|]).
    + apply common_range_r; auto. now apply cvalue_range.
    + apply common_range; auto. now apply cvalue_range.
  - destruct t; try discriminate. apply bindo_some in H. destruct H as (x & Ex & H). eauto.
Qed.

(** Expressions without unsigned operands: no side condition on values. *)
Theorem c20_signed_value : forall S G e m v m',
  int_const e = true -> signed_only e = true -> ceval S G RV e m (Some (v, m')) ->
  keval S e = OVal v.
Proof.
  intros S G e m v m' IC SO H. pose proof H as H0. apply ceval_cvalue in H0; auto.
  destruct (cvalue e) as [w|] eqn:E; [|discriminate]. injection H0 as -> ->.
  rewrite (c20_value_partial S G e m w m); auto.
  - f_equal. apply s64_small. pose proof (cvalue_range e w IC E) as R.
    apply (sp_range (cit e)); auto. destruct e; cbn [signed_only] in SO; apply andb_prop in SO; tauto.
  - eapply signed_const_ok; eauto.
Qed.

(** The value folded at compile time is the one the translated expression leaves on
    the operand stack. *)
Theorem c20_same_as_compiled_partial : forall S G e m v m',
  int_const e = true -> const_ok e = true -> expr_ok S e = true -> ceval S G RV e m (Some (v, m')) ->
  exists z, keval S e = OVal z /\
  forall pos, exists code, translate S pos e = Some code /\
    forall stk, runs G pos code stk m (u64 z :: stk) m.
Proof.
  intros S G e m v m' IC OK EO H. exists (s64 v). split; [eapply c20_value_partial; eauto|].
  pose proof (ceval_cvalue S G e m _ IC H) as E.
  assert (NU : ~ ceval S G RV e m None).
  { intro U. apply ceval_cvalue in U; auto. rewrite <- E in U. discriminate. }
  destruct (c22_expression_value_and_effects S G e _ m (cit_ctype S e IC) EO NU) as (w & m1 & H1 & _ & K).
  apply ceval_cvalue in H1; auto. rewrite <- E in H1. injection H1 as -> ->.
  destruct (cvalue e); [|discriminate]. injection E as -> ->. intro pos.
  destruct (K pos) as (code & T & R). exists code. split; auto. intro stk. rewrite u64_s64. apply R.
Qed.

(** *** Concrete cases *)
Definition ci (z : Z) : expr := EConst IInt z.
Definition cu (z : Z) : expr := EConst IUInt z.

(* sizeof-style arithmetic with a short-circuited division by zero:
   (3 * -7 + (5 << 4)) % 8 == 3 || 1 / 0 *)
Definition ex_s : expr :=
  ELOr (EBin BEq (EBin BMod (EBin BAdd (EBin BMul (ci 3) (EUn UMinus (ci 7))) (EBin BShl (ci 5) (ci 4))) (ci 8)) (ci 3))
       (EBin BDiv (ci 1) (ci 0)).
Example ex_s_hyps : int_const ex_s = true /\ signed_only ex_s = true /\ ceval S0 G0 RV ex_s m0 (Some (1, m0)).
Proof. repeat split. exact (cvalue_ceval S0 G0 ex_s m0 eq_refl). Qed.
Example ex_s_value : keval S0 ex_s = OVal 1.
Proof. reflexivity. Qed.

(* ~0ul / 3 > 5 ? (unsigned char)300 : 2u : unsigned operands within const_ok *)
Definition ex_u : expr :=
  ECond (EBin BGt (EBin BDiv (EUn UNot (EConst IULong 0)) (EConst IULong 3)) (ci 5))
        (ECast (TInt IUChar) (ci 300)) (cu 2).
Example ex_u_hyps : int_const ex_u = true /\ const_ok ex_u = true /\ ceval S0 G0 RV ex_u m0 (Some (44, m0)).
Proof. repeat split. exact (cvalue_ceval S0 G0 ex_u m0 eq_refl). Qed.

Lemma has_value : forall S G e m v, int_const e = true -> cvalue e = Some v -> ceval S G RV e m (Some (v, m)).
Proof. intros S G e m v IC E. pose proof (cvalue_ceval S G e m IC) as H. now rewrite E in H. Qed.

(** *** Refutations of the full statement.  Each pair is the value C prescribes and
    the one the evaluator returns. *)
Theorem c20_value_refuted : exists es : list (expr * Z * Z), es <> nil /\
  forall e v k, In (e, v, k) es ->
    int_const e = true /\ ceval S0 G0 RV e m0 (Some (v, m0)) /\ keval S0 e = OVal k /\ k <> s64 v.
Proof.
  exists [ (* ~0u == 0xffffffffu *)
    (EBin BEq (EUn UNot (cu 0)) (cu 4294967295), 1, 0);
           (* 0xffffffffu + 1 == 0 *)
    (EBin BEq (EBin BAdd (cu 4294967295) (ci 1)) (ci 0), 1, 0);
           (* (0u - 1) / 2 *)
    (EBin BDiv (EBin BSub (cu 0) (ci 1)) (ci 2), 2147483647, 9223372036854775807);
           (* -1 == 0xffffffffu *)
    (EBin BEq (EUn UMinus (ci 1)) (cu 4294967295), 1, 0);
           (* -8 >> 1u *)
    (EBin BShr (EUn UMinus (ci 8)) (cu 1), -4, 9223372036854775804);
           (* (0 ? 0u : -1) > 0 *)
    (ECond (ci 0) (cu 0) (EUn UMinus (ci 1)), 4294967295, -1) ].
  split; [discriminate|].
  intros e v k H. cbn [In] in H.
  repeat (destruct H as [H|H]; [injection H as <- <- <-|]); [| | | | | |contradiction];
  (split; [reflexivity|]; split;
    [apply has_value; vm_compute; reflexivity|split; [vm_compute; reflexivity|vm_compute; discriminate]]).
Qed.

(** ** C21 *)

(** Full statement (false, see [c21_no_undefined_behaviour_refuted]): for every
    integer constant expression, [keval S e <> OUB].  Proved: for the expressions
    that have a value and satisfy [const_ok], in particular every defined expression
    without unsigned operands. *)
Theorem c21_no_undefined_behaviour_partial : forall S G e m v m',
  int_const e = true -> const_ok e = true \/ signed_only e = true ->
  ceval S G RV e m (Some (v, m')) -> keval S e <> OUB.
Proof.
  intros S G e m v m' IC [OK|SO] H.
  - erewrite c20_value_partial by eauto. discriminate.
  - erewrite c20_signed_value by eauto. discriminate.
Qed.

(** Expressions with or without a value: comparisons, bit operations, casts,
    division with an unsigned common type (by zero included), logical and conditional
    operators never make the compiler misbehave. *)
Fixpoint harmless (e : expr) : bool :=
  match e with
  | EUn op a => match op with UMinus => false | _ => harmless a end
  | EBin op a b =>
    match op with
    | BAdd | BSub | BMul | BMod | BShl | BShr => false
    | BDiv => harmless a && harmless b && negb (isigned (c_common (cit a) (cit b)))
    | _ => harmless a && harmless b
    end
  | ELAnd a b | ELOr a b => harmless a && harmless b
  | ECond c a b => harmless c && harmless a && harmless b
  | ECast _ a => harmless a
  | _ => true
  end.

Lemma obind_no_ub : forall o f, o <> OUB -> (forall x, f x <> OUB) -> obind o f <> OUB.
Proof. intros [] f H F; cbn; auto. Qed.

Theorem c21_harmless_operators : forall S e, int_const e = true -> harmless e = true -> keval S e <> OUB.
Proof.
  intros S e. induction e; intros IC H; cbn [int_const] in IC; try discriminate; cbn [harmless] in H; cbn [keval].
  - destruct op; try discriminate; apply obind_no_ub; auto; intro; cbn; discriminate.
  - apply andb_prop in IC. destruct IC as [I1 I2].
    assert (HH : harmless e1 = true /\ harmless e2 = true).
    { destruct op; try discriminate; apply andb_prop in H; try tauto.
      destruct H as [H _]. now apply andb_prop in H. }
    destruct HH as [H1 H2]. apply obind_no_ub; auto. intro x. apply obind_no_ub; auto. intro y.
    rewrite common_signed by assumption.
    destruct op; try discriminate; cbn [k_binary]; try discriminate.
    apply andb_prop in H. destruct H as [_ H]. destruct (y =? 0); [discriminate|].
    destruct (isigned _); [discriminate|]. unfold h_unsigned. discriminate.
  - apply andb_prop in IC. destruct IC as [I1 I2]. apply andb_prop in H. destruct H as [H1 H2].
    apply obind_no_ub; auto. intro x. destruct (x =? 0); [discriminate|].
    apply obind_no_ub; auto. intro; discriminate.
  - apply andb_prop in IC. destruct IC as [I1 I2]. apply andb_prop in H. destruct H as [H1 H2].
    apply obind_no_ub; auto. intro x. destruct (x =? 0); [|discriminate].
    apply obind_no_ub; auto. intro; discriminate.
  - apply andb_prop in IC. destruct IC as [IC I3]. apply andb_prop in IC. destruct IC as [I1 I2].
    apply andb_prop in H. destruct H as [H H3]. apply andb_prop in H. destruct H as [H1 H2].
    apply obind_no_ub; auto. intro x. destruct (x =? 0); auto.
  - destruct t; try discriminate. apply obind_no_ub; auto. intro; discriminate.
Qed.

(* (unsigned char)(5u / 0u) | ~3 is diagnosed *)
Example ex_harmless :
  let e := EBin BOr (ECast (TInt IUChar) (EBin BDiv (cu 5) (cu 0))) (EUn UNot (ci 3)) in
  int_const e = true /\ harmless e = true /\ keval S0 e = OErr.
Proof. repeat split. Qed.

(** 1 % 0, LONG_MIN / -1, 1 << 64, 0x7fffffffffffffffUL + 1. *)
Theorem c21_no_undefined_behaviour_refuted : exists es : list expr, length es = 4%nat /\
  forall e, In e es -> int_const e = true /\ keval S0 e = OUB.
Proof.
  exists [ EBin BMod (ci 1) (ci 0);
           EBin BDiv (EBin BSub (EUn UMinus (EConst ILong 9223372036854775807)) (ci 1)) (EUn UMinus (ci 1));
           EBin BShl (ci 1) (ci 64);
           EBin BAdd (EConst IULong 9223372036854775807) (ci 1) ].
  split; [reflexivity|]. intros e H. cbn [In] in H.
  repeat (destruct H as [<-|H]; [split; vm_compute; reflexivity|]). destruct H.
Qed.

Print Assumptions c20_value_partial.
Print Assumptions c20_signed_value.
Print Assumptions c20_same_as_compiled_partial.
Print Assumptions c20_value_refuted.
Print Assumptions c21_no_undefined_behaviour_partial.
Print Assumptions c21_harmless_operators.
Print Assumptions c21_no_undefined_behaviour_refuted.
