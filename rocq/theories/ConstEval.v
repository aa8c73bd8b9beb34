(** Model of the constant-expression evaluator for integer expressions
    (source/ast/constant_expression/*.c) and its agreement with the C17 value of the
    expression. *)
From Coq Require Import ZArith List Bool Lia.
From Coq Require Import ZifyBool ZifyNat ZifyN.
From Verif Require Import Bits CTypes TypeConvModel Memory CSem ExprCompile ArithProofs ExprProofs.
Import ListNotations.
Open Scope Z_scope.

(** ** Model *)

(** Result of kefir_ast_constant_expression_value_evaluate restricted to the
    integer class: the [integer] member of the value (the union of an int64 and a
    uint64, written here as its signed reading), a diagnosed failure
    (KEFIR_NOT_CONSTANT), or undefined behaviour of the compiler itself while it
    evaluates the host C expression. *)
Inductive outcome : Type := OVal (z : Z) | OErr | OUB.

Definition obind (o : outcome) (f : Z -> outcome) : outcome :=
  match o with OVal z => f z | OErr => OErr | OUB => OUB end.

(** Host arithmetic on kefir_int64_t / kefir_uint64_t. *)
Definition h_signed (z : Z) : outcome := if in_rangeb ILong z then OVal z else OUB.
Definition h_unsigned (z : Z) : outcome := OVal (s64 z).
Definition h_count (c : Z) (o : outcome) : outcome :=
  if (0 <=? c) && (c <? 64) then o else OUB.

(** source/ast/constant_expression/binary_operation.c:146-330; [sg] is
    common_type_signed_integer (line 137).  Address and floating-point operands are
    not modelled. *)
Definition k_binary (op : binop) (sg : bool) (x y : Z) : outcome :=
  match op with
  | BAdd => h_signed (x + y)                                       (* 159 *)
  | BSub => h_signed (x - y)                                       (* 182 *)
  | BMul => h_signed (x * y)                                       (* 192 *)
  | BDiv => if y =? 0 then OErr                                    (* 201, 207 *)
            else if sg then h_signed (Z.quot x y)                  (* 205 *)
            else h_unsigned (u64 x / u64 y)                        (* 211 *)
  | BMod => if y =? 0 then OUB                                     (* 218, 220: no check *)
            else if sg then
              (if in_rangeb ILong (Z.quot x y) then OVal (Z.rem x y) else OUB)
            else h_unsigned (u64 x mod u64 y)
  | BShl => h_count y (if sg then
                         (if 0 <=? x then h_signed (x * 2 ^ y) else OUB)  (* 227 *)
                       else h_unsigned (u64 x * 2 ^ y))                   (* 229 *)
  | BShr => h_count y (if sg then OVal (x / 2 ^ y)                 (* 236 *)
                       else h_unsigned (u64 x / 2 ^ y))            (* 238 *)
  | BLt => OVal (b2z (if sg then x <? y else u64 x <? u64 y))      (* 249-253 *)
  | BLe => OVal (b2z (if sg then x <=? y else u64 x <=? u64 y))
  | BGt => OVal (b2z (if sg then y <? x else u64 y <? u64 x))
  | BGe => OVal (b2z (if sg then y <=? x else u64 y <=? u64 x))
  | BEq => OVal (b2z (x =? y))                                     (* 305 *)
  | BNe => OVal (b2z (negb (x =? y)))                              (* 317 *)
  | BAnd => OVal (Z.land x y)
  | BOr => OVal (Z.lor x y)
  | BXor => OVal (Z.lxor x y)
  end.

(** source/ast/constant_expression/unary_operation.c:67-117. *)
Definition k_unary (op : unop) (x : Z) : outcome :=
  match op with
  | UPlus => OVal x
  | UMinus => h_signed (- x)
  | UNot => OVal (Z.lnot x)
  | ULNot => OVal (b2z (x =? 0))
  end.

(** cast_integral_type, source/ast/constant_expression/cast_operator.c:25-85. *)
Definition k_cast (t : ity) (x : Z) : Z :=
  if ity_eqb t IBool then b2z (negb (x =? 0))
  else if k_is_signed t then
    (if isize t =? 8 then x else s (8 * isize t) x)
  else
    (if isize t =? 8 then x else u (8 * isize t) x).

Section Evaluator.
Variable S : senv.

(** The integer type the analyzer annotated the node with; the default is not used
    for analyzed integer expressions. *)
Definition kit (e : expr) : ity :=
  match ktype_of S e with Some (TInt i) => i | _ => IInt end.

(** kefir_ast_constant_expression_value_evaluate: constant.c:27,
    unary_operation.c:51, binary_operation.c:118, conditional_operator.c:27,
    cast_operator.c:175.  The remaining node kinds raise KEFIR_NOT_CONSTANT
    (constant_expression.c, visit_non_constant); address constants are outside the
    model. *)
Fixpoint keval (e : expr) : outcome :=
  match e with
  | EConst i v => OVal (s64 v)
  | EUn op a => obind (keval a) (k_unary op)
  | EBin op a b =>
    obind (keval a) (fun x => obind (keval b) (fun y =>
      k_binary op (k_is_signed (kcommon (kit a) (kit b))) x y))
  | ELAnd a b =>
    obind (keval a) (fun x =>
      if x =? 0 then OVal 0 else obind (keval b) (fun y => OVal (b2z (negb (y =? 0)))))
  | ELOr a b =>
    obind (keval a) (fun x =>
      if x =? 0 then obind (keval b) (fun y => OVal (b2z (negb (y =? 0)))) else OVal 1)
  | ECond c a b => obind (keval c) (fun x => if x =? 0 then keval b else keval a)
  | ECast (TInt t) a => obind (keval a) (fun x => OVal (k_cast t x))
  | _ => OErr
  end.

(** ** Specification: the value of an integer constant expression (6.6p2: an
    expression that can be evaluated during translation has the value it would have
    at run time), from the operator definitions of CSem. *)

(** Integer constant expressions: integer constants in the range of their type
    under the operators and casts to integer types (6.6p6). *)
Fixpoint int_const (e : expr) : bool :=
  match e with
  | EConst i v => in_rangeb i v
  | EUn _ a => int_const a
  | EBin _ a b | ELAnd a b | ELOr a b => int_const a && int_const b
  | ECond c a b => int_const c && int_const a && int_const b
  | ECast (TInt _) a => int_const a
  | _ => false
  end.

Fixpoint cit (e : expr) : ity :=
  match e with
  | EConst i _ => i
  | EUn ULNot _ => IInt
  | EUn _ a => c_promote (cit a)
  | EBin op a b =>
    match class_of op with
    | CArith | CBits => c_common (cit a) (cit b)
    | CShift => c_promote (cit a)
    | CRel => IInt
    end
  | ECond _ a b => c_common (cit a) (cit b)
  | ECast (TInt t) _ => t
  | _ => IInt
  end.

(** [None]: undefined behaviour, the expression has no value. *)
Fixpoint cvalue (e : expr) : option Z :=
  match e with
  | EConst _ v => Some v
  | EUn op a => bindo (cvalue a) (cun op (TInt (cit a)))
  | EBin op a b =>
    bindo (cvalue a) (fun x => bindo (cvalue b) (fun y => cbin_int op (cit a) (cit b) x y))
  | ELAnd a b =>
    bindo (cvalue a) (fun x =>
      if x =? 0 then Some 0 else bindo (cvalue b) (fun y => Some (b2z (negb (y =? 0)))))
  | ELOr a b =>
    bindo (cvalue a) (fun x =>
      if x =? 0 then bindo (cvalue b) (fun y => Some (b2z (negb (y =? 0)))) else Some 1)
  | ECond c a b =>
    bindo (cvalue c) (fun x =>
      bindo (if x =? 0 then cvalue b else cvalue a)
            (fun w => Some (cconv (c_common (cit a) (cit b)) w)))
  | ECast (TInt t) a => bindo (cvalue a) (fun x => Some (cconv t x))
  | _ => None
  end.

(** ** Where the evaluator is right

    The evaluator computes every operator on 64-bit values and never converts an
    operand or a result to its 32-bit type.  [const_ok] asks, of each operand that
    is evaluated, that these omitted conversions would not have changed its 64-bit
    pattern, and that the host operation stays inside int64. *)
Definition same64 (x y : Z) : bool := u64 x =? u64 y.
Definition i64 (z : Z) : bool := in_rangeb ILong z.

Definition bin_ok (op : binop) (a b : ity) (x y : Z) : bool :=
  let t := c_common a b in
  let conv := same64 (cconv t x) x && same64 (cconv t y) y in
  let exact h := match cbin_int op a b x y with Some r => i64 h && same64 h r | None => false end in
  match op with
  | BAdd => conv && exact (s64 x + s64 y)
  | BSub => conv && exact (s64 x - s64 y)
  | BMul => conv && exact (s64 x * s64 y)
  | BShl => if isigned t then (0 <=? s64 x) && exact (s64 x * 2 ^ y)
            else match cbin_int op a b x y with Some r => same64 (u64 x * 2 ^ y) r | None => false end
  | BShr => Bool.eqb (isigned t) (isigned (c_promote a)) || (0 <=? s64 x)
  | _ => conv
  end.

Definition un_ok (op : unop) (a : ity) (x : Z) : bool :=
  match op with
  | UMinus => match cun op (TInt a) x with Some r => i64 (- s64 x) && same64 (- s64 x) r | None => false end
  | UNot => match cun op (TInt a) x with Some r => same64 (Z.lnot x) r | None => false end
  | UPlus | ULNot => true
  end.

Fixpoint const_ok (e : expr) : bool :=
  match e with
  | EUn op a => const_ok a && match cvalue a with Some x => un_ok op (cit a) x | None => false end
  | EBin op a b =>
    const_ok a && const_ok b &&
    match cvalue a, cvalue b with Some x, Some y => bin_ok op (cit a) (cit b) x y | _, _ => false end
  | ELAnd a b =>
    const_ok a && match cvalue a with Some x => if x =? 0 then true else const_ok b | None => false end
  | ELOr a b =>
    const_ok a && match cvalue a with Some x => if x =? 0 then const_ok b else true | None => false end
  | ECond c a b =>
    const_ok c &&
    match cvalue c with
    | Some x =>
      let br := if x =? 0 then b else a in
      const_ok br &&
      match cvalue br with Some w => same64 (cconv (c_common (cit a) (cit b)) w) w | None => false end
    | None => false
    end
  | ECast _ a => const_ok a
  | _ => true
  end.

(** ** Types *)

Lemma cit_ctype : forall e, int_const e = true -> ctype_of S e = Some (TInt (cit e)).
Proof.
  induction e; intro H; cbn [int_const] in H; try discriminate; cbn [ctype_of cit].
  - now rewrite H.
  - rewrite IHe by assumption. destruct op; reflexivity.
  - apply andb_prop in H. destruct H as [H1 H2]. rewrite IHe1, IHe2 by assumption.
    cbn [decay]. unfold cbin_type. destruct (class_of op); reflexivity.
  - apply andb_prop in H. destruct H as [H1 H2]. rewrite IHe1, IHe2 by assumption. reflexivity.
  - apply andb_prop in H. destruct H as [H1 H2]. rewrite IHe1, IHe2 by assumption. reflexivity.
  - apply andb_prop in H. destruct H as [H H3]. apply andb_prop in H. destruct H as [H1 H2].
    rewrite IHe1, IHe2, IHe3 by assumption. reflexivity.
  - destruct t; try discriminate. rewrite IHe by assumption. reflexivity.
Qed.

Lemma kit_sim : forall e, int_const e = true -> ity_sim (kit e) (cit e) = true.
Proof.
  intros e H. destruct (ktype_sim S e _ (cit_ctype e H)) as (k & K & T & _).
  unfold kit. rewrite K. destruct k; simpl in T; try discriminate. exact T.
Qed.

Lemma common_signed : forall a b, int_const a = true -> int_const b = true ->
  k_is_signed (kcommon (kit a) (kit b)) = isigned (c_common (cit a) (cit b)).
Proof.
  intros a b A B. rewrite k_signed. apply isigned_sim.
  eapply ity_sim_trans; [apply kcommon_sim|]. apply c_common_sim; now apply kit_sim.
Qed.

(** ** Ranges *)

Lemma range_arith : forall op t x y r, wide t = true -> in_range t x -> in_range t y ->
  c_arith op t x y = Some r -> in_range t r.
Proof.
  intros op t x y r W X Y H. destruct op; cbn [c_arith] in H; try discriminate.
  - now apply wrap_ok in H.
  - now apply wrap_ok in H.
  - now apply wrap_ok in H.
  - destruct (y =? 0); [discriminate|]. now apply wrap_ok in H.
  - destruct (y =? 0) eqn:Y0; [discriminate|]. destruct (in_rangeb t (x ÷ y)) eqn:Q; [|discriminate].
    injection H as <-. destruct (isigned t) eqn:SG.
    + apply rem_range_s; auto; lia.
    + assert (0 <= x) by (unfold in_range, imin in X; rewrite SG in X; lia).
      assert (0 < y) by (unfold in_range, imin in Y; rewrite SG in Y; lia).
      unfold in_range, imin in *. rewrite SG in *.
      pose proof (Z.rem_bound_pos x y ltac:(lia) ltac:(lia)). lia.
  - injection H as <-. now apply bits_range.
  - injection H as <-. now apply bits_range.
  - injection H as <-. now apply bits_range.
Qed.

Lemma promote_range : forall t x, in_range t x -> in_range (c_promote t) x.
Proof. intros t x H. destruct t; unfold in_range, imin, imax in *; cbn in *; lia. Qed.

Lemma cbin_range : forall op a b x y r, in_range a x -> in_range b y ->
  cbin_int op a b x y = Some r -> in_range (cit (EBin op (EConst a x) (EConst b y))) r.
Proof.
  intros op a b x y r X Y H. cbn [cit]. unfold cbin_int in H.
  destruct (class_of op) eqn:C.
  - eapply range_arith; [| | |exact H]; try apply cconv_range. apply wide_common.
  - eapply range_arith; [| | |exact H]; try apply cconv_range. apply wide_common.
  - unfold c_shift in H. destruct ((0 <=? y) && (y <? iwidth (c_promote a))) eqn:B; [|discriminate].
    pose proof (promote_range _ _ X).
    destruct op; try discriminate.
    + destruct (isigned (c_promote a)) eqn:SG.
      * destruct ((0 <=? x) && in_rangeb (c_promote a) (x * 2 ^ y)) eqn:R; [|discriminate].
        apply andb_prop in R. destruct R as [_ R]. apply in_rangeb_spec in R. now injection H as <-.
      * injection H as <-. apply in_range_mod; auto. apply wide_promote.
    + injection H as <-. apply div_pow_range; auto; [apply wide_promote|lia].
  - destruct op; try discriminate; cbn [c_rel] in H; injection H as <-; apply b2z_range.
Qed.

Lemma cun_range : forall op a x r, in_range a x -> cun op (TInt a) x = Some r ->
  in_range (cit (EUn op (EConst a x))) r.
Proof.
  intros op a x r X H. destruct op; cbn [cit cun] in *.
  - injection H as <-. now apply promote_range.
  - apply wrap_ok in H; [tauto|apply wide_promote].
  - injection H as <-. apply cconv_range.
  - injection H as <-. apply b2z_range.
Qed.

Lemma cvalue_range : forall e v, int_const e = true -> cvalue e = Some v -> in_range (cit e) v.
Proof.
  assert (BI : forall (o : option Z) (f : Z -> option Z) v, bindo o f = Some v -> exists x, o = Some x /\ f x = Some v).
  { intros o f v H. destruct o; [eauto|discriminate]. }
  induction e; intros r IC H; cbn [int_const] in IC; try discriminate; cbn [cvalue] in H.
  - injection H as <-. now apply in_rangeb_spec.
  - apply BI in H. destruct H as (x & E & H). apply (cun_range op (cit e) x r) in H; auto.
  - apply andb_prop in IC. destruct IC as [I1 I2].
    apply BI in H. destruct H as (x & E & H). apply BI in H. destruct H as (y & F & H).
    apply (cbin_range op (cit e1) (cit e2) x y r) in H; auto.
  - apply andb_prop in IC. destruct IC as [I1 I2].
    apply BI in H. destruct H as (x & E & H). destruct (x =? 0).
    + injection H as <-. apply (b2z_range false).
    + apply BI in H. destruct H as (y & F & H). injection H as <-. apply b2z_range.
  - apply andb_prop in IC. destruct IC as [I1 I2].
    apply BI in H. destruct H as (x & E & H). destruct (x =? 0).
    + apply BI in H. destruct H as (y & F & H). injection H as <-. apply b2z_range.
    + injection H as <-. apply (b2z_range true).
  - apply BI in H. destruct H as (x & E & H). apply BI in H. destruct H as (y & F & H).
    injection H as <-. apply cconv_range.
  - destruct t; try discriminate. apply BI in H. destruct H as (x & E & H). injection H as <-. apply cconv_range.
Qed.

(** ** Values *)

Lemma s64_range : forall z, - 2 ^ 63 <= s64 z < 2 ^ 63.
Proof. intro z. apply (s_range 64 z). lia. Qed.

Lemma s64_eqm : forall a b, u64 a = u64 b -> s64 a = s64 b.
Proof. intros a b H. apply s_compat; [lia|]. exact H. Qed.

Lemma same64_spec : forall a b, same64 a b = true -> u64 a = u64 b.
Proof. intros a b H. now apply Z.eqb_eq. Qed.

Lemma i64_spec : forall z, i64 z = true -> - 2 ^ 63 <= z < 2 ^ 63.
Proof. intros z H. apply in_rangeb_spec in H. unfold in_range, imin, imax in H. cbn in H. lia. Qed.

Lemma s64_small : forall z, - 2 ^ 63 <= z < 2 ^ 63 -> s64 z = z.
Proof. intros. apply s_small; [lia|]. cbn. lia. Qed.

Lemma h_signed_ok : forall h r, i64 h && same64 h r = true -> h_signed h = OVal (s64 r).
Proof.
  intros h r H. apply andb_prop in H. destruct H as [R E]. unfold h_signed. unfold i64 in R. rewrite R.
  f_equal. rewrite <- (s64_eqm h r) by now apply same64_spec. symmetry. apply s64_small. now apply i64_spec.
Qed.

Lemma s64_zero : forall t v, in_range t v -> (s64 v =? 0) = (v =? 0).
Proof.
  intros t v R. apply in_range_64 in R.
  assert (u64 v = 0 <-> v = 0).
  { split; [|intros ->; reflexivity]. intro Z0. unfold u64, u in Z0.
    apply Z.mod_divide in Z0; [|lia]. destruct Z0 as [k K]. lia. }
  assert (s64 v = 0 <-> u64 v = 0).
  { split; intro E; [rewrite <- u64_s64, E; reflexivity|].
    change 0 with (s64 0). apply s64_eqm. exact E. }
  destruct (Z.eqb_spec (s64 v) 0), (Z.eqb_spec v 0); auto; tauto.
Qed.

Lemma s64_land : forall x y, Z.land (s64 x) (s64 y) = s64 (Z.land x y).
Proof.
  intros. rewrite <- (s64_small (Z.land (s64 x) (s64 y))).
  - apply s_compat; [lia|]. apply eqm_land; try lia; apply s_eqm; lia.
  - apply (land_s_range 64); [lia| |]; apply s64_range.
Qed.
Lemma s64_lor : forall x y, Z.lor (s64 x) (s64 y) = s64 (Z.lor x y).
Proof.
  intros. rewrite <- (s64_small (Z.lor (s64 x) (s64 y))).
  - apply s_compat; [lia|]. apply eqm_lor; try lia; apply s_eqm; lia.
  - apply (lor_s_range 64); [lia| |]; apply s64_range.
Qed.
Lemma s64_lxor : forall x y, Z.lxor (s64 x) (s64 y) = s64 (Z.lxor x y).
Proof.
  intros. rewrite <- (s64_small (Z.lxor (s64 x) (s64 y))).
  - apply s_compat; [lia|]. apply eqm_lxor; try lia; apply s_eqm; lia.
  - apply (lxor_s_range 64); [lia| |]; apply s64_range.
Qed.
Lemma s64_lnot : forall x, Z.lnot (s64 x) = s64 (Z.lnot x).
Proof.
  intros. pose proof (s64_range x).
  rewrite <- (s64_small (Z.lnot (s64 x))) by (unfold Z.lnot; lia).
  apply s_compat; [lia|]. apply eqm_lnot; [lia|]. apply s_eqm; lia.
Qed.

Lemma k_unary_ok : forall op a x r, in_range a x -> cun op (TInt a) x = Some r ->
  un_ok op a x = true -> k_unary op (s64 x) = OVal (s64 r).
Proof.
  intros op a x r X H O. destruct op; cbn [k_unary un_ok] in *.
  - cbn [cun] in H. now injection H as <-.
  - rewrite H in O. now apply h_signed_ok.
  - rewrite H in O. apply same64_spec in O. rewrite s64_lnot. f_equal. now apply s64_eqm.
  - cbn [cun] in H. injection H as <-. erewrite s64_zero by exact X. destruct (x =? 0); reflexivity.
Qed.

(** Operands whose pattern survives the conversion can be replaced by the converted
    ones. *)
Lemma rel_sg : forall (t : ity) x y, in_range t x -> in_range t y ->
  if isigned t then s64 x = x /\ s64 y = y else u64 (s64 x) = x /\ u64 (s64 y) = y.
Proof.
  intros t x y X Y. destruct (isigned t) eqn:SG.
  - pose proof (in_range_signed _ _ SG X). pose proof (in_range_signed _ _ SG Y). now rewrite !s64_small.
  - pose proof (in_range_unsigned _ _ SG X). pose proof (in_range_unsigned _ _ SG Y).
    now rewrite !u64_s64, !u64_id.
Qed.

Lemma s64_b2z : forall b, s64 (b2z b) = b2z b.
Proof. intros []; reflexivity. Qed.

Lemma k_div_ok : forall t x y r, wide t = true -> in_range t x -> in_range t y ->
  c_arith BDiv t x y = Some r -> k_binary BDiv (isigned t) (s64 x) (s64 y) = OVal (s64 r).
Proof.
  intros t x y r W X Y H. cbn [c_arith k_binary] in *.
  erewrite s64_zero by exact Y. destruct (Z.eqb_spec y 0); [discriminate|].
  pose proof (rel_sg t x y X Y) as R. destruct (isigned t) eqn:SG.
  - destruct R as [-> ->]. unfold wrap in H. rewrite SG in H.
    destruct (in_rangeb t (x ÷ y)) eqn:Q; [|discriminate]. injection H as <-.
    apply in_rangeb_spec in Q. pose proof (in_range_signed _ _ SG Q).
    unfold h_signed. replace (in_rangeb ILong (x ÷ y)) with true.
    + now rewrite s64_small.
    + symmetry. apply in_rangeb_spec. unfold in_range, imin, imax. cbn. lia.
  - destruct R as [-> ->]. unfold h_unsigned. f_equal.
    pose proof (in_range_unsigned _ _ SG X). pose proof (in_range_unsigned _ _ SG Y).
    unfold wrap in H. rewrite SG in H. injection H as <-. rewrite Z.quot_div_nonneg by lia.
    pose proof (quot_range t x y W SG X Y ltac:(lia)) as Q.
    rewrite Z.mod_small; auto. rewrite Z.quot_div_nonneg in Q by lia. 
    unfold in_range, imin, imax in Q. rewrite SG in Q. lia.
Qed.

Lemma k_mod_ok : forall t x y r, wide t = true -> in_range t x -> in_range t y ->
  c_arith BMod t x y = Some r -> k_binary BMod (isigned t) (s64 x) (s64 y) = OVal (s64 r).
Proof.
  intros t x y r W X Y H. pose proof (range_arith _ _ _ _ _ W X Y H) as RR.
  cbn [c_arith k_binary] in *.
  erewrite s64_zero by exact Y. destruct (Z.eqb_spec y 0); [discriminate|].
  pose proof (rel_sg t x y X Y) as R.
  destruct (in_rangeb t (x ÷ y)) eqn:Q; [|discriminate]. apply in_rangeb_spec in Q. injection H as <-.
  destruct (isigned t) eqn:SG.
  - destruct R as [-> ->]. pose proof (in_range_signed _ _ SG Q).
    replace (in_rangeb ILong (x ÷ y)) with true.
    + rewrite s64_small; auto. apply (in_range_signed t); auto.
    + symmetry. apply in_rangeb_spec. unfold in_range, imin, imax. cbn. lia.
  - destruct R as [-> ->]. unfold h_unsigned. f_equal.
    pose proof (in_range_unsigned _ _ SG X). pose proof (in_range_unsigned _ _ SG Y).
    now rewrite Z.rem_mod_nonneg by lia.
Qed.

Lemma k_rel_ok : forall op t x y r, class_of op = CRel -> in_range t x -> in_range t y ->
  c_rel op x y = Some r -> k_binary op (isigned t) (s64 x) (s64 y) = OVal (s64 r).
Proof.
  intros op t x y r C X Y H. pose proof (rel_sg t x y X Y) as R.
  assert (EQ : (s64 x =? s64 y) = (x =? y)).
  { destruct (isigned t).
    - destruct R as [-> ->]. reflexivity.
    - destruct R as [R1 R2]. destruct (Z.eqb_spec (s64 x) (s64 y)), (Z.eqb_spec x y); auto; congruence. }
  destruct op; try discriminate; cbn [c_rel k_binary] in *; injection H as <-; rewrite s64_b2z; do 2 f_equal;
    try (rewrite EQ; reflexivity);
    destruct (isigned t); destruct R as [R1 R2]; rewrite R1, R2; reflexivity.
Qed.

Lemma k_binary_ok : forall op a b x y r, in_range a x -> in_range b y ->
  cbin_int op a b x y = Some r -> bin_ok op a b x y = true ->
  k_binary op (isigned (c_common a b)) (s64 x) (s64 y) = OVal (s64 r).
Proof.
  intros op a b x y r X Y H O.
  pose proof (wide_common a b) as W. set (t := c_common a b) in *.
  assert (CV : same64 (cconv t x) x && same64 (cconv t y) y = true ->
               s64 x = s64 (cconv t x) /\ s64 y = s64 (cconv t y)).
  { intro E. apply andb_prop in E. destruct E as [E1 E2]. apply same64_spec in E1, E2.
    split; symmetry; now apply s64_eqm. }
  pose proof (cconv_range t x) as RX. pose proof (cconv_range t y) as RY.
  destruct op; unfold bin_ok in O; fold t in O.
  - (* + *) apply andb_prop in O. destruct O as [O E]. rewrite H in E. cbn [k_binary]. now apply h_signed_ok.
  - apply andb_prop in O. destruct O as [O E]. rewrite H in E. cbn [k_binary]. now apply h_signed_ok.
  - apply andb_prop in O. destruct O as [O E]. rewrite H in E. cbn [k_binary]. now apply h_signed_ok.
  - destruct (CV O) as [-> ->]. apply k_div_ok; auto.
  - destruct (CV O) as [-> ->]. apply k_mod_ok; auto.
  - (* << *)
    assert (C : 0 <= y < 64).
    { unfold cbin_int in H. cbn [class_of] in H. unfold c_shift in H.
      destruct ((0 <=? y) && (y <? iwidth (c_promote a))) eqn:B; [|discriminate].
      pose proof (iwidth_pos (c_promote a)). lia. }
    cbn [k_binary]. rewrite (s64_small y) by lia. unfold h_count.
    replace ((0 <=? y) && (y <? 64)) with true by lia. rewrite H in O.
    destruct (isigned t).
    + apply andb_prop in O. destruct O as [P E]. rewrite P. now apply h_signed_ok.
    + unfold h_unsigned. f_equal. rewrite u64_s64. apply s64_eqm. now apply same64_spec.
  - (* >> *)
    unfold cbin_int in H. cbn [class_of] in H. unfold c_shift in H.
    destruct ((0 <=? y) && (y <? iwidth (c_promote a))) eqn:B; [|discriminate].
    injection H as <-. pose proof (iwidth_pos (c_promote a)).
    cbn [k_binary]. rewrite (s64_small y) by lia. unfold h_count.
    replace ((0 <=? y) && (y <? 64)) with true by lia.
    pose proof (promote_range _ _ X) as PX. pose proof (in_range_64 _ _ X) as X64.
    assert (DR : forall p, 0 <= p -> 0 <= p / 2 ^ y <= p).
    { intros p P. pose proof (pow2_pos y ltac:(lia)). split; [apply Z.div_pos; lia|].
      apply Z.div_le_upper_bound; nia. }
    assert (POS : 0 <= s64 x -> s64 x = x /\ u64 x = x).
    { intro P. pose proof (s64_range x). assert (u64 x = s64 x) by (rewrite <- u64_s64; apply u64_id; lia).
      assert (x < 0 \/ 0 <= x) as [N|N] by lia.
      - assert (s64 x = x \/ x < - 2 ^ 63) as [E|E] by (destruct (Z_lt_le_dec x (- 2 ^ 63)); [now right|left; apply s64_small; lia]); lia.
      - assert (u64 x = x) by (apply u64_id; lia). lia. }
    assert (SG : Bool.eqb (isigned t) (isigned (c_promote a)) = true \/ 0 <= s64 x) by
      (apply orb_prop in O; destruct O; [now left|right; lia]).
    destruct SG as [SG|SG].
    + apply eqb_prop in SG. rewrite SG. destruct (isigned (c_promote a)) eqn:P.
      * pose proof (in_range_signed _ _ P PX). rewrite (s64_small x) by lia.
        f_equal. symmetry. apply s64_small.
        pose proof (div_pow_range (c_promote a) x y (wide_promote a) ltac:(lia) PX) as D.
        apply (in_range_signed _ _ P D).
      * pose proof (in_range_unsigned _ _ P PX). unfold h_unsigned. rewrite u64_s64, u64_id by lia. reflexivity.
    + destruct (POS SG) as [E1 E2]. destruct (isigned t).
      * rewrite E1. f_equal. symmetry. apply s64_small. pose proof (s64_range x).
        specialize (DR x ltac:(lia)). lia.
      * unfold h_unsigned. now rewrite u64_s64, E2.
  - (* & *) destruct (CV O) as [-> ->]. cbn [k_binary]. unfold cbin_int in H. cbn in H. fold t in H.
    injection H as <-. now rewrite s64_land.
  - destruct (CV O) as [-> ->]. cbn [k_binary]. unfold cbin_int in H. cbn in H. fold t in H.
    injection H as <-. now rewrite s64_lor.
  - destruct (CV O) as [-> ->]. cbn [k_binary]. unfold cbin_int in H. cbn in H. fold t in H.
    injection H as <-. now rewrite s64_lxor.
  - destruct (CV O) as [-> ->]. apply k_rel_ok; auto.
  - destruct (CV O) as [-> ->]. apply k_rel_ok; auto.
  - destruct (CV O) as [-> ->]. apply k_rel_ok; auto.
  - destruct (CV O) as [-> ->]. apply k_rel_ok; auto.
  - destruct (CV O) as [-> ->]. apply k_rel_ok; auto.
  - destruct (CV O) as [-> ->]. apply k_rel_ok; auto.
Qed.

Lemma k_cast_ok : forall t a x, in_range a x -> k_cast t (s64 x) = s64 (cconv t x).
Proof.
  intros t a x X. pose proof (s64_zero a x X) as Z0.
  pose proof (s_eqm 64 x ltac:(lia)) as E.
  assert (A : forall w, 0 < w <= 64 -> s w (s64 x) = s w x).
  { intros w Hw. apply s_compat; [lia|]. apply (eqm_weaken w 64); [lia|exact E]. }
  assert (B : forall w, 0 < w <= 64 -> u w (s64 x) = u w x).
  { intros w Hw. apply u_compat. apply (eqm_weaken w 64); [lia|exact E]. }
  unfold k_cast, cconv.
  destruct t; cbn [ity_eqb k_is_signed isize isigned iwidth Z.eqb Z.mul Pos.eqb Pos.mul].
  - rewrite Z0. destruct (x =? 0); reflexivity.
  - rewrite A, s64_small; [reflexivity|pose proof (s_range 8 x); lia|lia].
  - rewrite A, s64_small; [reflexivity|pose proof (s_range 8 x); lia|lia].
  - rewrite B, s64_small; [reflexivity|pose proof (u_range 8 x); lia|lia].
  - rewrite A, s64_small; [reflexivity|pose proof (s_range 16 x); lia|lia].
  - rewrite B, s64_small; [reflexivity|pose proof (u_range 16 x); lia|lia].
  - rewrite A, s64_small; [reflexivity|pose proof (s_range 32 x); lia|lia].
  - rewrite B, s64_small; [reflexivity|pose proof (u_range 32 x); lia|lia].
  - change (s 64 x) with (s64 x). now rewrite (s64_small (s64 x)) by apply s64_range.
  - apply s64_eqm. symmetry. apply u64_u64.
  - change (s 64 x) with (s64 x). now rewrite (s64_small (s64 x)) by apply s64_range.
  - apply s64_eqm. symmetry. apply u64_u64.
Qed.

Lemma bindo_some : forall (o : option Z) (f : Z -> option Z) v,
  bindo o f = Some v -> exists x, o = Some x /\ f x = Some v.
Proof. intros o f v H. destruct o; [eauto|discriminate]. Qed.

Lemma keval_value : forall e v, int_const e = true -> const_ok e = true ->
  cvalue e = Some v -> keval e = OVal (s64 v).
Proof.
  induction e; intros r IC OK H; cbn [int_const] in IC; try discriminate;
    cbn [const_ok] in OK; cbn [cvalue] in H; cbn [keval].
  - now injection H as <-.
  - apply andb_prop in OK. destruct OK as [O1 O2]. apply bindo_some in H. destruct H as (x & Ex & H).
    rewrite Ex in O2. rewrite (IHe x IC O1 Ex). cbn [obind].
    eapply k_unary_ok; eauto. now apply cvalue_range.
  - apply andb_prop in IC. destruct IC as [I1 I2].
    apply andb_prop in OK. destruct OK as [OK O3]. apply andb_prop in OK. destruct OK as [O1 O2].
    apply bindo_some in H. destruct H as (x & Ex & H). apply bindo_some in H. destruct H as (y & Ey & H).
    rewrite Ex, Ey in O3. rewrite (IHe1 x I1 O1 Ex), (IHe2 y I2 O2 Ey). cbn [obind].
    rewrite common_signed by assumption. apply k_binary_ok; auto; now apply cvalue_range.
  - apply andb_prop in IC. destruct IC as [I1 I2]. apply andb_prop in OK. destruct OK as [O1 O2].
    apply bindo_some in H. destruct H as (x & Ex & H). rewrite Ex in O2.
    rewrite (IHe1 x I1 O1 Ex). cbn [obind].
    rewrite (s64_zero _ x (cvalue_range _ _ I1 Ex)). destruct (x =? 0).
    + now injection H as <-.
    + apply bindo_some in H. destruct H as (y & Ey & H). injection H as <-.
      rewrite (IHe2 y I2 O2 Ey). cbn [obind]. rewrite (s64_zero _ y (cvalue_range _ _ I2 Ey)). now rewrite s64_b2z.
  - apply andb_prop in IC. destruct IC as [I1 I2]. apply andb_prop in OK. destruct OK as [O1 O2].
    apply bindo_some in H. destruct H as (x & Ex & H). rewrite Ex in O2.
    rewrite (IHe1 x I1 O1 Ex). cbn [obind].
    rewrite (s64_zero _ x (cvalue_range _ _ I1 Ex)). destruct (x =? 0).
    + apply bindo_some in H. destruct H as (y & Ey & H). injection H as <-.
      rewrite (IHe2 y I2 O2 Ey). cbn [obind]. rewrite (s64_zero _ y (cvalue_range _ _ I2 Ey)). now rewrite s64_b2z.
    + now injection H as <-.
  - apply andb_prop in IC. destruct IC as [IC I3]. apply andb_prop in IC. destruct IC as [I1 I2].
    apply andb_prop in OK. destruct OK as [O1 O2].
    apply bindo_some in H. destruct H as (x & Ex & H). rewrite Ex in O2.
    rewrite (IHe1 x I1 O1 Ex). cbn [obind].
    rewrite (s64_zero _ x (cvalue_range _ _ I1 Ex)).
    apply bindo_some in H. destruct H as (w & Ew & H). injection H as <-.
    destruct (x =? 0); apply andb_prop in O2; destruct O2 as [O2 O3]; rewrite Ew in O3;
      apply same64_spec in O3; rewrite (s64_eqm _ _ O3); auto.
  - destruct t; try discriminate. apply bindo_some in H. destruct H as (x & Ex & H). injection H as <-.
    rewrite (IHe x IC OK Ex). cbn [obind]. f_equal. exact (k_cast_ok i (cit e) x (cvalue_range e x IC Ex)).
Qed.

(** ** The specification value is the value of the abstract machine *)

Variable G : renv.

Lemma rtype_cit : forall e, int_const e = true -> rtype S e (TInt (cit e)).
Proof. intros e H. exists (TInt (cit e)). split; [now apply cit_ctype|reflexivity]. Qed.

Lemma cvalue_ceval : forall e m, int_const e = true ->
  ceval S G RV e m (bindo (cvalue e) (fun v => Some (v, m))).
Proof.
  induction e; intros m IC; pose proof IC as IC0; cbn [int_const] in IC; try discriminate; cbn [cvalue].
  - apply ev_const.
  - pose proof (ev_un S G op e _ m _ (rtype_cit e IC) (IHe m IC)) as H.
    destruct (cvalue e); exact H.
  - apply andb_prop in IC. destruct IC as [I1 I2].
    pose proof (fun r => ev_bin S G op e1 e2 _ _ m r (rtype_cit e1 I1) (rtype_cit e2 I2)) as H.
    specialize (IHe1 m I1). specialize (IHe2 m I2).
    destruct (cvalue e1) as [x|]; cbn [bindo] in *.
    + destruct (cvalue e2) as [y|]; cbn [bindo] in *.
      * exact (H (Some (x, y, m)) (s2_lr _ _ _ _ _ _ _ IHe1 IHe2)).
      * exact (H None (s2_ub_r _ _ _ IHe2)).
    + exact (H None (s2_ub_l _ _ _ IHe1)).
  - apply andb_prop in IC. destruct IC as [I1 I2]. specialize (IHe1 m I1). specialize (IHe2 m I2).
    destruct (cvalue e1) as [x|]; cbn [bindo] in *; [|now apply ev_land_ub].
    destruct (Z.eqb_spec x 0) as [->|N]; [now apply ev_land_0|].
    pose proof (ev_land_1 S G _ _ _ _ _ _ IHe1 N IHe2) as H. destruct (cvalue e2); exact H.
  - apply andb_prop in IC. destruct IC as [I1 I2]. specialize (IHe1 m I1). specialize (IHe2 m I2).
    destruct (cvalue e1) as [x|]; cbn [bindo] in *; [|now apply ev_lor_ub].
    destruct (Z.eqb_spec x 0) as [->|N]; [|eapply ev_lor_1; eauto].
    pose proof (ev_lor_0 S G _ _ _ _ _ IHe1 IHe2) as H. destruct (cvalue e2); exact H.
  - apply andb_prop in IC. destruct IC as [IC I3]. apply andb_prop in IC. destruct IC as [I1 I2].
    specialize (IHe1 m I1). specialize (IHe2 m I2). specialize (IHe3 m I3).
    pose proof (cit_ctype _ IC0) as T.
    destruct (cvalue e1) as [x|]; cbn [bindo] in *; [|now apply ev_cond_ub].
    destruct (Z.eqb_spec x 0) as [->|N].
    + pose proof (ev_cond_0 S G _ _ _ _ _ _ _ IHe1 T IHe3) as H. destruct (cvalue e3); exact H.
    + pose proof (ev_cond_1 S G _ _ _ _ _ _ _ _ IHe1 N T IHe2) as H. destruct (cvalue e2); exact H.
  - destruct t; try discriminate. pose proof (ev_cast S G (TInt i) e m _ (IHe m IC)) as H.
    destruct (cvalue e); exact H.
Qed.

Lemma rtype_unique : forall e t, int_const e = true -> rtype S e t -> t = TInt (cit e).
Proof. intros e t H (t0 & T & ->). rewrite (cit_ctype e H) in T. now injection T as <-. Qed.

Lemma ceval_cvalue : forall e m r, int_const e = true -> ceval S G RV e m r ->
  r = bindo (cvalue e) (fun v => Some (v, m)).
Proof.
  induction e; intros m r IC H; pose proof IC as IC0; cbn [int_const] in IC; try discriminate; cbn [cvalue].
  - inversion H; subst; [discriminate|reflexivity].
  - inversion H as [| | | | | |? ? ? ? L| |? ? t ? r0 T E| | | | | | | | | | | | | | | | |]; subst; [discriminate|].
    apply rtype_unique in T; auto. subst t. rewrite (IHe _ _ IC E). destruct (cvalue e); reflexivity.
  - apply andb_prop in IC. destruct IC as [I1 I2].
    inversion H; subst; [discriminate|].
    match goal with T : rtype S e1 _ |- _ => apply rtype_unique in T; auto; subst end.
    match goal with T : rtype S e2 _ |- _ => apply rtype_unique in T; auto; subst end.
    match goal with Q : seq2 _ _ _ _ |- _ => inversion Q; subst; clear Q end;
    repeat match goal with
    | E : ceval S G RV e1 _ _ |- _ => apply (IHe1 _ _ I1) in E
    | E : ceval S G RV e2 _ _ |- _ => apply (IHe2 _ _ I2) in E
    end;
    destruct (cvalue e1); cbn [bindo] in *; try discriminate;
    destruct (cvalue e2); cbn [bindo] in *; try discriminate; try reflexivity;
    repeat match goal with E : Some _ = Some _ |- _ => injection E as ? ?; subst end; reflexivity.
  - apply andb_prop in IC. destruct IC as [I1 I2].
    inversion H; subst; try discriminate;
    repeat match goal with
    | E : ceval S G RV e1 _ _ |- _ => apply (IHe1 _ _ I1) in E
    | E : ceval S G RV e2 _ _ |- _ => apply (IHe2 _ _ I2) in E
    end;
    destruct (cvalue e1); cbn [bindo] in *; try discriminate; try reflexivity;
    repeat match goal with E : Some _ = Some _ |- _ => injection E as ? ?; subst end; try reflexivity.
    destruct (Z.eqb_spec z 0); [contradiction|]. destruct (cvalue e2); reflexivity.
  - apply andb_prop in IC. destruct IC as [I1 I2].
    inversion H; subst; try discriminate;
    repeat match goal with
    | E : ceval S G RV e1 _ _ |- _ => apply (IHe1 _ _ I1) in E
    | E : ceval S G RV e2 _ _ |- _ => apply (IHe2 _ _ I2) in E
    end;
    destruct (cvalue e1); cbn [bindo] in *; try discriminate; try reflexivity;
    repeat match goal with E : Some _ = Some _ |- _ => injection E as ? ?; subst end; try reflexivity.
    + destruct (Z.eqb_spec z 0); [contradiction|]. reflexivity.
    + cbn. destruct (cvalue e2); reflexivity.
  - apply andb_prop in IC. destruct IC as [IC I3]. apply andb_prop in IC. destruct IC as [I1 I2].
    pose proof (cit_ctype _ IC0) as T.
    inversion H; subst; try discriminate;
    try match goal with E : ctype_of S _ = Some ?t |- _ =>
      rewrite T in E; injection E as E; subst t end;
    repeat match goal with
    | E : ceval S G RV e1 _ _ |- _ => apply (IHe1 _ _ I1) in E
    | E : ceval S G RV e2 _ _ |- _ => apply (IHe2 _ _ I2) in E
    | E : ceval S G RV e3 _ _ |- _ => apply (IHe3 _ _ I3) in E
    end;
    destruct (cvalue e1); cbn [bindo] in *; try discriminate; try reflexivity;
    repeat match goal with E : Some _ = Some _ |- _ => injection E as ? ?; subst end; try reflexivity.
    + destruct (Z.eqb_spec z 0); [contradiction|]. destruct (cvalue e2); reflexivity.
    + cbn. destruct (cvalue e3); reflexivity.
  - destruct t; try discriminate. inversion H; subst; try discriminate.
    match goal with E : ceval S G RV e _ _ |- _ => apply (IHe _ _ IC) in E; subst end.
    destruct (cvalue e); reflexivity.
Qed.

End Evaluator.
