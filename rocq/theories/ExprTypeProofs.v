(** Proofs about the analysis of expressions. *)
From Coq Require Import ZArith List Bool String Lia.
From Verif Require Import CTypes TypeConvModel PropTypes CompatModel CompositeModel PropCompatSpec ExprTypeModel ExprTypeSpec.
Import ListNotations.
Open Scope Z_scope.

(** ** The part of the language for which the analysis is right *)

(** Not va_list, no qualified arrays and functions (but arrays of qualified elements); enumerations have an integer type. *)
Definition enum_ok (t : ty) : Prop := match t with TEnum _ _ _ u => integer_of u <> None | _ => True end.
Definition tame (t : ty) : Prop :=
  strip t <> TBasic BVaList /\ enum_ok (strip t) /\
  match t with
  | TQual q a => zero_qual q = false /\ match a with TQual _ _ | TArr _ _ _ | TFun _ _ _ _ => False | _ => True end
  | _ => True
  end.
(** Bit-fields of the types of 6.7.2.1p5 *)
Definition bits_ok (v : ty) (b : option Z) : Prop :=
  match b with
  | None => True
  | Some w => exists i, arith_of v = Some (AInt i) /\ irank i <= irank IInt /\ w <= iwidth i
  end.

(** The check of compatibility is right (C47). *)
Definition exact (a b : ty) : Prop := (compatible a b = Yes <-> conforms a b) /\ compatible a b <> Ub /\ compatible a b <> NoFuel.
(** The composite type is the only one (C51). *)
Definition settled (a b : ty) : Prop :=
  conforms a b -> exists c, composite a b = Comp c /\ forall c', composite_of a b c' <-> c' = c.

(** Not long together with long long (C16) *)
Definition no_mix (v1 : ty) (b1 : option Z) (v2 : ty) (b2 : option Z) : Prop :=
  forall i j, arith_of v1 = Some (AInt i) -> arith_of v2 = Some (AInt j) -> mixes_long_llong (promote i b1) (promote j b2) = false.

(** May the analyzer take the expression for a constant? *)
Fixpoint constant_form (G : ctx) (e : expr) : bool :=
  match e with
  | EId x => match c_ids G x with Some (IObject (TArr _ _ _) _) | Some (IFunction _) | Some (IEnumerator _) => true | _ => false end
  | EConst _ _ | EStr _ _ | ESizeof _ | ESizeofT _ | EAlignofT _ => true
  | EUn (UPlus | UMinus | UInv | UNot) a | ECast _ a => constant_form G a
  | EUn UAddr _ => true
  | EBin _ a b => constant_form G a && constant_form G b
  | ECond c a b => constant_form G c && constant_form G a && constant_form G b
  | _ => false
  end.

(** A member of an object, not of the value of a call and the like *)
Fixpoint rooted (e : expr) : bool :=
  match e with
  | EId _ | ESub _ _ | EArrow _ _ | EUn UDeref _ => true
  | EMember s _ => rooted s
  | _ => false
  end.
Fixpoint unregistered (G : ctx) (e : expr) : bool :=
  match e with
  | EId x => match c_ids G x with Some (IObject _ SRegister) => false | _ => true end
  | EMember s _ => unregistered G s
  | _ => true
  end.
Definition is_member (e : expr) : bool := match e with EMember _ _ => true | _ => false end.
Definition is_string (e : expr) : bool := match e with EStr _ _ => true | _ => false end.

(** Pointers whose pointed-to type the analyzer takes for what it is *)
Definition stale (G : ctx) (a : ty) : Prop :=
  match strip a with TStruct false (Some x) _ | TUnion false (Some x) _ => c_tags G x <> None | _ => False end.
Definition element (G : ctx) (v : ty) : Prop := forall a, v = TPtr a -> complete G a.
Definition steady (G : ctx) (v : ty) : Prop := forall a, v = TPtr a -> ~ function a /\ ~ stale G a /\ strip (strip a) = strip a.

Definition wide (v : ty) : Prop := match v with TBasic (BULong | BSLong | BULLong | BSLLong) => True | _ => False end.
Definition ok_assigns (G : ctx) (t : ty) (e : expr) (v : ty) : Prop :=
  (is_record t -> is_record v -> exact t v) /\
  (forall a b, t = TPtr a -> v = TPtr b ->
     (strip a = void \/ strip b = void -> npc G e \/ (~ function a /\ ~ function b)) /\
     (strip a <> void -> strip b <> void -> exact (strip a) (strip b))) /\
  (is_pointer t -> is_integer v -> npc G e \/ (constant_form G e = false /\ ~ wide v)).

Definition ok_target (G : ctx) (e : expr) (t : ty) : Prop :=
  ((exists x, e = EId x) /\ (array t \/ function t)) \/
  (~ array t /\ complete G t /\ (const_free (current G (strip t))) /\ (is_member e = true -> rooted e = true)).

Fixpoint ok_args (G : ctx) (xs : list ty) (args : list (expr * ty)) : Prop :=
  match xs, args with
  | x :: xs', (e, t) :: args' => ok_assigns G (parameter x) e (value_type t) /\ ok_args G xs' args'
  | _, _ => True
  end.
Definition ok_call (G : ctx) (tf : ty) (args : list (expr * ty)) : Prop :=
  forall r m ps ellipsis, value_type tf = TPtr (TFun r m ps ellipsis) ->
    (strip r = void \/ complete G r) /\ Forall (fun a => complete G (value_type (snd a))) args /\
    (m = ModeParameters -> exists xs, map p_type ps = map Some xs /\ Forall tame xs /\ (xs = [void] -> ellipsis = false) /\ ok_args G xs args).

(** No qualified anonymous structures (declarator.c 149-152 refuses to declare them), names are unique *)
Fixpoint anonymous_ok (t : ty) : Prop :=
  match t with
  | TStruct c _ fs | TUnion c _ fs =>
    c = true /\
    (fix each fs := match fs with
                    | [] => True
                    | Field None a _ _ :: r => match a with TStruct _ _ _ | TUnion _ _ _ => anonymous_ok a | _ => ~ is_record (strip a) end /\ each r
                    | _ :: r => each r
                    end) fs
  | _ => True
  end.
Definition ok_member (G : ctx) (s : ty) (m : string) : Prop :=
  tame s /\
  (forall i fs, current G (strip s) = TStruct true i fs \/ current G (strip s) = TUnion true i fs ->
     anonymous_ok (current G (strip s)) /\
     (forall t1 w1 t2 w2, has_member fs m t1 w1 -> has_member fs m t2 w2 -> t1 = t2 /\ w1 = w2) /\
     (forall t' w, has_member fs m t' w -> zero_qual (quals s) = false -> ~ array t')).

Definition ok_unary (G : ctx) (o : unop) (e : expr) (t : ty) : Prop :=
  match o with
  | UPreInc | UPreDec | UPostInc | UPostDec => ok_target G e t /\ element G (strip t)
  | UAddr => is_string e = false /\ (is_member e = true -> rooted e = true /\ unregistered G e = true)
  | _ => True
  end.

Definition ok_equal (G : ctx) (e1 : expr) (v1 : ty) (e2 : expr) (v2 : ty) : Prop :=
  (forall a b, v1 = TPtr a -> v2 = TPtr b -> exact (strip a) (strip b) /\
     (strip a = void \/ strip b = void -> function a \/ function b -> npc G e1 \/ npc G e2)) /\
  (is_pointer v1 -> is_integer v2 -> npc G e2 \/ constant_form G e2 = false) /\
  (is_integer v1 -> is_pointer v2 -> npc G e1 \/ constant_form G e1 = false).
Definition ok_binary (G : ctx) (o : binop) (e1 : expr) (v1 : ty) b1 (e2 : expr) (v2 : ty) b2 : Prop :=
  match o with
  | BMul | BDiv | BMod | BAnd | BOr | BXor => no_mix v1 b1 v2 b2
  | BAdd => no_mix v1 b1 v2 b2 /\ steady G v1 /\ steady G v2
  | BSub => no_mix v1 b1 v2 b2 /\ steady G v1 /\ steady G v2 /\ (forall a b, v1 = TPtr a -> v2 = TPtr b -> exact (strip a) (strip b))
  | BLt | BLe | BGt | BGe => forall a b, v1 = TPtr a -> v2 = TPtr b -> ~ function a /\ ~ function b /\ exact (strip a) (strip b)
  | BEq | BNe => ok_equal G e1 v1 e2 v2
  | _ => True
  end.

(** The analyzer recognises the null pointer constants. *)
Definition ok_null (G : ctx) (e : expr) (v : ty) : Prop :=
  npc G e \/ (~ is_integer v /\ v <> TPtr void) \/ constant_form G e = false \/
  match fold G e with VInt z => z <> 0 | VAddr b o => b <> 0 \/ o <> 0 | VErr => False | _ => True end.
Definition ok_cond (G : ctx) (e1 : expr) (v1 : ty) b1 (e2 : expr) (v2 : ty) b2 : Prop :=
  no_mix v1 b1 v2 b2 /\
  (is_record v1 -> is_record v2 -> (same v1 v2 = Yes <-> current G v1 = current G v2) /\ same v1 v2 <> Ub /\ same v1 v2 <> NoFuel) /\
  (is_pointer v1 \/ is_pointer v2 -> ok_null G e1 v1 /\ ok_null G e2 v2) /\
  (forall a b, v1 = TPtr a -> v2 = TPtr b -> ~ npc G e1 -> ~ npc G e2 ->
     (strip a = void \/ strip b = void -> ~ function a /\ ~ function b) /\
     (strip a <> void -> strip b <> void -> exact (strip a) (strip b) /\ settled (strip a) (strip b) /\
        (zero_qual (or_qual (quals a) (quals b)) = false -> forall c, composite_of (strip a) (strip b) c -> ~ array c))).

Section Covered.
Variable G : ctx.
Local Notation typed := (typed (TBasic BSInt) G).

Definition fine (e : expr) : Prop := forall t k, typed e t k -> tame t /\ bits_ok (value_type t) (k_bits k).

Fixpoint covered (e : expr) : Prop :=
  fine e /\
  match e with
  | EId _ | EConst _ _ | EStr _ _ => True
  | ESub a i => covered a /\ covered i /\
      forall t1 k1 t2 k2, typed a t1 k1 -> typed i t2 k2 -> element G (value_type t1) /\ element G (value_type t2)
  | ECall f args => covered f /\ (fix all l := match l with [] => True | a :: r => covered a /\ all r end) args /\
      forall tf kf ts, typed f tf kf -> Forall2 (fun a t => exists k, typed a t k) args ts -> ok_call G tf (combine args ts)
  | EMember s m => covered s /\ forall t k, typed s t k -> ok_member G t m
  | EArrow s m => covered s /\ forall t k a, typed s t k -> value_type t = TPtr a -> ok_member G a m
  | EUn o a => covered a /\ forall t k, typed a t k -> ok_unary G o a t
  | ESizeof a => covered a /\ forall t k, typed a t k -> match strip t with TArr (Vla _ | VlaStatic _) _ _ => False | _ => True end
  | ESizeofT t | EAlignofT t => tame t
  | ECast t a => covered a /\ tame t /\ (strip t = void -> t = void)
  | EBin o a b => covered a /\ covered b /\
      forall t1 k1 t2 k2, typed a t1 k1 -> typed b t2 k2 -> ok_binary G o a (value_type t1) (k_bits k1) b (value_type t2) (k_bits k2)
  | ECond c a b => covered c /\ covered a /\ covered b /\
      forall t1 k1 t2 k2, typed a t1 k1 -> typed b t2 k2 -> ok_cond G a (value_type t1) (k_bits k1) b (value_type t2) (k_bits k2)
  | EAssign o a b => covered a /\ covered b /\
      forall t1 k1 t2 k2, typed a t1 k1 -> typed b t2 k2 -> ok_target G a t1 /\
        match o with
        | ASimple => ok_assigns G (strip t1) b (value_type t2)
        | AAdd | ASub => steady G (strip t1)
        | _ => True
        end
  | EComma es => (fix all l := match l with [] => True | a :: r => covered a /\ all r end) es
  end.
End Covered.

(** Scopes as they are built: tags denote structures and unions, a function has a function type, an object has not. *)
Definition sound (G : ctx) : Prop :=
  (forall x t, c_tags G x = Some t -> exists i fs, t = TStruct true i fs \/ t = TUnion true i fs) /\
  (forall x t s, c_ids G x = Some (IObject t s) -> ~ function t) /\
  (forall x t, c_ids G x = Some (IFunction t) -> function t).

(** ** Classes of types *)

Lemma ity_of_eq : forall b, ity_of b = integer_of b.
Proof. destruct b; reflexivity. Qed.
Lemma integral_iff : forall t, enum_ok t -> (integral t = true <-> is_integer t).
Proof.
  intros t E. unfold is_integer. destruct t; cbn; try (split; [discriminate|intros (i & H); discriminate H]).
  - destruct b; cbn; (split; [try discriminate; eauto|intros (i & H); try discriminate H; reflexivity]).
  - cbn in E. destruct (integer_of under); [|congruence]. split; eauto.
Qed.
Lemma floating_iff : forall t, floating t = true <-> is_floating t.
Proof.
  intros t. unfold is_floating. destruct t; cbn; try (split; [discriminate|intros [H|[H|H]]; discriminate H]).
  destruct b; cbn; (split; [try discriminate; auto|intros [H|[H|H]]; try discriminate H; reflexivity]).
Qed.
Lemma arithmetic_iff : forall t, enum_ok t -> (arithmetic t = true <-> is_arithmetic t).
Proof.
  intros t E. unfold arithmetic, is_arithmetic. destruct t; cbn; try (split; [discriminate|congruence]).
  - destruct b; cbn; (split; [try discriminate; congruence|try reflexivity; congruence]).
  - cbn in E. destruct (integer_of under); [|congruence]. split; [discriminate|reflexivity].
Qed.
Lemma pointer_iff : forall t, pointer t = true <-> is_pointer t.
Proof. intros []; cbn; unfold is_pointer; split; try discriminate; eauto; intros (a & H); try discriminate H; reflexivity. Qed.
Lemma scalar_iff : forall t, enum_ok t -> (scalar t = true <-> is_scalar t).
Proof. intros t E. unfold scalar, is_scalar. rewrite orb_true_iff, arithmetic_iff, pointer_iff by exact E. tauto. Qed.
Lemma record_iff : forall t, record t = true <-> is_record t.
Proof. intros []; cbn; split; try discriminate; auto; intros []. Qed.
Lemma is_void_iff : forall t, is_void t = true <-> t = void.
Proof. intros []; cbn; unfold void; try (split; discriminate). destruct b; split; try discriminate; try reflexivity. Qed.
Lemma unqualified_strip : forall t, unqualified t = strip t.
Proof. destruct t; reflexivity. Qed.
Lemma strip_enum : forall t, tame t -> enum_ok (strip t).
Proof. intros t T. apply T. Qed.
Lemma conv_value : forall t, tame t -> conv t = value_type t.
Proof.
  intros t (V & E & S). destruct t; try reflexivity.
  - destruct b; try reflexivity.
  - destruct t; try reflexivity; try (destruct S as (_ & [])). destruct b; try reflexivity. exfalso. now apply V.
Qed.
Lemma value_enum : forall t, tame t -> enum_ok (value_type t).
Proof.
  intros t (V & E & S). destruct t; try exact I; try exact E.
  - destruct b; exact I.
  - destruct t; try exact I; try exact E.
Qed.
Lemma value_strip : forall t, tame t -> strip (value_type t) = value_type t.
Proof.
  intros t (V & E & S). destruct t; try reflexivity.
  - destruct b; reflexivity.
  - destruct t; try reflexivity. destruct S as (_ & []).
Qed.
Lemma arith_of_aty : forall t, match arith_of t with
  | Some a => exists b, aty_of t = Some b /\ a_underlying b = a
  | None => enum_ok t -> aty_of t = None
  end.
Proof.
  intros t. destruct t; cbn; auto.
  - destruct b; cbn; eauto.
  - destruct under; cbn; eauto.
Qed.

(** ** Arithmetic conversions *)

Lemma basic_of_ty : forall i, TBasic (basic_of i) = basic_ty i.
Proof. destruct i; reflexivity. Qed.
Lemma k_promotes : forall i b, match b with None => True | Some w => irank i <= irank IInt /\ w <= iwidth i end ->
  k_int_promotion i b = Some (promote i b).
Proof.
  intros i [w|] H; [|apply k_promote_total]. destruct H as (R & W). unfold promote.
  apply Z.leb_le in R. rewrite R. unfold k_int_promotion, k_bitfield_promotion.
  destruct (Z.eqb_spec w 32) as [->|N].
  - destruct i; try discriminate R; cbn in W; try lia; reflexivity.
  - cbn [andb]. destruct (Z.leb_spec 32 w).
    + destruct i; try discriminate R; cbn in W; lia.
    + replace (w <? 32) with true by (symmetry; apply Z.ltb_lt; lia). rewrite orb_true_r. reflexivity.
Qed.
Lemma promote_idem : forall i b, c_promote (promote i b) = promote i b.
Proof. intros i [w|]; unfold promote; [|now destruct i]. destruct i; cbn; try reflexivity; destruct (w <? 32); reflexivity. Qed.

Lemma int_promotion_spec : forall v b i, bits_ok v b -> arith_of v = Some (AInt i) -> int_promotion v b = Some (basic_ty (promote i b)).
Proof.
  intros v b i B A. unfold int_promotion. pose proof (arith_of_aty v) as X. rewrite A in X. destruct X as (x & -> & U).
  assert (P : k_int_promotion i b = Some (promote i b)).
  { apply k_promotes. destruct b as [w|]; [|exact I]. destruct B as (j & E & B). rewrite A in E. injection E as <-. exact B. }
  destruct x; cbn in U; try discriminate U; injection U as ->; rewrite P; cbn; now rewrite basic_of_ty.
Qed.

Lemma k_common_int_spec : forall i j b1 b2 p1 p2, k_int_promotion i b1 = Some p1 -> k_int_promotion j b2 = Some p2 ->
  c_promote p1 = p1 -> c_promote p2 = p2 -> mixes_long_llong p1 p2 = false -> k_common_int i b1 j b2 = Some (c_common p1 p2).
Proof.
  intros i j b1 b2 p1 p2 H1 H2 I1 I2 M. unfold k_common_int. rewrite H1, H2.
  destruct p1, p2; try discriminate I1; try discriminate I2; try discriminate M; reflexivity.
Qed.

Lemma common_spec : forall v1 b1 v2 b2, enum_ok v1 -> enum_ok v2 -> bits_ok v1 b1 -> bits_ok v2 b2 -> no_mix v1 b1 v2 b2 ->
  (forall t, common_type v1 b1 v2 b2 t <-> common_arithmetic v1 b1 v2 b2 = Some t).
Proof.
  intros v1 b1 v2 b2 E1 E2 B1 B2 M t. unfold common_type, common_arithmetic.
  pose proof (arith_of_aty v1) as X1. pose proof (arith_of_aty v2) as X2.
  destruct (arith_of v1) as [a1|] eqn:A1.
  2:{ rewrite (X1 E1). split; [intros []|discriminate]. }
  destruct X1 as (x1 & -> & U1).
  destruct (arith_of v2) as [a2|] eqn:A2.
  2:{ rewrite (X2 E2). destruct a1; (split; [intros []|discriminate]). }
  destruct X2 as (x2 & -> & U2).
  assert (K1 : forall i, a1 = AInt i -> k_int_promotion i b1 = Some (promote i b1)).
  { intros i ->. apply k_promotes. destruct b1 as [w|]; [|exact I]. destruct B1 as (j & E & B). rewrite A1 in E. injection E as <-. exact B. }
  assert (K2 : forall i, a2 = AInt i -> k_int_promotion i b2 = Some (promote i b2)).
  { intros i ->. apply k_promotes. destruct b2 as [w|]; [|exact I]. destruct B2 as (j & E & B). rewrite A2 in E. injection E as <-. exact B. }
  assert (C : forall i j, a1 = AInt i -> a2 = AInt j -> k_common_int i b1 j b2 = Some (c_common (promote i b1) (promote j b2))).
  { intros i j Hi Hj. apply k_common_int_spec; auto using promote_idem. apply M; congruence. }
  destruct x1, x2; cbn in U1, U2; subst a1 a2; cbn [option_map k_common_arithmetic of_aty];
    try rewrite (C _ _ eq_refl eq_refl); cbn [orb option_map of_aty]; try rewrite basic_of_ty;
    split; intros H; try (injection H as <-); subst; reflexivity.
Qed.

Lemma common_total : forall v1 b1 v2 b2 , enum_ok v1 -> enum_ok v2 -> bits_ok v1 b1 -> bits_ok v2 b2 -> no_mix v1 b1 v2 b2 ->
  arithmetic v1 = true -> arithmetic v2 = true -> exists t, common_arithmetic v1 b1 v2 b2 = Some t.
Proof.
  intros v1 b1 v2 b2 E1 E2 B1 B2 M A1 A2. apply arithmetic_iff in A1; [|exact E1]. apply arithmetic_iff in A2; [|exact E2].
  assert (X : exists t, common_type v1 b1 v2 b2 t).
  { unfold common_type, is_arithmetic in *. destruct (arith_of v1) as [a1|]; [|congruence]. destruct (arith_of v2) as [a2|]; [|congruence].
    destruct a1, a2; cbn; eauto. }
  destruct X as (t & X). exists t. now apply common_spec.
Qed.
Lemma common_arith : forall v1 b1 v2 b2 t, common_type v1 b1 v2 b2 t -> is_arithmetic v1 /\ is_arithmetic v2 /\ is_arithmetic t /\ ~ function t.
Proof.
  intros v1 b1 v2 b2 t. unfold common_type, is_arithmetic. destruct (arith_of v1) as [a|]; [|intros []].
  destruct (arith_of v2) as [b|]; [|destruct a; intros []].
  intros H. split; [discriminate|]. split; [discriminate|].
  assert (X : exists x, t = TBasic x /\ arith_of t <> None).
  { destruct a, b; cbn in H; subst t; try (eexists; split; [reflexivity|discriminate]).
    all: unfold basic_ty; eexists; split; [reflexivity|]. all: destruct (c_common _ _); discriminate. }
  destruct X as (x & -> & N). split; [exact N|]. intros F; exact F.
Qed.

(** ** Completeness *)

Section Ctx.
Variable G : ctx.
Hypothesis S : sound G.

Lemma completion_current : forall t, completion G t = current G t.
Proof. induction t; cbn; try reflexivity; try (now rewrite IHt). Qed.

Lemma current_shape : forall t, match t with
  | TBasic _ | TFun _ _ _ _ | TEnum _ _ _ _ => current G t = t
  | TPtr a => current G t = TPtr (current G a)
  | TArr b q a => current G t = TArr b q (current G a)
  | TQual q a => current G t = add_qual q (current G a)
  | TStruct c i fs | TUnion c i fs => is_record (current G t)
  end.
Proof.
  intros [b|a|b q a|q a|r m ps e|c id es u|c id fs|c id fs]; try reflexivity.
  - cbn. destruct c; [exact I|]. destruct id as [x|]; [|exact I].
    destruct (c_tags G x) as [t|] eqn:E; [|exact I]. apply S in E. destruct E as (i & gs & [->| ->]); exact I.
  - cbn. destruct c; [exact I|]. destruct id as [x|]; [|exact I].
    destruct (c_tags G x) as [t|] eqn:E; [|exact I]. apply S in E. destruct E as (i & gs & [->| ->]); exact I.
Qed.

Lemma current_qual : forall t, strip t = t -> strip (current G t) = current G t.
Proof.
  intros t E. pose proof (current_shape t) as H. destruct t; try (rewrite H; reflexivity).
  - exfalso. cbn in E. clear - E. revert q E. induction t; intros; try discriminate. injection E as -> E. eapply IHt, E.
  - destruct (current G _); try destruct H; reflexivity.
  - destruct (current G _); try destruct H; reflexivity.
Qed.

Lemma incomplete_stale : forall t, ~ stale G t -> ~ function t -> (incomplete t = false <-> complete G t).
Proof.
  intros t NS NF. unfold incomplete, stale, complete, function in *. rewrite unqualified_strip. destruct (strip t) as [b| | b q a| | | |c i fs|c i fs]; try (split; auto; fail).
  - destruct b; cbn; split; auto; try discriminate; intros [].
  - destruct b; split; auto; try discriminate; intros [].
  - destruct c, i; cbn; split; auto; try discriminate; tauto.
  - destruct c, i; cbn; split; auto; try discriminate; tauto.
Qed.
Lemma incomplete_current : forall t, tame t -> ~ function t -> (incomplete (current G t) = false <-> complete G t).
Proof.
  intros t T NF.
  assert (A : forall t, strip t = t -> ~ function t -> (incomplete (current G t) = false <-> complete G t)).
  { clear - S. intros t E NF. pose proof (current_shape t) as H. unfold complete, function in *. rewrite E in *.
    destruct t as [b| | b q a| | | |c i fs|c i fs]; try (rewrite H; cbn; tauto).
    - rewrite H. destruct b; cbn; split; auto; try discriminate; intros [].
    - rewrite H. destruct b; cbn; split; auto; try discriminate; intros [].
    - exfalso. clear - E. revert q E. induction t; intros; try discriminate. injection E as -> E. eapply IHt, E.
    - clear H. cbn. destruct c; [cbn; tauto|]. destruct i as [x|]; [|cbn; split; [discriminate|intros []]].
      destruct (c_tags G x) as [t|] eqn:X; [|cbn; split; [discriminate|congruence]].
      apply S in X. destruct X as (i & gs & [->| ->]); cbn; split; auto; discriminate.
    - clear H. cbn. destruct c; [cbn; tauto|]. destruct i as [x|]; [|cbn; split; [discriminate|intros []]].
      destruct (c_tags G x) as [t|] eqn:X; [|cbn; split; [discriminate|congruence]].
      apply S in X. destruct X as (i & gs & [->| ->]); cbn; split; auto; discriminate. }
  destruct t; try (apply A; [reflexivity|exact NF]).
  assert (Et : strip t = t) by (destruct T as (_ & _ & _ & T); destruct t; try reflexivity; destruct T).
  rewrite (proj1 (conj (current_shape (TQual q t)) I)).
  assert (I1 : incomplete (add_qual q (current G t)) = incomplete (current G t)).
  { pose proof (current_qual t Et) as C. unfold incomplete. rewrite !unqualified_strip. destruct (current G t); reflexivity. }
  rewrite I1. rewrite (A t Et).
  - unfold complete. cbn [strip]. now rewrite Et.
  - unfold function in *. cbn [strip] in NF. now rewrite Et.
Qed.
Lemma incomplete_function : forall t, function t -> ~ complete G t.
Proof. intros t F C. unfold function, complete in *. destruct (strip t); auto. Qed.

(** ** Members *)

Lemma add_qual_qualify : forall q t, qualify q t = add_qual q t.
Proof. intros q []; reflexivity. Qed.
Lemma so_qualified_none : forall q t, zero_qual q = true -> so_qualified q t = t.
Proof. intros q t Z. induction t; cbn; rewrite ?Z; try reflexivity. now rewrite IHt. Qed.
Lemma so_qualified_other : forall q t, zero_qual q = false -> is_array t = false -> so_qualified q t = add_qual q t.
Proof. intros q t Z A. destruct t; cbn; rewrite ?Z; try reflexivity. discriminate A. Qed.

Lemma field_at_in : forall fs m f, field_at fs m = Some f -> In f fs /\ f_name f = Some m.
Proof.
  induction fs as [|g fs IH]; cbn; intros m f H; [discriminate|]. destruct (f_name g) as [x|] eqn:E.
  - destruct (String.eqb_spec x m) as [X|N]; [injection H as <-; subst; auto|]. apply IH in H. tauto.
  - apply IH in H. tauto.
Qed.
Lemma field_at_none : forall fs m f, field_at fs m = None -> In f fs -> f_name f <> Some m.
Proof.
  induction fs as [|g fs IH]; cbn; intros m f H I; [destruct I|]. destruct I as [->|I].
  - destruct (f_name f) as [x|]; [|discriminate]. destruct (String.eqb_spec x m) as [X|N]; [discriminate|congruence].
  - destruct (f_name g) as [x|]; [|now apply IH]. destruct (String.eqb x m); [discriminate|now apply IH].
Qed.

Definition members (t : ty) : list field := match t with TStruct _ _ fs | TUnion _ _ fs => fs | _ => [] end.
Definition resolve_anonymous (m : string) := fix loop (fs : list field) : lookup :=
  match fs with
  | [] => Missing
  | Field None t' _ _ :: r =>
    match t' with
    | TStruct _ _ _ | TUnion _ _ _ => match resolve_field t' m with Missing => loop r | x => x end
    | _ => loop r
    end
  | _ :: r => loop r
  end.
Lemma resolve_unfold : forall t m, is_record t -> anonymous_ok t ->
  resolve_field t m = match field_at (members t) m with Some f => Found f | None => resolve_anonymous m (members t) end.
Proof. intros t m R A. destruct t; try destruct R; destruct A as (-> & A); reflexivity. Qed.

Definition anonymous_each := fix each (fs : list field) : Prop := match fs with
  | [] => True
  | Field None a _ _ :: r => match a with TStruct _ _ _ | TUnion _ _ _ => anonymous_ok a | _ => ~ is_record (strip a) end /\ each r
  | _ :: r => each r
  end.
Lemma anonymous_members : forall t, is_record t -> anonymous_ok t -> anonymous_each (members t).
Proof. intros t R A. destruct t; try destruct R; apply A. Qed.

Lemma resolve_loop : forall m t fs, incl fs (members t) -> anonymous_each fs ->
  (forall a al w, In (Field None a al w) fs -> is_record a -> anonymous_ok a ->
     match resolve_field a m with
     | Found f => has_member (members a) m (f_type f) (f_width f)
     | Missing => forall t' w', ~ has_member (members a) m t' w'
     | Fault => False
     end) ->
  match resolve_anonymous m fs with
  | Found f => has_member (members t) m (f_type f) (f_width f)
  | Missing => forall a al w c i gs t' w', In (Field None a al w) fs -> strip a = TStruct c i gs \/ strip a = TUnion c i gs -> ~ has_member gs m t' w'
  | Fault => False
  end.
Proof.
  intros m t. induction fs as [|[[x|] a al w] fs IHf]; intros Sub E H; cbn [resolve_anonymous].
  - intros ? ? ? ? ? ? ? ? [].
  - assert (Sub' : incl fs (members t)) by (intros y Y; apply Sub; now right).
    assert (H' : forall a al w, In (Field None a al w) fs -> is_record a -> anonymous_ok a ->
     match resolve_field a m with
     | Found f => has_member (members a) m (f_type f) (f_width f)
     | Missing => forall t' w', ~ has_member (members a) m t' w'
     | Fault => False
     end) by (intros; apply (H a0 al0 w0); auto; now right).
    specialize (IHf Sub' E H'). destruct (resolve_anonymous m fs); auto.
    intros a' al' w' c i gs t' w'' [J|J]; [discriminate|]. eauto.
  - assert (Sub' : incl fs (members t)) by (intros y Y; apply Sub; now right).
    assert (H' : forall a al w, In (Field None a al w) fs -> is_record a -> anonymous_ok a ->
     match resolve_field a m with
     | Found f => has_member (members a) m (f_type f) (f_width f)
     | Missing => forall t' w', ~ has_member (members a) m t' w'
     | Fault => False
     end) by (intros; apply (H a0 al0 w0); auto; now right).
    destruct E as (Ea & E). specialize (IHf Sub' E H').
    assert (Ina : In (Field None a al w) (members t)) by (apply Sub; now left).
    specialize (H a al w (or_introl eq_refl)).
    assert (Other : ~ is_record (strip a) ->
      match resolve_anonymous m fs with
      | Found f => has_member (members t) m (f_type f) (f_width f)
      | Missing => forall a0 al0 w0 c i gs t' w', In (Field None a0 al0 w0) (Field None a al w :: fs) ->
          strip a0 = TStruct c i gs \/ strip a0 = TUnion c i gs -> ~ has_member gs m t' w'
      | Fault => False
      end).
    { intros N. destruct (resolve_anonymous m fs); auto.
      intros a' al' w' c i gs t' w'' [J|J] D; [|eauto]. injection J as <- <- <-. exfalso. apply N. destruct D as [-> | ->]; exact I. }
    assert (Rec : is_record a -> anonymous_ok a -> strip a = a -> quals a = unq ->
      (forall c i gs, a = TStruct c i gs \/ a = TUnion c i gs -> members a = gs) ->
      (exists c i, a = TStruct c i (members a) \/ a = TUnion c i (members a)) ->
      match match resolve_field a m with Missing => resolve_anonymous m fs | x => x end with
      | Found f => has_member (members t) m (f_type f) (f_width f)
      | Missing => forall a0 al0 w0 c i gs t' w', In (Field None a0 al0 w0) (Field None a al w :: fs) ->
          strip a0 = TStruct c i gs \/ strip a0 = TUnion c i gs -> ~ has_member gs m t' w'
      | Fault => False
      end).
    { intros R A Sa Qa M (c & i & D). specialize (H R A). destruct (resolve_field a m) as [f| |]; [| |destruct H].
      - rewrite <- (so_qualified_none (quals a) (f_type f)) by now rewrite Qa.
        apply (HMAnonymous _ a al w m (f_type f) (f_width f) c i (members a)); auto. now rewrite Sa.
      - destruct (resolve_anonymous m fs); auto.
        intros a' al' w' c' i' gs t' w'' [J|J] D'; [|eauto]. injection J as <- <- <-. rewrite Sa in D'. rewrite <- (M _ _ _ D'). apply H. }
    destruct a; try exact (Other Ea).
    + apply Rec; auto; [exact I| |do 2 eexists; left; reflexivity]. intros ? ? ? [J|J]; inversion J; reflexivity.
    + apply Rec; auto; [exact I| |do 2 eexists; right; reflexivity]. intros ? ? ? [J|J]; inversion J; reflexivity.
Qed.

Lemma resolve_n : forall n t m, (size t < n)%nat -> is_record t -> anonymous_ok t ->
  match resolve_field t m with
  | Found f => has_member (members t) m (f_type f) (f_width f)
  | Missing => forall t' w, ~ has_member (members t) m t' w
  | Fault => False
  end.
Proof.
  induction n as [|n IH]; intros t m L R A; [lia|]. rewrite (resolve_unfold t m R A).
  pose proof (anonymous_members t R A) as E.
  destruct (field_at (members t) m) as [f|] eqn:F.
  { apply field_at_in in F. destruct F as (J & N). destruct f as [x a al w]. cbn in N. subst x. econstructor. exact J. }
  assert (B := resolve_loop m t (members t) (fun x X => X) E).
  assert (H : forall a al w, In (Field None a al w) (members t) -> is_record a -> anonymous_ok a ->
     match resolve_field a m with
     | Found f => has_member (members a) m (f_type f) (f_width f)
     | Missing => forall t' w', ~ has_member (members a) m t' w'
     | Fault => False
     end).
  { intros a al w J Ra Aa. apply IH; auto. assert (size a < size t)%nat; [|lia].
    destruct t; try destruct R; cbn [members] in J.
    - exact (CompatProofs.size_struct _ _ _ _ J).
    - exact (CompatProofs.size_union _ _ _ _ J). }
  specialize (B H). destruct (resolve_anonymous m (members t)); auto.
  intros t' w HM. inversion HM; subst.
  - eapply field_at_none in F; [|eassumption]. now apply F.
  - eapply B; eauto.
Qed.
Lemma resolve_spec : forall t m, is_record t -> anonymous_ok t ->
  match resolve_field t m with
  | Found f => has_member (members t) m (f_type f) (f_width f)
  | Missing => forall t' w, ~ has_member (members t) m t' w
  | Fault => False
  end.
Proof. intros t m. apply (resolve_n (Datatypes.S (size t))). lia. Qed.

(** ** What the properties of a node say *)

Local Notation typed := (typed (TBasic BSInt) G).

Definition null_form (e : expr) : Prop := ice G e \/ exists t a, e = ECast t a /\ strip t = TPtr void /\ ice G a.
Lemma null_form_ice : forall e, (match e with ECast _ _ => False | _ => True end) -> null_form e -> ice G e.
Proof. intros e H [X|(t & a & -> & _)]; [exact X|destruct H]. Qed.

Record rel (e : expr) (p : props) (t : ty) (k : cat) : Prop := {
  r_type : n_type p = t;
  r_bits : n_bits p = k_bits k;
  r_lvalue : k_lvalue k = true -> ~ array t -> n_lvalue p = true;
  r_lvalue' : n_lvalue p = true -> strip t <> void -> ~ function t -> (is_member e = true -> rooted e = true) -> k_lvalue k = true;
  r_addr : may_take_address e t k -> is_string e = false -> n_addr p = true;
  r_addr' : n_addr p = true -> (is_member e = true -> rooted e = true /\ unregistered G e = true) -> may_take_address e t k;
  r_const : n_const p = true -> constant_form G e = true;
  r_ice : null_form e -> n_const p = true }.

Definition matches (e : expr) (an : out props) (sp : ty -> cat -> Prop) : Prop :=
  (forall t k, sp t k -> exists p, an = Ok p /\ rel e p t k) /\
  (forall p, an = Ok p -> exists t k, sp t k /\ rel e p t k) /\
  an <> Bad.

(** Nodes without object *)
Definition vmatches (c : bool) (an : out props) (sp : ty -> Prop) : Prop :=
  (forall t, sp t -> an = Ok (value t c)) /\ (forall p, an = Ok p -> exists t, sp t /\ p = value t c) /\ an <> Bad.

Definition valuable (e : expr) : bool :=
  match e with EId _ | ESub _ _ | EMember _ _ | EArrow _ _ | EUn UDeref _ => false | _ => true end.

Lemma rel_value : forall e t c, valuable e = true -> ~ function t -> (c = true -> constant_form G e = true) -> (null_form e -> c = true) ->
  rel e (value t c) t rvalue.
Proof.
  intros e t c V NF C1 C2. constructor; cbn; auto; try discriminate.
  intros [F|[(a & i & ->)|[(a & ->)|(L & _)]]]; [tauto| | |]; discriminate.
Qed.
Lemma matches_value : forall e c an sp, valuable e = true -> vmatches c an sp -> (forall t, sp t -> ~ function t) ->
  (c = true -> constant_form G e = true) -> (null_form e -> c = true) ->
  matches e an (fun t k => sp t /\ k = rvalue).
Proof.
  intros e c an sp V (M1 & M2 & M3) NF C1 C2. split; [|split; [|exact M3]].
  - intros t k (H & ->). eexists. split; [apply M1, H|]. apply rel_value; auto.
  - intros p H. destruct (M2 p H) as (t & H' & ->). exists t, rvalue. split; [auto|]. apply rel_value; auto.
Qed.

Lemma matches_iff : forall e an sp sp', matches e an sp -> (forall t k, sp t k <-> sp' t k) -> matches e an sp'.
Proof.
  intros e an sp sp' (M1 & M2 & M3) E. split; [|split; [|exact M3]].
  - intros t k H. apply M1, E, H.
  - intros p H. destruct (M2 p H) as (t & k & A & B). exists t, k. split; [now apply E|exact B].
Qed.

(** Composition *)
Lemma matches_bind : forall e a f sp, matches a (analyze G a) (typed a) ->
  (forall p1 t1 k1, analyze G a = Ok p1 -> typed a t1 k1 -> rel a p1 t1 k1 -> matches e (f p1) (sp t1 k1)) ->
  matches e (bind (analyze G a) f) (fun t k => exists t1 k1, typed a t1 k1 /\ sp t1 k1 t k).
Proof.
  intros e a f sp (M1 & M2 & M3) F. split; [|split].
  - intros t k (t1 & k1 & H1 & H). destruct (M1 _ _ H1) as (p1 & E & R). rewrite E. cbn [bind].
    destruct (F p1 t1 k1 E H1 R) as (F1 & _). now apply F1.
  - intros p H. destruct (analyze G a) as [p1| |] eqn:E; cbn [bind] in H; try discriminate H.
    destruct (M2 p1 eq_refl) as (t1 & k1 & H1 & R). destruct (F p1 t1 k1 eq_refl H1 R) as (_ & F2 & _).
    destruct (F2 p H) as (t & k & A & B). exists t, k. split; [|exact B]. eauto.
  - destruct (analyze G a) as [p1| |] eqn:E; cbn [bind]; [|discriminate|exact M3].
    destruct (M2 p1 eq_refl) as (t1 & k1 & H1 & R). apply (F p1 t1 k1 eq_refl H1 R).
Qed.

(** A check followed by a result *)
Lemma v_req : forall c b an (P : Prop) sp, (b = true <-> P) -> (P -> vmatches c an sp) -> vmatches c (req b an) (fun t => P /\ sp t).
Proof.
  intros c b an P sp E M. destruct b; cbn [req].
  - assert (p : P) by now apply E. destruct (M p) as (M1 & M2 & M3). split; [|split; [|exact M3]].
    + intros t (_ & H). now apply M1.
    + intros q H. destruct (M2 q H) as (t & A & B). eauto.
  - assert (N : ~ P) by (intros p; apply E in p; discriminate). split; [|split].
    + intros t (H & _). tauto.
    + discriminate.
    + discriminate.
Qed.
Lemma v_ok : forall c t, vmatches c (Ok (value t c)) (fun t' => t' = t).
Proof.
  intros c t. split; [|split; [|discriminate]].
  - now intros ? ->.
  - intros p H. injection H as <-. eauto.
Qed.
Lemma v_iff : forall c an sp sp', vmatches c an sp -> (forall t, sp t <-> sp' t) -> vmatches c an sp'.
Proof.
  intros c an sp sp' (M1 & M2 & M3) E. split; [|split; [|exact M3]].
  - intros t H. apply M1, E, H.
  - intros p H. destruct (M2 p H) as (t & A & B). exists t. split; [now apply E|exact B].
Qed.
Lemma v_none : forall c sp, (forall t, ~ sp t) -> vmatches c Err sp.
Proof. intros c sp H. split; [|split; [|]]; try discriminate. intros t X. destruct (H t X). Qed.

Lemma compound_reqr : forall a b an c sp, exact a b -> (conforms a b -> vmatches c an sp) -> vmatches c (reqr (compatible a b) an) (fun t => conforms a b /\ sp t).
Proof.
  intros a b an c sp (E & U & F) M. destruct (compatible a b) eqn:X; try congruence; cbn [reqr].
  - assert (C : conforms a b) by now apply E. destruct (M C) as (M1 & M2 & M3). split; [|split; [|exact M3]].
    + intros t (_ & H). now apply M1.
    + intros q H. destruct (M2 q H) as (t & A & B). eauto.
  - apply v_none. intros t (C & _). apply E in C. discriminate.
Qed.

(** ** Leaves *)

Lemma node_id : forall x, matches (EId x) (an_id G x) (rule_id G x).
Proof.
  intros x. unfold an_id, rule_id. destruct S as (_ & SO & SF). destruct (c_ids G x) as [[t s|t|z]|] eqn:E.
  - assert (R : rel (EId x) (P t (negb (is_array t)) match s with SRegister => false | _ => true end None
        (is_array t && match s with SStatic | SExtern => true | _ => false end) match s with SStatic | SExtern => true | _ => false end)
        t (K true match s with SRegister => true | _ => false end None)).
    { constructor; cbn; auto.
      - intros _ NA. destruct t; try reflexivity. destruct NA. exact I.
      - intros [F|[(? & ? & H)|[(? & H)|(_ & H & _)]]] _; try discriminate H.
        + destruct (SO _ _ _ E F).
        + destruct s; auto.
      - intros A _. right. right. right. destruct s; auto; discriminate.
      - rewrite E. destruct t; try discriminate. reflexivity.
      - intros H. apply null_form_ice in H; [|exact I]. destruct H as (z & H). congruence. }
    split; [|split; [|discriminate]].
    + intros t' k (-> & ->). eexists. split; [reflexivity|exact R].
    + intros p H. injection H as <-. eexists _, _. split; [split; reflexivity|exact R].
  - assert (R : rel (EId x) (P t false true None true true) t rvalue).
    { constructor; cbn; auto; try discriminate.
      - intros _ _. left. now apply (SF x).
      - now rewrite E. }
    split; [|split; [|discriminate]].
    + intros t' k (-> & ->). eexists. split; [reflexivity|exact R].
    + intros p H. injection H as <-. eexists _, _. split; [split; reflexivity|exact R].
  - assert (R : rel (EId x) (value int_t true) (TBasic BSInt) rvalue).
    { constructor; cbn; auto; try discriminate.
      - intros [[]|[(? & ? & H)|[(? & H)|(H & _)]]] _; discriminate H.
      - now rewrite E. }
    split; [|split; [|discriminate]].
    + intros t' k (-> & ->). eexists. split; [reflexivity|exact R].
    + intros p H. injection H as <-. eexists _, _. split; [split; reflexivity|exact R].
  - split; [|split; discriminate]. intros t k [].
Qed.

Lemma node_const : forall c z, matches (EConst c z) (Ok (value (const_type c) true)) (fun t k => t = rule_const c /\ k = rvalue).
Proof.
  intros c z. apply (matches_value _ true); auto.
  - replace (const_type c) with (rule_const c) by (destruct c; reflexivity). apply v_ok.
  - intros t -> F. destruct c; destruct F.
Qed.

Lemma node_str : forall s n, matches (EStr s n) (Ok (value (TArr (Bounded n) (Q false false false) (string_element s)) true))
  (fun t k => t = rule_str s n /\ k = K true false None).
Proof.
  intros s n. assert (E : TArr (Bounded n) (Q false false false) (string_element s) = rule_str s n) by (destruct s; reflexivity).
  assert (R : rel (EStr s n) (value (rule_str s n) true) (rule_str s n) (K true false None)).
  { constructor; cbn; auto; try discriminate. }
  rewrite E. split; [|split; [|discriminate]].
  - intros t k (-> & ->). eexists. split; [reflexivity|exact R].
  - intros p H. injection H as <-. eexists _, _. split; [split; reflexivity|exact R].
Qed.

(** ** Subscripts *)

Lemma node_sub : forall a i pa ta ka pi ti ki, rel a pa ta ka -> rel i pi ti ki -> tame ta -> tame ti ->
  element G (value_type ta) -> element G (value_type ti) ->
  matches (ESub a i) (an_sub pa pi) (fun t k => rule_sub G ta ti t /\ k = K true false None).
Proof.
  intros a i pa ta ka pi ti ki Ra Ri Ta Ti Ea Ei. unfold an_sub. rewrite (r_type _ _ _ _ Ra), (r_type _ _ _ _ Ri), !conv_value by auto.
  match goal with |- context [P _ true true None false ?r] => set (ref := r) end.
  pose proof (value_enum _ Ta) as Va. pose proof (value_enum _ Ti) as Vi.
  assert (R : forall t, rel (ESub a i) (P t true true None false ref) t (K true false None)).
  { intros t. constructor; cbn; auto; try discriminate.
    - intros _ _. right. left. eauto.
    - intros H. apply null_form_ice in H; [destruct H|exact I]. }
  unfold rule_sub. set (va := value_type ta) in *. set (vi := value_type ti) in *.
  assert (Pi : forall x, vi = TPtr x -> ~ is_integer vi) by (intros x -> (j & H); discriminate H).
  assert (Pa : forall x, va = TPtr x -> ~ is_integer va) by (intros x -> (j & H); discriminate H).
  assert (Left : forall x, va = TPtr x -> matches (ESub a i) (req (integral vi) (Ok (P x true true None false ref)))
    (fun t k => ((va = TPtr t /\ complete G t /\ is_integer vi) \/ (vi = TPtr t /\ complete G t /\ is_integer va)) /\ k = K true false None)).
  { intros x Ex. split; [|split].
    - intros t k ([(H & C & N)|(H & C & N)] & ->).
      + apply integral_iff in N; [|exact Vi]. rewrite N. cbn. rewrite Ex in H. injection H as <-. eauto.
      + destruct (Pa x Ex N).
    - intros p H. destruct (integral vi) eqn:N; [|discriminate H]. injection H as <-. exists x, (K true false None). split; [|apply R].
      split; [|reflexivity]. left. split; [exact Ex|]. split; [now apply Ea|]. now apply integral_iff.
    - destruct (integral vi); discriminate. }
  assert (Right : forall x, vi = TPtr x -> pointer va = false -> matches (ESub a i) (req (integral va) (Ok (P x true true None false ref)))
    (fun t k => ((va = TPtr t /\ complete G t /\ is_integer vi) \/ (vi = TPtr t /\ complete G t /\ is_integer va)) /\ k = K true false None)).
  { intros x Ex NP. split; [|split].
    - intros t k ([(H & C & N)|(H & C & N)] & ->).
      + rewrite H in NP. discriminate NP.
      + apply integral_iff in N; [|exact Va]. rewrite N. cbn. rewrite Ex in H. injection H as <-. eauto.
    - intros p H. destruct (integral va) eqn:N; [|discriminate H]. injection H as <-. exists x, (K true false None). split; [|apply R].
      split; [|reflexivity]. right. split; [exact Ex|]. split; [now apply Ei|]. now apply integral_iff.
    - destruct (integral va); discriminate. }
  assert (None' : pointer va = false -> pointer vi = false -> matches (ESub a i) Err
    (fun t k => ((va = TPtr t /\ complete G t /\ is_integer vi) \/ (vi = TPtr t /\ complete G t /\ is_integer va)) /\ k = K true false None)).
  { intros N1 N2. split; [|split; discriminate]. intros t k ([(H & _)|(H & _)] & _); [rewrite H in N1; discriminate N1|rewrite H in N2; discriminate N2]. }
  clearbody va vi.
  destruct va; try (now apply Left); destruct vi; try (now apply Right); now apply None'.
Qed.

(** ** Null pointer constants *)

Lemma integral_conv : forall t, integral t = true -> conv t = t.
Proof. intros [] H; try discriminate H; try reflexivity. destruct b; try discriminate H; reflexivity. Qed.
Lemma int_promotion_integral : forall t b t', int_promotion t b = Some t' -> integral t' = true.
Proof.
  intros t b t' H. unfold int_promotion in H. destruct (aty_of t) as [a|]; [|discriminate]. destruct a; try discriminate H;
  (destruct (k_int_promotion _ b) as [i|]; [|discriminate H]); injection H as <-; destruct i; reflexivity.
Qed.
Lemma integral_aty : forall t, integral t = true -> match aty_of t with Some (AInt _ | AEnum _) | None => True | _ => False end.
Proof.
  intros [] H; try discriminate H; cbn.
  - destruct b; try discriminate H; exact I.
  - destruct (ity_of under); exact I.
Qed.
Lemma common_integral : forall t1 b1 t2 b2 t', integral t1 = true -> integral t2 = true ->
  common_arithmetic t1 b1 t2 b2 = Some t' -> integral t' = true.
Proof.
  intros t1 b1 t2 b2 t' I1 I2 H. apply integral_aty in I1, I2. unfold common_arithmetic in H.
  destruct (aty_of t1) as [a1|]; [|discriminate H]. destruct (aty_of t2) as [a2|]; [|discriminate H].
  assert (X : exists i j, k_common_arithmetic a1 b1 a2 b2 = match k_common_int i b1 j b2 with Some t => Some (AInt t) | None => None end).
  { destruct a1, a2; try destruct I1; try destruct I2; cbn; eauto. }
  destruct X as (i & j & X). rewrite X in H. destruct (k_common_int i b1 j b2) as [x|]; [|discriminate H].
  injection H as <-. destruct x; reflexivity.
Qed.
Lemma integral_not_pointer : forall t, integral t = true -> pointer t = false.
Proof. intros [] H; try discriminate H; reflexivity. Qed.
Lemma integral_arithmetic : forall t, integral t = true -> arithmetic t = true.
Proof. intros t H. unfold arithmetic. now rewrite H. Qed.
Lemma integral_complete_pointer : forall t, integral t = true -> complete_pointer t = false.
Proof. intros [] H; try discriminate H; reflexivity. Qed.
Lemma of_type_value : forall o c p, of_type o (fun t => Ok (value t c)) = Ok p -> exists t, o = Some t /\ p = value t c.
Proof. intros [t|] c p H; [|discriminate H]. injection H as <-. eauto. Qed.

Lemma ice_integral : forall e p, ice G e -> analyze G e = Ok p -> integral (n_type p) = true.
Proof.
  induction e; intros p J H; cbn [ice] in J; try (destruct J; fail).
  - destruct J as (z & J). cbn in H. unfold an_id in H. rewrite J in H. injection H as <-. reflexivity.
  - cbn in H. injection H as <-. destruct k; try destruct J; reflexivity.
  - cbn [analyze] in H. destruct o; try (destruct J; fail); (destruct (analyze G e) as [pa| |] eqn:E; try discriminate H; cbn [bind] in H);
      pose proof (IHe _ J eq_refl) as Ia; unfold an_unary in H; rewrite integral_conv in H by exact Ia.
    + rewrite (integral_arithmetic _ Ia), Ia in H. cbn [req] in H. apply of_type_value in H. destruct H as (t & H & ->).
      eapply int_promotion_integral, H.
    + rewrite (integral_arithmetic _ Ia), Ia in H. cbn [req] in H. apply of_type_value in H. destruct H as (t & H & ->).
      eapply int_promotion_integral, H.
    + rewrite Ia in H. cbn [req] in H. apply of_type_value in H. destruct H as (t & H & ->).
      eapply int_promotion_integral, H.
    + destruct (scalar (n_type pa)); [|discriminate H]. injection H as <-. reflexivity.
  - cbn [analyze] in H. destruct (analyze G e) as [pa| |]; try discriminate H. cbn [bind] in H. unfold an_sizeof in H.
    destruct (negb _); [|discriminate H]. cbn [req] in H. destruct (negb _); [|discriminate H]. cbn [req] in H.
    destruct (negb _); [|discriminate H]. injection H as <-. reflexivity.
  - cbn [analyze] in H. unfold an_sizeof in H.
    cbn [is_some negb req] in H. destruct (negb _); [|discriminate H]. cbn [req] in H.
    destruct (negb _); [|discriminate H]. injection H as <-. reflexivity.
  - cbn [analyze] in H. unfold an_alignof in H.
    destruct (negb _); [|discriminate H]. cbn [req] in H.
    destruct (negb _); [|discriminate H]. injection H as <-. reflexivity.
  - cbn [analyze] in H. destruct (analyze G e) as [pa| |] eqn:E; try discriminate H. cbn [bind] in H. destruct J as (J & _).
    unfold an_cast in H. destruct (_ || _); [|discriminate H]. cbn [req] in H. destruct (negb _); [|discriminate H]. cbn [req] in H.
    destruct (negb _); [|discriminate H]. injection H as <-. cbn [n_type value]. rewrite unqualified_strip. apply integral_iff; [|exact J].
    destruct J as (i & J). destruct (strip t); try discriminate J; try exact I. cbn in *. destruct (integer_of under); congruence.
  - destruct J as (J1 & J2). cbn [analyze] in H. destruct (analyze G e1) as [p1| |] eqn:E1; try discriminate H. cbn [bind] in H.
    destruct (analyze G e2) as [p2| |] eqn:E2; try discriminate H. cbn [bind] in H.
    pose proof (IHe1 _ J1 eq_refl) as I1. pose proof (IHe2 _ J2 eq_refl) as I2. unfold an_binary in H.
    rewrite !integral_conv in H by auto.
    assert (A : forall c, an_arithmetic (n_type p1) (n_bits p1) (n_type p2) (n_bits p2) c = Ok p -> integral (n_type p) = true).
    { intros c. unfold an_arithmetic. rewrite !integral_arithmetic by auto. cbn [req]. unfold an_common. intros X. apply of_type_value in X.
      destruct X as (t & X & ->). eapply common_integral; [..|exact X]; auto. }
    assert (B : forall c, an_integral (n_type p1) (n_bits p1) (n_type p2) (n_bits p2) c = Ok p -> integral (n_type p) = true).
    { intros c. unfold an_integral. rewrite I1, I2. cbn [req]. unfold an_common. intros X. apply of_type_value in X.
      destruct X as (t & X & ->). eapply common_integral; [..|exact X]; auto. }
    assert (Int : forall b c, req b (Ok (value int_t c)) = Ok p -> integral (n_type p) = true).
    { intros [] c X; [|discriminate X]. injection X as <-. reflexivity. }
    destruct o; try (eapply A; eassumption); try (eapply B; eassumption).
    + unfold an_add in H. rewrite !integral_complete_pointer in H by auto. eapply A; eassumption.
    + unfold an_subtract in H. rewrite !integral_complete_pointer in H by auto.
      destruct (n_type p1); try (eapply A; eassumption). discriminate I1.
    + rewrite I1, I2 in H. cbn [req] in H. apply of_type_value in H. destruct H as (t & H & ->). eapply int_promotion_integral, H.
    + rewrite I1, I2 in H. cbn [req] in H. apply of_type_value in H. destruct H as (t & H & ->). eapply int_promotion_integral, H.
    + unfold an_relational in H. destruct (n_type p1); try discriminate I1; eapply Int, H.
    + unfold an_relational in H. destruct (n_type p1); try discriminate I1; eapply Int, H.
    + unfold an_relational in H. destruct (n_type p1); try discriminate I1; eapply Int, H.
    + unfold an_relational in H. destruct (n_type p1); try discriminate I1; eapply Int, H.
    + unfold an_equality in H. rewrite !integral_arithmetic in H by auto. injection H as <-. reflexivity.
    + unfold an_equality in H. rewrite !integral_arithmetic in H by auto. injection H as <-. reflexivity.
    + destruct (scalar (n_type p1)); [|discriminate H]. cbn [req] in H. eapply Int, H.
    + destruct (scalar (n_type p1)); [|discriminate H]. cbn [req] in H. eapply Int, H.
  - destruct J as (J0 & J1 & J2). cbn [analyze] in H. destruct (analyze G e1) as [p0| |] eqn:E0; try discriminate H. cbn [bind] in H.
    destruct (analyze G e2) as [p1| |] eqn:E1; try discriminate H. cbn [bind] in H.
    destruct (analyze G e3) as [p2| |] eqn:E2; try discriminate H. cbn [bind] in H.
    pose proof (IHe2 _ J1 eq_refl) as I1. pose proof (IHe3 _ J2 eq_refl) as I2. unfold an_cond in H.
    rewrite (integral_conv (n_type p1)), (integral_conv (n_type p2)) in H by auto. rewrite !integral_arithmetic in H by auto.
    destruct (scalar _); [|discriminate H]. cbn [req andb] in H. apply of_type_value in H. destruct H as (t & H & ->).
    eapply common_integral; [..|exact H]; auto.
Qed.

Lemma fold_ice : forall e, ice G e -> fold G e = c_eval G e.
Proof.
  intros e J. destruct e; try reflexivity. cbn [ice] in J. destruct J as ((i & J) & _). cbn [fold]. rewrite unqualified_strip.
  destruct (strip t); try discriminate J; reflexivity.
Qed.

(** What the analyzer sees of a null pointer constant *)
Lemma npc_seen : forall e p t k, npc G e -> analyze G e = Ok p -> rel e p t k ->
  n_const p = true /\ ((integral (n_type p) = true /\ fold G e = VInt 0) \/ (n_type p = TPtr void /\ fold G e = VAddr 0 0)).
Proof.
  intros e p t k N H R. destruct N as [(J & V)|(c & a & -> & Ec & J & V)].
  - split; [apply (r_ice _ _ _ _ R); now left|]. left. split; [eapply ice_integral; eassumption|]. now rewrite fold_ice.
  - split; [apply (r_ice _ _ _ _ R); right; eauto|]. right. split.
    + cbn [analyze] in H. destruct (analyze G a) as [pa| |] eqn:E; try discriminate H. cbn [bind] in H.
      unfold an_cast in H. destruct (_ || _); [|discriminate H]. cbn [req] in H. destruct (negb _); [|discriminate H]. cbn [req] in H.
      destruct (negb _); [|discriminate H]. injection H as <-. cbn [n_type value]. now rewrite unqualified_strip.
    + cbn [fold]. rewrite unqualified_strip, Ec, fold_ice, V by exact J. reflexivity.
Qed.
Lemma npc_value : forall e p t k, npc G e -> analyze G e = Ok p -> rel e p t k -> tame t ->
  n_const p = true /\ (is_integer (value_type t) \/ value_type t = TPtr void).
Proof.
  intros e p t k N H R T. destruct (npc_seen _ _ _ _ N H R) as (C & D). split; [exact C|]. rewrite (r_type _ _ _ _ R) in D.
  rewrite <- conv_value by exact T. destruct D as [(D & _)|(-> & _)]; [|now right]. left.
  rewrite integral_conv by exact D. apply integral_iff; [|exact D].
  destruct t; try discriminate D; try exact I. apply T.
Qed.

Lemma is_null_spec : forall e p t k, analyze G e = Ok p -> rel e p t k -> tame t -> ok_null G e (value_type t) ->
  exists b, is_null G e p = Ok b /\ (b = true <-> npc G e).
Proof.
  intros e p t k H R T O. unfold is_null.
  destruct (n_const p && _) eqn:C.
  - apply andb_true_iff in C. destruct C as (C & D).
    assert (Dec : npc G e \/ match fold G e with VInt z => z <> 0 | VAddr b o => b <> 0 \/ o <> 0 | VErr => False | _ => True end).
    { destruct O as [O|[(N1 & N2)|[O|O]]]; auto.
      - exfalso. rewrite (r_type _ _ _ _ R) in D. rewrite <- conv_value in N1, N2 by exact T. apply orb_true_iff in D. destruct D as [D|D].
        + apply N1. rewrite integral_conv by exact D. apply integral_iff; [|exact D]. destruct t; try discriminate D; try exact I. apply T.
        + destruct t; try discriminate D. apply N2. cbn. apply is_void_iff in D. now rewrite D.
      - apply (r_const _ _ _ _ R) in C. congruence. }
    destruct Dec as [N|N].
    + destruct (npc_seen _ _ _ _ N H R) as (_ & [(_ & F)|(_ & F)]); rewrite F; eexists; (split; [reflexivity|]); split; auto.
    + assert (NN : ~ npc G e).
      { intros X. destruct (npc_seen _ _ _ _ X H R) as (_ & [(_ & F)|(_ & F)]); rewrite F in N; destruct N; auto. }
      destruct (fold G e); try (eexists; split; [reflexivity|]; split; [discriminate|tauto]); [| |destruct N].
      * eexists. split; [reflexivity|]. split; [|tauto]. intros Z. apply Z.eqb_eq in Z. tauto.
      * eexists. split; [reflexivity|]. split; [|tauto]. intros Z. apply andb_true_iff in Z. rewrite !Z.eqb_eq in Z. tauto.
  - exists false. split; [reflexivity|]. split; [discriminate|]. intros N.
    destruct (npc_seen _ _ _ _ N H R) as (C' & D). rewrite C' in C. cbn [andb] in C. destruct D as [(D & _)|(D & _)]; rewrite D in C; discriminate C.
Qed.

(** ** Assignment *)

Lemma qualifiers_iff : forall a b, qualifiers_kept (n_quals b) (n_quals a) = true <-> all_quals_of (quals a) (quals b).
Proof.
  intros a b. unfold qualifiers_kept, all_quals_of.
  replace (n_quals a) with (quals a) by (destruct a; reflexivity). replace (n_quals b) with (quals b) by (destruct b; reflexivity).
  destruct (quals a) as [[] [] []], (quals b) as [[] [] []]; cbn; intuition congruence.
Qed.
Lemma compatible_record_other : forall t v, is_record t -> ~ is_record v -> strip v = v -> compatible t v = No.
Proof.
  intros t v R N E. destruct t; try destruct R; destruct v; try (destruct N; exact I); try reflexivity.
  all: exfalso; clear - E; cbn in E; revert q E; induction v; intros; try discriminate; injection E as -> E; eapply IHv, E.
Qed.
Lemma pointer_fits_iff : forall v, pointer_fits v = true <-> wide v.
Proof. intros []; cbn; try (split; [discriminate|intros []]). destruct b; cbn; split; auto; try discriminate; intros []. Qed.

Lemma assign_spec : forall t e p t2 k2, analyze G e = Ok p -> rel e p t2 k2 -> tame t2 -> enum_ok t -> t <> TBasic BVaList ->
  ok_assigns G t e (value_type t2) ->
  (assignable p t = Ok tt <-> assigns G t e (value_type t2)) /\ assignable p t <> Bad.
Proof.
  intros t e p t2 k2 H R T2 Et NV (O1 & O2 & O3). unfold assignable. rewrite (r_type _ _ _ _ R), conv_value by exact T2.
  pose proof (value_enum _ T2) as Ev. pose proof (value_strip _ T2) as Sv.
  assert (NP : npc G e -> n_const p = true /\ (is_integer (value_type t2) \/ value_type t2 = TPtr void)).
  { intros N. eapply npc_value; eassumption. }
  assert (CF : constant_form G e = false -> n_const p = false).
  { intros C. destruct (n_const p) eqn:X; [|reflexivity]. apply (r_const _ _ _ _ R) in X. congruence. }
  set (v := value_type t2) in *. clearbody v. unfold type_assignable.
  destruct ((match t with TBasic BBool => true | _ => false end) && pointer v) eqn:B.
  { split; [|discriminate]. split; [|reflexivity]. intros _. apply andb_true_iff in B. destruct B as (B1 & B2).
    destruct t as [[]| | | | | | |]; try discriminate B1. right. right. right. right. right. split; [reflexivity|now apply pointer_iff]. }
  assert (NB : ~ (t = TBasic BBool /\ is_pointer v)).
  { intros (-> & X). apply pointer_iff in X. rewrite X in B. discriminate B. }
  destruct (arithmetic t) eqn:A.
  { pose proof (proj1 (arithmetic_iff _ Et) A) as A'. split; [|destruct (arithmetic v); discriminate]. split.
    - intros X. destruct (arithmetic v) eqn:Av; [|discriminate X]. left. split; [exact A'|]. now apply arithmetic_iff.
    - intros [(_ & X)|[(X & _)|[(a & b & -> & _)|[(a & b & -> & _)|[((a & ->) & _)|X]]]]]; try discriminate A; [| |tauto].
      + apply arithmetic_iff in X; [|exact Ev]. now rewrite X.
      + destruct t; try destruct X; discriminate A. }
  assert (NA : ~ is_arithmetic t). { intros X. apply arithmetic_iff in X; [|exact Et]. congruence. }
  destruct (record t) eqn:Rt.
  { pose proof (proj1 (record_iff t) Rt) as Rt'.
    assert (NPt : ~ is_pointer t) by (intros (a & ->); discriminate Rt).
    destruct (record v) eqn:Rv.
    - pose proof (proj1 (record_iff v) Rv) as Rv'. destruct (O1 Rt' Rv') as (O & U & F).
      destruct (compatible t v) eqn:C; try congruence; cbn [reqr].
      + split; [|discriminate]. split; [|reflexivity]. intros _. right. left. split; [exact Rt'|]. split; [exact Rv'|]. now apply O.
      + split; [|discriminate]. split; [discriminate|].
        intros [(X & _)|[(_ & _ & X)|[(a & b & -> & _)|[(a & b & -> & _)|[(X & _)|X]]]]]; try tauto; try discriminate Rt.
        apply O in X. discriminate X.
    - assert (Rv' : ~ is_record v) by (intros X; apply record_iff in X; congruence).
      rewrite (compatible_record_other t v Rt' Rv' Sv). cbn [reqr]. split; [|discriminate]. split; [discriminate|].
      intros [(X & _)|[(_ & X & _)|[(a & b & -> & _)|[(a & b & -> & _)|[(X & _)|X]]]]]; try tauto; try discriminate Rt. }
  assert (NR : ~ is_record t). { intros X. apply record_iff in X. congruence. }
  assert (Other : (forall a, t <> TPtr a) -> match t with TBasic BVaList => False | _ => True end ->
    (@Err unit = Ok tt <-> assigns G t e v) /\ @Err unit <> Bad).
  { intros NPt _. split; [|discriminate]. split; [discriminate|].
    intros [(X & _)|[(X & _)|[(a & b & X & _)|[(a & b & X & _)|[((a & X) & _)|X]]]]]; try tauto; destruct (NPt _ X). }
  destruct t as [b|a|b q a|q a|r m ps el|c i es u|c i fs|c i fs]; try (apply Other; [discriminate|exact I]); try discriminate Rt; try discriminate A.
  - assert (b <> BVaList) by congruence. destruct b; try discriminate A; try congruence. cbv beta iota. apply Other; [discriminate|exact I].
  - (* pointers *)
    destruct (pointer v) eqn:Pv.
    + destruct v as [|b| | | | | |]; try discriminate Pv. cbv zeta. rewrite (unqualified_strip a), (unqualified_strip b).
      destruct (O2 a b eq_refl eq_refl) as (O21 & O22).
      assert (Q : qualifiers_kept (n_quals b) (n_quals a) = true <-> all_quals_of (quals a) (quals b)) by apply qualifiers_iff.
      assert (Null : npc G e -> strip b = void /\ quals b = unq).
      { intros N. destruct (NP N) as (_ & [(i & X)|X]); [discriminate X|]. injection X as ->. split; reflexivity. }
      assert (QN : quals b = unq -> all_quals_of (quals a) (quals b)) by (intros ->; repeat split; discriminate).
      destruct (is_void (strip a)) eqn:Va; [|destruct (is_void (strip b)) eqn:Vb]; cbn [negb andb].
      * apply is_void_iff in Va. split; [|destruct (qualifiers_kept _ _); discriminate]. split.
        -- intros X. destruct (qualifiers_kept _ _) eqn:K; [|discriminate X]. destruct (O21 (or_introl Va)) as [N|(F1 & F2)].
           ++ right. right. right. right. left. split; [exists a; reflexivity|exact N].
           ++ right. right. right. left. exists a, b. repeat (split; [auto|]); apply Q; reflexivity.
        -- intros X. assert (K : all_quals_of (quals a) (quals b)).
           { destruct X as [(X & _)|[(X & _)|[(? & ? & E1 & E2 & _ & X)|[(? & ? & E1 & E2 & _ & _ & _ & X)|[(_ & X)|X]]]]]; try tauto.
             - injection E1 as <-. injection E2 as <-. exact X.
             - injection E1 as <-. injection E2 as <-. exact X. }
           apply Q in K. now rewrite K.
      * apply is_void_iff in Vb. split; [|destruct (qualifiers_kept _ _); discriminate]. split.
        -- intros X. destruct (qualifiers_kept _ _) eqn:K; [|discriminate X]. destruct (O21 (or_intror Vb)) as [N|(F1 & F2)].
           ++ right. right. right. right. left. split; [exists a; reflexivity|exact N].
           ++ right. right. right. left. exists a, b. repeat (split; [auto|]); apply Q; reflexivity.
        -- intros X. assert (K : all_quals_of (quals a) (quals b)).
           { destruct X as [(X & _)|[(X & _)|[(? & ? & E1 & E2 & _ & X)|[(? & ? & E1 & E2 & _ & _ & _ & X)|[(_ & X)|X]]]]]; try tauto.
             - injection E1 as <-. injection E2 as <-. exact X.
             - injection E1 as <-. injection E2 as <-. exact X. }
           apply Q in K. now rewrite K.
      * assert (Va' : strip a <> void) by (intros X; apply is_void_iff in X; congruence).
        assert (Vb' : strip b <> void) by (intros X; apply is_void_iff in X; congruence).
        destruct (O22 Va' Vb') as (O & U & F). destruct (compatible (strip a) (strip b)) eqn:C; try congruence; cbn [reqr].
        -- split; [|destruct (qualifiers_kept _ _); discriminate]. split.
           ++ intros X. destruct (qualifiers_kept _ _) eqn:K; [|discriminate X]. right. right. left. exists a, b.
              split; [reflexivity|]. split; [reflexivity|]. split; [now apply O|now apply Q].
           ++ intros X. assert (K : all_quals_of (quals a) (quals b)).
              { destruct X as [(X & _)|[(X & _)|[(? & ? & E1 & E2 & _ & X)|[(? & ? & E1 & E2 & _ & _ & _ & X)|[(_ & X)|X]]]]]; try tauto.
                - injection E1 as <-. injection E2 as <-. exact X.
                - injection E1 as <-. injection E2 as <-. exact X. }
              apply Q in K. now rewrite K.
        -- split; [|discriminate]. split; [discriminate|].
           intros [(X & _)|[(X & _)|[(? & ? & E1 & E2 & X & _)|[(? & ? & E1 & E2 & X & _)|[(_ & X)|X]]]]]; try tauto.
           ++ injection E1 as <-. injection E2 as <-. apply O in X. discriminate X.
           ++ injection E1 as <-. injection E2 as <-. tauto.
    + assert (NPv : ~ is_pointer v) by (intros X; apply pointer_iff in X; congruence).
      assert (Int : (req (integral v) (match v with TEnum _ _ _ _ => if n_const p then Ok tt else Err | _ => req (n_const p || pointer_fits v) (Ok tt) end) = Ok tt <-> assigns G (TPtr a) e v) /\
        req (integral v) (match v with TEnum _ _ _ _ => if n_const p then Ok tt else Err | _ => req (n_const p || pointer_fits v) (Ok tt) end) <> Bad).
      { destruct (integral v) eqn:Iv; cbn [req].
        - pose proof (proj1 (integral_iff _ Ev) Iv) as Iv'.
          assert (X : match v with TEnum _ _ _ _ => if n_const p then Ok tt else Err | _ => req (n_const p || pointer_fits v) (Ok tt) end = req (n_const p || pointer_fits v) (Ok tt)).
          { destruct v; try reflexivity. cbn [pointer_fits]. rewrite orb_false_r. destruct (n_const p); reflexivity. }
          rewrite X. clear X. split; [|destruct (_ || _); discriminate].
          destruct (O3 (ex_intro _ a eq_refl) Iv') as [N|(C & W)].
          + destruct (NP N) as (-> & _). cbn. split; [|reflexivity]. intros _. right. right. right. right. left. split; [eexists; reflexivity|exact N].
          + apply CF in C. rewrite C. assert (PF : pointer_fits v = false).
            { destruct (pointer_fits v) eqn:PF; [|reflexivity]. apply pointer_fits_iff in PF. tauto. }
            rewrite PF. cbn. split; [discriminate|].
            intros [(X & _)|[(X & _)|[(? & ? & _ & E2 & _)|[(? & ? & _ & E2 & _)|[(_ & X)|X]]]]]; try tauto.
            * destruct NPv. eexists. exact E2.
            * destruct NPv. eexists. exact E2.
            * apply NP in X. destruct X. congruence.
        - split; [|discriminate]. split; [discriminate|].
          intros [(X & _)|[(X & _)|[(? & ? & _ & E2 & _)|[(? & ? & _ & E2 & _)|[(_ & X)|X]]]]]; try tauto.
          + destruct NPv. eexists. exact E2.
          + destruct NPv. eexists. exact E2.
          + apply NP in X. destruct X as (_ & [X|X]); [|destruct NPv; eexists; exact X]. apply integral_iff in X; [congruence|exact Ev]. }
      destruct v; try discriminate Pv; exact Int.
Qed.

(** ** sizeof, _Alignof and casts *)

Lemma is_function_iff : forall t, tame t -> (is_function t = true <-> function t).
Proof.
  intros t (_ & _ & T). unfold function. destruct t; cbn; try (split; [discriminate|tauto]); [|tauto].
  destruct T as (_ & T). destruct t; try destruct T; split; try discriminate; intros [].
Qed.
Lemma v_sizeof : forall t b, tame t ->
  vmatches (negb (vl_array (completion G t))) (an_sizeof G t b) (fun t' => complete G t /\ b = None /\ t' = TBasic BSInt).
Proof.
  intros t b T. unfold an_sizeof. rewrite completion_current.
  eapply v_iff; [apply (v_req _ _ _ (b = None)); [|intros _; apply (v_req _ _ _ (~ function t)); [|intros NF; apply (v_req _ _ _ (complete G t)); [|intros _; apply v_ok]]]|].
  - destruct b; cbn; split; congruence.
  - rewrite negb_true_iff. pose proof (is_function_iff t T) as X. destruct (is_function t); split; try discriminate; try tauto; try reflexivity.
    intros _ F. apply X in F. discriminate F.
  - rewrite negb_true_iff. now apply incomplete_current.
  - intros t'. cbn. split; [tauto|]. intros (C & B & E). repeat split; auto. intros F. now apply incomplete_function in F.
Qed.
Lemma v_alignof : forall t, tame t -> vmatches true (an_alignof G t) (fun t' => complete G t /\ t' = TBasic BSInt).
Proof.
  intros t T. unfold an_alignof. rewrite completion_current.
  eapply v_iff; [apply (v_req _ _ _ (~ function t)); [|intros NF; apply (v_req _ _ _ (complete G t)); [|intros _; apply v_ok]]|].
  - rewrite negb_true_iff. pose proof (is_function_iff t T) as X. destruct (is_function t); split; try discriminate; try tauto; try reflexivity.
    intros _ F. apply X in F. discriminate F.
  - rewrite negb_true_iff. now apply incomplete_current.
  - intros t'. cbn. split; [tauto|]. intros (C & E). repeat split; auto. intros F. now apply incomplete_function in F.
Qed.
Lemma vl_array_current : forall t, vl_array (completion G t) = vl_array t.
Proof.
  intros t. rewrite completion_current. pose proof (current_shape t) as X. destruct t; try (now rewrite X).
  - rewrite X. destruct (current G t); reflexivity.
  - destruct (current G (TStruct _ _ _)); try destruct X; reflexivity.
  - destruct (current G (TUnion _ _ _)); try destruct X; reflexivity.
Qed.
Lemma node_sizeof : forall a p t1 k1, rel a p t1 k1 -> tame t1 -> match strip t1 with TArr (Vla _ | VlaStatic _) _ _ => False | _ => True end ->
  matches (ESizeof a) (an_sizeof G (n_type p) (n_bits p)) (fun t k => (complete G t1 /\ k_bits k1 = None /\ t = TBasic BSInt) /\ k = rvalue).
Proof.
  intros a p t1 k1 R T V. rewrite (r_type _ _ _ _ R), (r_bits _ _ _ _ R). eapply matches_value; [reflexivity|now apply v_sizeof| |reflexivity|].
  - intros t (_ & _ & ->) [].
  - intros _. rewrite vl_array_current. destruct t1; try reflexivity. destruct b; try reflexivity; destruct V.
Qed.
Lemma node_sizeof_type : forall t1, tame t1 ->
  matches (ESizeofT t1) (an_sizeof G t1 None) (fun t k => complete G t1 /\ t = TBasic BSInt /\ k = rvalue).
Proof.
  intros t1 T. eapply matches_iff; [eapply matches_value; [reflexivity|now apply v_sizeof| |reflexivity|]|].
  - intros t (_ & _ & ->) [].
  - intros N. apply null_form_ice in N; [|exact I]. cbn in N. rewrite vl_array_current. destruct t1; try reflexivity. destruct b; try reflexivity; destruct N.
  - cbn. intros t k. tauto.
Qed.
Lemma node_alignof : forall t1, tame t1 ->
  matches (EAlignofT t1) (an_alignof G t1) (fun t k => complete G t1 /\ t = TBasic BSInt /\ k = rvalue).
Proof.
  intros t1 T. eapply matches_iff; [eapply matches_value; [reflexivity|now apply v_alignof| |reflexivity|]|].
  - intros t (_ & ->) [].
  - reflexivity.
  - cbn. intros t k. tauto.
Qed.

Lemma scalar_function : forall t, is_scalar t -> ~ function t.
Proof.
  intros t [A|(a & ->)] F; [|exact F]. unfold is_arithmetic, arith_of, function in *. destruct t; cbn in *; try congruence; destruct F.
Qed.
Lemma floating_pointer : forall v, is_floating v -> is_pointer v -> False.
Proof. intros v [->|[->| ->]] (a & H); discriminate H. Qed.
Lemma node_cast : forall c a p t1 k1, analyze G a = Ok p -> rel a p t1 k1 -> tame t1 -> tame c -> (strip c = void -> c = void) ->
  matches (ECast c a) (an_cast c p) (fun t k => (rule_cast c (value_type t1) /\ t = strip c) /\ k = rvalue).
Proof.
  intros c a p t1 k1 H R T Tc Vc. unfold an_cast. rewrite (r_type _ _ _ _ R), conv_value, unqualified_strip by exact T.
  pose proof (value_enum _ T) as Ev. pose proof (strip_enum _ Tc) as Ec. set (v := value_type t1) in *.
  eapply (matches_value _ (n_const p)); [reflexivity| | |apply R|].
  - eapply v_iff; [apply (v_req _ _ _ ((is_scalar v /\ is_scalar (strip c)) \/ c = void)); [|intros _; apply (v_req _ _ _ (~ (is_floating (strip c) /\ is_pointer v)));
      [|intros _; apply (v_req _ _ _ (~ (is_floating v /\ is_pointer (strip c)))); [|intros _; apply v_ok]]]|].
    + rewrite orb_true_iff, andb_true_iff, !scalar_iff, is_void_iff by auto. tauto.
    + rewrite negb_true_iff, <- floating_iff, <- pointer_iff. destruct (floating (strip c)), (pointer v); cbn; intuition congruence.
    + rewrite negb_true_iff, <- floating_iff, <- pointer_iff. destruct (floating v), (pointer (strip c)); cbn; intuition congruence.
    + intros t. unfold rule_cast. cbn. split.
      * intros ([(A & B)| ->] & C & D & E); [tauto|]. tauto.
      * intros ([X|(A & B & C & D)] & E); [|tauto]. rewrite X in *. specialize (Vc eq_refl). split; [now right|]. repeat split; auto.
        -- intros ([Y|[Y|Y]] & _); discriminate Y.
        -- intros (_ & (y & Y)). discriminate Y.
  - cbn. intros t ([X|(A & _)] & ->); [rewrite X; intros []|now apply scalar_function].
  - intros [X|(? & ? & E & _ & X)].
    + cbn in X. destruct X as (_ & [X|(k & z & ->)]); [apply R; now left|]. cbn in H. injection H as <-. reflexivity.
    + injection E as <- <-. apply R. now left.
Qed.

(** ** Unary operators *)

Lemma v_promoted : forall v b c, enum_ok v -> bits_ok v b ->
  vmatches c (req (integral v) (of_type (int_promotion v b) (fun t => Ok (value t c)))) (promoted_to v b).
Proof.
  intros v b c Ev B. destruct (integral v) eqn:Iv; cbn [req].
  - apply integral_iff in Iv; [|exact Ev]. destruct Iv as (i & A). rewrite (int_promotion_spec _ _ _ B A). cbn [of_type].
    eapply v_iff; [apply v_ok|]. intros t. unfold promoted_to. cbn. split; [intros ->; eauto|]. intros (j & A' & ->). congruence.
  - apply v_none. intros t (i & A & _). assert (X : integral v = true) by (apply integral_iff; [exact Ev|]; now exists i). congruence.
Qed.
Lemma promoted_function : forall v b t, promoted_to v b t -> ~ function t.
Proof. intros v b t (i & _ & ->) F. exact F. Qed.

Lemma floating_integral : forall v, floating v = true -> integral v = false.
Proof. intros v H. apply floating_iff in H. destruct H as [->|[->| ->]]; reflexivity. Qed.

Lemma target_id : forall x p t k, analyze G (EId x) = Ok p -> rel (EId x) p t k -> tame t -> array t \/ function t -> n_lvalue p = false.
Proof.
  intros x p t k H R T D. cbn in H. unfold an_id in H. pose proof (r_type _ _ _ _ R) as Et. destruct S as (_ & SO & _).
  destruct (c_ids G x) as [[t' s|t'|z]|] eqn:E; try discriminate H; injection H as <-; try reflexivity. cbn in *. subst t'.
  destruct D as [D|D]; [|destruct (SO _ _ _ E D)]. unfold array in D. destruct t; try destruct D; try reflexivity.
  destruct T as (_ & _ & _ & T). cbn in D. destruct t; destruct T; destruct D.
Qed.
Lemma tame_strip : forall t, tame t -> strip (strip t) = strip t.
Proof. intros t (_ & _ & T). destruct t; try reflexivity. destruct T as (_ & T). destruct t; try reflexivity. destruct T. Qed.
Lemma const_free_target : forall t, tame t -> const_free (current G (strip t)) -> (q_const (n_quals t) = false <-> const_free (current G t)).
Proof.
  intros t T C. assert (Other : strip t = t -> n_quals t = Q false false false -> (q_const (n_quals t) = false <-> const_free (current G t))).
  { intros E ->. rewrite E in C. cbn. tauto. }
  destruct t; try (apply Other; reflexivity). clear Other. cbn [strip n_quals] in *.
  pose proof (current_qual t) as X. pose proof (tame_strip _ T) as Y. cbn in Y. specialize (X Y). cbn [current].
  assert (Z : add_qual q (current G t) = TQual q (current G t)).
  { destruct (current G t) eqn:E; try reflexivity. exfalso. clear - X. cbn in X. revert q0 X. induction t0; intros; try discriminate. injection X as -> X. eapply IHt0, X. }
  rewrite Z. cbn. tauto.
Qed.
Lemma target_spec : forall a p t k, analyze G a = Ok p -> rel a p t k -> tame t -> ok_target G a t ->
  (n_lvalue p = true /\ q_const (n_quals t) = false <-> modifiable G t k).
Proof.
  intros a p t k H R T [((x & ->) & D)|(NA & C & CF & RT)].
  - rewrite (target_id _ _ _ _ H R T D). unfold modifiable. split; [intros (X & _); discriminate X|].
    intros (_ & NA & C & _). destruct D as [D|D]; [tauto|]. now apply incomplete_function in D.
  - unfold modifiable. rewrite (const_free_target t T CF).
    assert (NF : ~ function t) by (intros F; now apply incomplete_function in F).
    assert (NV : strip t <> void) by (intros V; unfold complete in C; rewrite V in C; exact C).
    split.
    + intros (L & Q). split; [|tauto]. now apply (r_lvalue' _ _ _ _ R).
    + intros (L & _ & _ & Q). split; [|exact Q]. now apply (r_lvalue _ _ _ _ R).
Qed.

Lemma v_incdec : forall a p t1 k1, analyze G a = Ok p -> rel a p t1 k1 -> tame t1 -> ok_target G a t1 -> element G (strip t1) ->
  vmatches false (req (n_lvalue p) (req (negb (q_const (n_quals t1))) (req (scalar (strip t1)) (Ok (value (strip t1) false)))))
    (fun t => modifiable G t1 k1 /\ t = strip t1 /\ (is_arithmetic t \/ exists a, t = TPtr a /\ complete G a)).
Proof.
  intros a p t1 k1 H R T O E. pose proof (target_spec _ _ _ _ H R T O) as X.
  eapply v_iff; [apply (v_req _ _ _ (n_lvalue p = true)); [tauto|intros _; apply (v_req _ _ _ (q_const (n_quals t1) = false)); [apply negb_true_iff|intros _;
    apply (v_req _ _ _ (is_scalar (strip t1))); [apply scalar_iff; now apply strip_enum|intros _; apply v_ok]]]|].
  intros t. cbn. split.
  - intros (A & B & C & ->). split; [tauto|]. split; [reflexivity|]. destruct C as [C|(b & C)]; [now left|right]. exists b. split; [exact C|]. now apply E.
  - intros (A & -> & C). apply X in A. repeat split; try tauto. destruct C as [C|(b & C & _)]; [now left|right]. now exists b.
Qed.

Lemma node_unary : forall o a p t1 k1, analyze G a = Ok p -> rel a p t1 k1 -> tame t1 -> bits_ok (value_type t1) (k_bits k1) -> ok_unary G o a t1 ->
  matches (EUn o a) (an_unary o p) (rule_unary G o a t1 k1).
Proof.
  intros o a p t1 k1 H R T B O. unfold an_unary. rewrite (r_type _ _ _ _ R), (r_bits _ _ _ _ R), conv_value, !unqualified_strip by exact T.
  pose proof (value_enum _ T) as Ev. set (v := value_type t1) in *.
  assert (Plus : forall e, valuable e = true -> (n_const p = true -> constant_form G e = true) -> (null_form e -> n_const p = true) ->
    matches e (req (arithmetic v) (if integral v then of_type (int_promotion v (k_bits k1)) (fun t' => Ok (value t' (n_const p))) else Ok (value v (n_const p))))
      (fun t k => k = rvalue /\ ((is_floating v /\ t = v) \/ promoted_to v (k_bits k1) t))).
  { intros e Ve Ce Ne. eapply matches_iff; [eapply (matches_value _ (n_const p) _ (fun t => (is_floating v /\ t = v) \/ promoted_to v (k_bits k1) t)); auto|].
    - destruct (integral v) eqn:Iv.
      + unfold arithmetic. rewrite Iv. cbn [orb req]. pose proof (v_promoted v (k_bits k1) (n_const p) Ev B) as X. rewrite Iv in X. cbn [req] in X.
        eapply v_iff; [exact X|]. intros t. split; [tauto|]. intros [(F & _)|Y]; [|exact Y]. apply floating_iff in F. apply floating_integral in F. congruence.
      + destruct (arithmetic v) eqn:A; cbn [req].
        * eapply v_iff; [apply v_ok|]. intros t. cbn. split.
          -- intros ->. left. split; [|reflexivity]. apply floating_iff. unfold arithmetic in A. now rewrite Iv in A.
          -- intros [(_ & ->)|(i & X & _)]; [reflexivity|]. assert (Y : integral v = true) by (apply integral_iff; [exact Ev|now exists i]). congruence.
        * apply v_none. intros t [(F & _)|(i & X & _)].
          -- apply floating_iff in F. unfold arithmetic in A. rewrite F, Iv in A. discriminate A.
          -- assert (Y : integral v = true) by (apply integral_iff; [exact Ev|now exists i]). congruence.
    - cbn. intros t [(F & ->)|F]; [apply scalar_function; left|now apply promoted_function in F].
      apply arithmetic_iff; [exact Ev|]. apply floating_iff in F. unfold arithmetic. now rewrite F, orb_true_r.
    - cbn. intros t k. tauto. }
  destruct o; cbn [rule_unary].
  - apply Plus; auto; [apply R|]. intros N. apply null_form_ice in N; [|exact I]. apply R. now left.
  - apply Plus; auto; [apply R|]. intros N. apply null_form_ice in N; [|exact I]. apply R. now left.
  - eapply matches_iff; [eapply (matches_value _ (n_const p)); [reflexivity|now apply v_promoted|apply promoted_function|apply R|]|].
    + intros N. apply null_form_ice in N; [|exact I]. apply R. now left.
    + cbn. intros t k. tauto.
  - eapply matches_iff; [eapply (matches_value _ (n_const p)); [reflexivity|apply (v_req _ _ _ (is_scalar v)); [now apply scalar_iff|intros _; apply v_ok]| |apply R|]|].
    + cbn. intros t (_ & ->) [].
    + intros N. apply null_form_ice in N; [|exact I]. apply R. now left.
    + cbn. intros t k. tauto.
  - destruct O as (O & E); eapply matches_iff; [eapply (matches_value _ false); [reflexivity|eapply v_incdec; eauto| |discriminate|]|];
    [cbn; intros t (_ & -> & D); apply scalar_function; destruct D as [D|(b & D & _)]; [now left|right; now exists b]
    |intros N; apply null_form_ice in N; [destruct N|exact I]|cbn; intros t k; tauto].
  - destruct O as (O & E); eapply matches_iff; [eapply (matches_value _ false); [reflexivity|eapply v_incdec; eauto| |discriminate|]|];
    [cbn; intros t (_ & -> & D); apply scalar_function; destruct D as [D|(b & D & _)]; [now left|right; now exists b]
    |intros N; apply null_form_ice in N; [destruct N|exact I]|cbn; intros t k; tauto].
  - destruct O as (O & E); eapply matches_iff; [eapply (matches_value _ false); [reflexivity|eapply v_incdec; eauto| |discriminate|]|];
    [cbn; intros t (_ & -> & D); apply scalar_function; destruct D as [D|(b & D & _)]; [now left|right; now exists b]
    |intros N; apply null_form_ice in N; [destruct N|exact I]|cbn; intros t k; tauto].
  - destruct O as (O & E); eapply matches_iff; [eapply (matches_value _ false); [reflexivity|eapply v_incdec; eauto| |discriminate|]|];
    [cbn; intros t (_ & -> & D); apply scalar_function; destruct D as [D|(b & D & _)]; [now left|right; now exists b]
    |intros N; apply null_form_ice in N; [destruct N|exact I]|cbn; intros t k; tauto].
  - destruct O as (NS & M). eapply matches_iff; [eapply (matches_value _ (n_ref p)); [reflexivity| | |reflexivity|]|].
    + apply (v_req _ _ _ (may_take_address a t1 k1)); [|intros _; apply v_ok]. split; intros X; [apply (r_addr' _ _ _ _ R X M)|apply (r_addr _ _ _ _ R X NS)].
    + cbn. intros t (_ & ->) F. exact F.
    + intros N. apply null_form_ice in N; [destruct N|exact I].
    + cbn. intros t k. tauto.
  - assert (RD : forall b k, k_register k = false /\ k_bits k = None /\ (k_lvalue k = true <-> ~ function b /\ strip b <> void) ->
      rel (EUn UDeref a) (P b (negb (is_function b)) true None false false) b k).
    { intros b k (K1 & K2 & K3). constructor; cbn; auto; try discriminate.
      - intros L _. apply K3 in L. destruct L as (NF & _). destruct b; try reflexivity. destruct NF. exact I.
      - intros _ NV NF _. now apply K3.
      - intros _ _. right. right. left. eauto.
      - intros N. apply null_form_ice in N; [destruct N|exact I]. }
    subst v. destruct (value_type t1) as [| b | | | | | |] eqn:Evv;
      try (split; [|split; [discriminate|discriminate]]; intros ? ? (X & _); rewrite Evv in X; discriminate X).
    split; [|split; [|discriminate]].
    + intros t k (X & K). rewrite Evv in X. injection X as <-. eexists. split; [reflexivity|]. now apply RD.
    + intros q X. injection X as <-.
      assert (KK : exists k, k_register k = false /\ k_bits k = None /\ (k_lvalue k = true <-> ~ function b /\ strip b <> void)).
      { exists (K (negb (is_function (strip b)) && negb (is_void (strip b))) false None). cbn. repeat split; auto.
        - intros F. unfold function in F. destruct (strip b); try destruct F; discriminate.
        - intros V. rewrite V in H0. discriminate H0.
        - intros (NF & NV). rewrite andb_true_iff, !negb_true_iff. split.
          + unfold function in NF. destruct (strip b); try reflexivity. destruct NF. exact I.
          + destruct (is_void (strip b)) eqn:V; [|reflexivity]. apply is_void_iff in V. tauto. }
      destruct KK as (k & KK). exists b, k. split; [split; [exact Evv|exact KK]|]. now apply RD.
Qed.

(** ** Binary operators *)

Section Binary.
Variables (e1 e2 : expr) (p1 p2 : props) (t1 t2 : ty) (k1 k2 : cat).
Hypothesis (H1 : analyze G e1 = Ok p1) (H2 : analyze G e2 = Ok p2).
Hypothesis (R1 : rel e1 p1 t1 k1) (R2 : rel e2 p2 t2 k2).
Hypothesis (T1 : tame t1) (T2 : tame t2).
Hypothesis (B1 : bits_ok (value_type t1) (k_bits k1)) (B2 : bits_ok (value_type t2) (k_bits k2)).
Local Notation v1 := (value_type t1).
Local Notation v2 := (value_type t2).
Local Notation b1 := (k_bits k1).
Local Notation b2 := (k_bits k2).

Lemma v_common : forall c, no_mix v1 b1 v2 b2 -> arithmetic v1 = true -> arithmetic v2 = true ->
  vmatches c (of_type (common_arithmetic v1 b1 v2 b2) (fun t => Ok (value t c))) (common_type v1 b1 v2 b2).
Proof.
  intros c M A1 A2. pose proof (value_enum _ T1) as E1. pose proof (value_enum _ T2) as E2.
  destruct (common_total v1 b1 v2 b2 E1 E2 B1 B2 M A1 A2) as (t & X). rewrite X. cbn [of_type].
  eapply v_iff; [apply v_ok|]. intros t'. cbn. rewrite (common_spec v1 b1 v2 b2 E1 E2 B1 B2 M t'), X. intuition congruence.
Qed.
Lemma v_arithmetic : forall c, no_mix v1 b1 v2 b2 -> vmatches c (an_arithmetic v1 b1 v2 b2 c) (common_type v1 b1 v2 b2).
Proof.
  intros c M. pose proof (value_enum _ T1) as E1. pose proof (value_enum _ T2) as E2. unfold an_arithmetic, an_common.
  eapply v_iff; [apply (v_req _ _ _ (is_arithmetic v1)); [now apply arithmetic_iff|intros A1; apply (v_req _ _ _ (is_arithmetic v2)); [now apply arithmetic_iff|intros A2;
    apply v_common; auto; apply arithmetic_iff; auto]]|].
  intros t. cbn. split; [tauto|]. intros X. pose proof (common_arith _ _ _ _ _ X). tauto.
Qed.
Lemma integer_arithmetic : forall v, is_integer v -> is_arithmetic v.
Proof. intros v (i & X). unfold is_arithmetic. congruence. Qed.
Lemma v_integral : forall c, no_mix v1 b1 v2 b2 -> vmatches c (an_integral v1 b1 v2 b2 c) (fun t => is_integer v1 /\ is_integer v2 /\ common_type v1 b1 v2 b2 t).
Proof.
  intros c M. pose proof (value_enum _ T1) as E1. pose proof (value_enum _ T2) as E2. unfold an_integral, an_common.
  apply (v_req _ _ _ (is_integer v1)); [now apply integral_iff|intros A1; apply (v_req _ _ _ (is_integer v2)); [now apply integral_iff|intros A2]].
  apply v_common; auto; apply arithmetic_iff; auto using integer_arithmetic.
Qed.

Lemma complete_pointer_iff : forall v, steady G v -> (complete_pointer v = true <-> pointer_to_object G v).
Proof.
  intros v St. unfold pointer_to_object. destruct v as [|a| | | | | |]; try (split; [discriminate|intros (a & X & _); discriminate X]).
  destruct (St a eq_refl) as (NF & NS & _). cbn. rewrite negb_true_iff, (incomplete_stale a NS NF). split; [eauto|]. intros (b & X & C). injection X as <-. exact C.
Qed.
Lemma object_pointer : forall v, pointer_to_object G v -> is_pointer v.
Proof. intros v (a & X & _). now exists a. Qed.
Lemma pointer_not_integer : forall v, is_pointer v -> is_integer v -> False.
Proof. intros v (a & ->) (i & X). discriminate X. Qed.
Lemma pointer_not_arithmetic : forall v, is_pointer v -> is_arithmetic v -> False.
Proof. intros v (a & ->) X. now apply X. Qed.

Lemma v_add : forall c, no_mix v1 b1 v2 b2 -> steady G v1 -> steady G v2 ->
  vmatches c (an_add v1 b1 v2 b2 c) (fun t => common_type v1 b1 v2 b2 t \/ (pointer_to_object G v1 /\ is_integer v2 /\ t = v1) \/ (is_integer v1 /\ pointer_to_object G v2 /\ t = v2)).
Proof.
  intros c M S1 S2. pose proof (value_enum _ T1) as E1. pose proof (value_enum _ T2) as E2. unfold an_add.
  destruct (complete_pointer v1) eqn:C1; [|destruct (complete_pointer v2) eqn:C2].
  - apply complete_pointer_iff in C1; [|exact S1]. pose proof (object_pointer _ C1) as P1.
    eapply v_iff; [apply (v_req _ _ _ (is_integer v2)); [now apply integral_iff|intros _; apply v_ok]|]. intros t. cbn. split; [tauto|].
    intros [X|[X|(X & _)]]; [|tauto|].
    + apply common_arith in X. destruct (pointer_not_arithmetic _ P1); tauto.
    + destruct (pointer_not_integer _ P1 X).
  - apply complete_pointer_iff in C2; [|exact S2]. pose proof (object_pointer _ C2) as P2.
    eapply v_iff; [apply (v_req _ _ _ (is_integer v1)); [now apply integral_iff|intros _; apply v_ok]|]. intros t. cbn. split; [tauto|].
    intros [X|[(_ & X & _)|X]]; [| |tauto].
    + apply common_arith in X. destruct (pointer_not_arithmetic _ P2); tauto.
    + destruct (pointer_not_integer _ P2 X).
  - eapply v_iff; [now apply v_arithmetic|]. intros t. cbn. split; [tauto|]. intros [X|[(X & _)|(_ & X & _)]]; [exact X| |].
    + apply complete_pointer_iff in X; [congruence|assumption].
    + apply complete_pointer_iff in X; [congruence|assumption].
Qed.

Lemma steady_strip : forall v a, steady G v -> v = TPtr a -> (incomplete (unqualified a) = false <-> complete G a).
Proof.
  intros v a St ->. destruct (St a eq_refl) as (NF & NS & SS). rewrite <- (incomplete_stale a NS NF), unqualified_strip.
  unfold incomplete. rewrite !unqualified_strip, SS. tauto.
Qed.
Lemma v_subtract : forall c, no_mix v1 b1 v2 b2 -> steady G v1 -> steady G v2 -> (forall a b, v1 = TPtr a -> v2 = TPtr b -> exact (strip a) (strip b)) ->
  vmatches c (an_subtract v1 b1 v2 b2 c) (fun t => common_type v1 b1 v2 b2 t \/ (pointer_to_object G v1 /\ is_integer v2 /\ t = v1) \/
    (exists a b, v1 = TPtr a /\ v2 = TPtr b /\ complete G a /\ complete G b /\ conforms (strip a) (strip b) /\ t = TBasic BSLong)).
Proof.
  intros c M S1 S2 EX. pose proof (value_enum _ T1) as E1. pose proof (value_enum _ T2) as E2.
  assert (Other : pointer v1 && pointer v2 = false ->
    vmatches c (if complete_pointer v1 then req (integral v2) (Ok (value v1 c)) else an_arithmetic v1 b1 v2 b2 c)
     (fun t => common_type v1 b1 v2 b2 t \/ (pointer_to_object G v1 /\ is_integer v2 /\ t = v1) \/
      (exists a b, v1 = TPtr a /\ v2 = TPtr b /\ complete G a /\ complete G b /\ conforms (strip a) (strip b) /\ t = TBasic BSLong))).
  { intros NP. destruct (complete_pointer v1) eqn:C1.
    - apply complete_pointer_iff in C1; [|exact S1]. pose proof (object_pointer _ C1) as P1.
      eapply v_iff; [apply (v_req _ _ _ (is_integer v2)); [now apply integral_iff|intros _; apply v_ok]|]. intros t. cbn. split; [tauto|].
      intros [X|[X|(a & b & X & Y & _)]]; [|tauto|].
      + apply common_arith in X. destruct (pointer_not_arithmetic _ P1); tauto.
      + rewrite X, Y in NP. discriminate NP.
    - eapply v_iff; [now apply v_arithmetic|]. intros t. cbn. split; [tauto|]. intros [X|[(X & _)|(a & b & X & Y & _)]]; [exact X| |].
      + apply complete_pointer_iff in X; [congruence|assumption].
      + rewrite X, Y in NP. discriminate NP. }
  unfold an_subtract. destruct (pointer v1 && pointer v2) eqn:PP.
  2:{ specialize (Other eq_refl). destruct v1; try exact Other. destruct v2; try exact Other. discriminate PP. }
  apply andb_true_iff in PP. destruct PP as (P1 & P2). apply pointer_iff in P1, P2. destruct P1 as (a & V1). destruct P2 as (b & V2).
  pose proof (steady_strip _ _ S1 V1) as X1. pose proof (steady_strip _ _ S2 V2) as X2. specialize (EX a b V1 V2).
  rewrite V1, V2. eapply v_iff; [apply (v_req _ _ _ (complete G a)); [now rewrite negb_true_iff|intros _; apply (v_req _ _ _ (complete G b)); [now rewrite negb_true_iff|intros _;
    rewrite (unqualified_strip a), (unqualified_strip b); apply compound_reqr; [exact EX|intros _; apply v_ok]]]|].
  intros t. cbn. split.
  - intros (A & B & C & ->). right. right. exists a, b. auto 10.
  - intros [X|[(_ & (i & X) & _)|(a' & b' & A & B & C & D & E & F)]]; [destruct X|discriminate X|]. injection A as <-. injection B as <-. tauto.
Qed.

Lemma v_shift : forall c, vmatches c (req (integral v1) (req (integral v2) (of_type (int_promotion v1 b1) (fun t => Ok (value t c)))))
  (fun t => is_integer v2 /\ promoted_to v1 b1 t).
Proof.
  intros c. pose proof (value_enum _ T1) as E1. pose proof (value_enum _ T2) as E2. pose proof (v_promoted v1 b1 c E1 B1) as X.
  destruct (integral v2) eqn:I2; cbn [req].
  - eapply v_iff; [exact X|]. intros t. cbn. apply integral_iff in I2; [|exact E2]. tauto.
  - assert (N : ~ is_integer v2) by (intros Y; apply integral_iff in Y; [congruence|exact E2]). destruct (integral v1); apply v_none; intros t (Y & _); tauto.
Qed.

Lemma v_relational : forall c, (forall a b, v1 = TPtr a -> v2 = TPtr b -> ~ function a /\ ~ function b /\ exact (strip a) (strip b)) ->
  vmatches c (an_relational v1 v2 c) (fun t => t = TBasic BSInt /\ ((is_arithmetic v1 /\ is_arithmetic v2) \/
     exists a b, v1 = TPtr a /\ v2 = TPtr b /\ ~ function a /\ ~ function b /\ conforms (strip a) (strip b))).
Proof.
  intros c EX. pose proof (value_enum _ T1) as E1. pose proof (value_enum _ T2) as E2. unfold an_relational.
  destruct (pointer v1 && pointer v2) eqn:PP.
  - apply andb_true_iff in PP. destruct PP as (P1 & P2). apply pointer_iff in P1, P2. destruct P1 as (a & V1). destruct P2 as (b & V2).
    destruct (EX a b V1 V2) as (N1 & N2 & X). rewrite V1, V2, (unqualified_strip a), (unqualified_strip b).
    eapply v_iff; [apply compound_reqr; [exact X|intros _; apply v_ok]|]. intros t. cbn. split.
    + intros (C & ->). split; [reflexivity|]. right. exists a, b. auto 10.
    + intros (-> & [(Y & _)|(a' & b' & A & B & _ & _ & C)]); [destruct Y; reflexivity|]. injection A as <-. injection B as <-. auto.
  - assert (X : vmatches c (req (arithmetic v1 && arithmetic v2) (Ok (value int_t c))) (fun t => t = TBasic BSInt /\ ((is_arithmetic v1 /\ is_arithmetic v2) \/
     exists a b, v1 = TPtr a /\ v2 = TPtr b /\ ~ function a /\ ~ function b /\ conforms (strip a) (strip b)))).
    { eapply v_iff; [apply (v_req _ _ _ (is_arithmetic v1 /\ is_arithmetic v2)); [rewrite andb_true_iff, !arithmetic_iff by auto; tauto|intros _; apply v_ok]|].
      intros t. cbn. split; [tauto|]. intros (A & [B|(a & b & X & Y & _)]); [auto|]. rewrite X, Y in PP. discriminate PP. }
    destruct v1; try exact X. destruct v2; try exact X. discriminate PP.
Qed.

Lemma function_dec : forall a, function a \/ ~ function a.
Proof. intros a. unfold function. destruct (strip a); tauto. Qed.

Lemma v_equality : ok_equal G e1 v1 e2 v2 ->
  vmatches (n_const p1 && n_const p2) (an_equality v1 (n_const p1) v2 (n_const p2)) (fun t => t = TBasic BSInt /\
    ((is_arithmetic v1 /\ is_arithmetic v2) \/
     (exists a b, v1 = TPtr a /\ v2 = TPtr b /\
        (conforms (strip a) (strip b) \/ ((strip a = void \/ strip b = void) /\ ~ function a /\ ~ function b))) \/
     (is_pointer v1 /\ npc G e2) \/ (npc G e1 /\ is_pointer v2))).
Proof.
  intros (O1 & O2 & O3). pose proof (value_enum _ T1) as E1. pose proof (value_enum _ T2) as E2.
  assert (N1 := fun N => npc_value e1 p1 t1 k1 N H1 R1 T1). assert (N2 := fun N => npc_value e2 p2 t2 k2 N H2 R2 T2).
  assert (C1 : constant_form G e1 = false -> n_const p1 = true -> False) by (intros X Y; apply (r_const _ _ _ _ R1) in Y; congruence).
  assert (C2 : constant_form G e2 = false -> n_const p2 = true -> False) by (intros X Y; apply (r_const _ _ _ _ R2) in Y; congruence).
  match goal with |- vmatches ?x _ ?y => set (c := x); set (sp := y) end.
  assert (Yes' : (forall t, sp t <-> t = TBasic BSInt) -> vmatches c (Ok (value int_t c)) sp).
  { intros X. eapply v_iff; [apply v_ok|]. intros t. cbn. symmetry. apply X. }
  unfold an_equality. fold c. destruct (arithmetic v1 && arithmetic v2) eqn:A.
  { apply Yes'. intros t. unfold sp. rewrite andb_true_iff, !arithmetic_iff in A by auto. tauto. }
  assert (NA : ~ (is_arithmetic v1 /\ is_arithmetic v2)) by (rewrite <- !arithmetic_iff by auto; intros (X & Y); rewrite X, Y in A; discriminate A).
  destruct (pointer v1) eqn:P1.
  - apply pointer_iff in P1. pose proof P1 as P1'. destruct P1' as (a & V1).
    destruct (pointer v2) eqn:P2.
    + apply pointer_iff in P2. pose proof P2 as P2'. destruct P2' as (b & V2). specialize (O1 a b V1 V2). destruct O1 as ((EX & NU & NF) & OV).
      replace (match v1 with TPtr a0 => _ | _ => _ end) with
        (match compatible (unqualified a) (unqualified b) with Yes => Ok (value int_t c) | No => req (is_void (unqualified a) || is_void (unqualified b)) (Ok (value int_t c)) | _ => Bad end)
        by (rewrite V1, V2; reflexivity).
      rewrite (unqualified_strip a), (unqualified_strip b).
      destruct (compatible (strip a) (strip b)) eqn:C; try congruence.
      * apply Yes'. intros t. unfold sp. split; [tauto|]. intros ->. split; [reflexivity|]. right. left. exists a, b. split; [exact V1|]. split; [exact V2|]. left. now apply EX.
      * eapply v_iff; [apply (v_req _ _ _ (strip a = void \/ strip b = void)); [now rewrite orb_true_iff, !is_void_iff|intros _; apply v_ok]|].
        intros t. unfold sp. cbn. split.
        -- intros (V & ->). split; [reflexivity|]. right.
           destruct (function_dec a) as [Fa|Fa]; [|destruct (function_dec b) as [Fb|Fb]].
           ++ destruct (OV V (or_introl Fa)); tauto.
           ++ destruct (OV V (or_intror Fb)); tauto.
           ++ left. exists a, b. auto 10.
        -- intros (-> & [X|[(a' & b' & X & Y & Z)|[(_ & X)|(X & _)]]]).
           ++ tauto.
           ++ rewrite V1 in X. rewrite V2 in Y. injection X as <-. injection Y as <-. split; [|reflexivity]. destruct Z as [Z|Z]; [|tauto]. apply EX in Z. discriminate Z.
           ++ split; [|reflexivity]. right. destruct (N2 X) as (_ & [Y|Y]); [destruct (pointer_not_integer _ P2 Y)|]. rewrite V2 in Y. injection Y as ->. reflexivity.
           ++ split; [|reflexivity]. left. destruct (N1 X) as (_ & [Y|Y]); [destruct (pointer_not_integer _ P1 Y)|]. rewrite V1 in Y. injection Y as ->. reflexivity.
    + assert (NP2 : ~ is_pointer v2) by (intros X; apply pointer_iff in X; congruence).
      replace (match v1 with TPtr a0 => _ | _ => _ end) with (req (integral v2 && n_const p2) (Ok (value int_t c))) by (rewrite V1; destruct v2; try reflexivity; discriminate P2).
      eapply v_iff; [apply (v_req _ _ _ (npc G e2)); [|intros _; apply v_ok]|].
      * rewrite andb_true_iff, integral_iff by exact E2. split.
        -- intros (X & Y). destruct (O2 P1 X); [assumption|]. tauto.
        -- intros N. destruct (N2 N) as (X & [Y|Y]); [auto|]. destruct NP2. now exists void.
      * intros t. unfold sp. cbn. split; [tauto|]. intros (-> & [X|[(a' & b' & _ & Y & _)|[(_ & X)|(_ & X)]]]); try tauto. destruct NP2. now exists b'.
  - assert (NP1 : ~ is_pointer v1) by (intros X; apply pointer_iff in X; congruence).
    replace (match v1 with TPtr a0 => _ | _ => _ end) with (req (integral v1 && n_const p1) (req (pointer v2) (Ok (value int_t c)))) by (destruct v1; try reflexivity; discriminate P1).
    destruct (pointer v2) eqn:P2.
    + apply pointer_iff in P2. cbn [req]. eapply v_iff; [apply (v_req _ _ _ (npc G e1)); [|intros _; apply v_ok]|].
      * rewrite andb_true_iff, integral_iff by exact E1. split.
        -- intros (X & Y). destruct (O3 X P2); [assumption|]. tauto.
        -- intros N. destruct (N1 N) as (X & [Y|Y]); [auto|]. destruct NP1. now exists void.
      * intros t. unfold sp. cbn. split; [tauto|]. intros (-> & [X|[(a' & b' & Y & _)|[(X & _)|(X & _)]]]); try tauto. destruct NP1. now exists a'.
    + assert (NP2 : ~ is_pointer v2) by (intros X; apply pointer_iff in X; congruence).
      assert (X : vmatches c Err sp).
      { apply v_none. intros t. unfold sp. intros (-> & [X|[(a' & b' & Y & _)|[(X & _)|(_ & X)]]]); try tauto. destruct NP1. now exists a'. }
      destruct (integral v1 && n_const p1); exact X.
Qed.

Lemma node_binary : forall o, ok_binary G o e1 v1 b1 e2 v2 b2 ->
  matches (EBin o e1 e2) (an_binary o p1 p2) (fun t k => rule_binary G o e1 t1 b1 e2 t2 b2 t /\ k = rvalue).
Proof.
  intros o O. pose proof (value_enum _ T1) as E1. pose proof (value_enum _ T2) as E2.
  eapply (matches_value _ (n_const p1 && n_const p2)); [reflexivity| | | |].
  - unfold an_binary, rule_binary. rewrite (r_type _ _ _ _ R1), (r_type _ _ _ _ R2), (r_bits _ _ _ _ R1), (r_bits _ _ _ _ R2), !conv_value by auto.
    cbv zeta. destruct o; cbn [ok_binary] in O.
    1-2: now apply v_arithmetic.
    1: now apply v_integral.
    1: apply v_add; tauto.
    1: apply v_subtract; tauto.
    1-2: apply v_shift.
    1-4: now apply v_relational.
    1-2: now apply v_equality.
    1-3: now apply v_integral.
    1-2: eapply v_iff; [apply (v_req _ _ _ (is_scalar v1)); [now apply scalar_iff|intros _; apply (v_req _ _ _ (is_scalar v2)); [now apply scalar_iff|intros _; apply v_ok]]|]; intros t; cbn; tauto.
  - intros t X. unfold rule_binary in X. destruct o.
    1-2: now apply common_arith in X.
    1,12-14: destruct X as (_ & _ & X); now apply common_arith in X.
    1: destruct X as [X|[(X & _ & ->)|(_ & X & ->)]]; [now apply common_arith in X| |]; apply scalar_function; right; now apply object_pointer.
    1: destruct X as [X|[(X & _ & ->)|(a & b & _ & _ & _ & _ & _ & ->)]]; [now apply common_arith in X|apply scalar_function; right; now apply object_pointer|intros []].
    1-2: destruct X as (_ & X); now apply promoted_function in X.
    all: destruct X as (-> & _); intros [].
  - rewrite andb_true_iff. intros (X & Y). cbn. rewrite (r_const _ _ _ _ R1 X). apply (r_const _ _ _ _ R2 Y).
  - intros N. apply null_form_ice in N; [|exact I]. destruct N as (X & Y). rewrite (r_ice _ _ _ _ R1), (r_ice _ _ _ _ R2); auto; now left.
Qed.
End Binary.

(** ** Assignment *)

Lemma conv_strip : forall t, tame t -> ~ array t -> ~ function t -> conv t = strip t.
Proof.
  intros t (V & _ & T) NA NF. unfold conv. rewrite unqualified_strip. unfold array, function in *. destruct (strip t); try reflexivity; try tauto.
  destruct b; try reflexivity. congruence.
Qed.
Lemma value_strip' : forall t, tame t -> ~ array t -> ~ function t -> value_type t = strip t.
Proof. intros t T NA NF. rewrite <- conv_value by exact T. now apply conv_strip. Qed.

Lemma compound_spec : forall o t v, o <> ASimple -> enum_ok t -> enum_ok v -> (o = AAdd \/ o = ASub -> steady G t) ->
  (an_compound o t v = Ok tt <-> rule_compound G o t v) /\ an_compound o t v <> Bad.
Proof.
  intros o t v NS Et Ev St.
  assert (Arith : (req (arithmetic t) (req (arithmetic v) (Ok tt)) = Ok tt <-> is_arithmetic t /\ is_arithmetic v) /\
    req (arithmetic t) (req (arithmetic v) (Ok tt)) <> Bad).
  { rewrite <- (arithmetic_iff t Et), <- (arithmetic_iff v Ev). destruct (arithmetic t), (arithmetic v); cbn; split; try discriminate; intuition congruence. }
  assert (Integ : (req (integral t) (req (integral v) (Ok tt)) = Ok tt <-> is_integer t /\ is_integer v) /\
    req (integral t) (req (integral v) (Ok tt)) <> Bad).
  { rewrite <- (integral_iff t Et), <- (integral_iff v Ev). destruct (integral t), (integral v); cbn; split; try discriminate; intuition congruence. }
  assert (Add : steady G t -> (match t with TPtr a => req (negb (incomplete (unqualified a))) (req (integral v) (Ok tt)) | _ => req (arithmetic t) (req (arithmetic v) (Ok tt)) end = Ok tt <->
      (is_arithmetic t /\ is_arithmetic v) \/ (pointer_to_object G t /\ is_integer v)) /\
    match t with TPtr a => req (negb (incomplete (unqualified a))) (req (integral v) (Ok tt)) | _ => req (arithmetic t) (req (arithmetic v) (Ok tt)) end <> Bad).
  { intros St'. destruct (pointer t) eqn:P.
    - apply pointer_iff in P. destruct P as (a & ->). pose proof (steady_strip _ a St' eq_refl) as X.
      assert (Y : pointer_to_object G (TPtr a) <-> incomplete (unqualified a) = false).
      { rewrite X. split; [intros (b & E & C); congruence|]. intros C. now exists a. }
      rewrite Y, <- (integral_iff v Ev). assert (Z : ~ is_arithmetic (TPtr a)) by (intros Z; now apply Z).
      destruct (incomplete (unqualified a)), (integral v); cbn; split; try discriminate; intuition congruence.
    - assert (NP : ~ is_pointer t) by (intros X; apply pointer_iff in X; congruence).
      assert (NO : ~ pointer_to_object G t) by (intros X; apply NP; now apply object_pointer).
      destruct t; try discriminate P; (split; [|apply Arith]); rewrite (proj1 Arith); tauto. }
  destruct o; try congruence; cbn [an_compound rule_compound]; try exact Arith; try exact Integ; apply Add, St; auto.
Qed.

Lemma node_assign : forall o a b p1 p2 t1 t2 k1 k2, analyze G a = Ok p1 -> analyze G b = Ok p2 -> rel a p1 t1 k1 -> rel b p2 t2 k2 ->
  tame t1 -> tame t2 -> ok_target G a t1 ->
  match o with ASimple => ok_assigns G (strip t1) b (value_type t2) | AAdd | ASub => steady G (strip t1) | _ => True end ->
  matches (EAssign o a b) (an_assign o p1 p2) (fun t k => rule_assign G o t1 k1 b t2 t /\ k = rvalue).
Proof.
  intros o a b p1 p2 t1 t2 k1 k2 H1 H2 R1 R2 T1 T2 OT OA.
  pose proof (target_spec _ _ _ _ H1 R1 T1 OT) as M.
  assert (MS : modifiable G t1 k1 -> conv t1 = strip t1).
  { intros (_ & NA & C & _). apply conv_strip; auto. intros F. now apply incomplete_function in F. }
  eapply (matches_value _ false); [reflexivity| |intros t (X' & -> & _) F|discriminate|].
  - unfold an_assign. rewrite (r_type _ _ _ _ R1), (r_type _ _ _ _ R2).
    match goal with |- vmatches _ (req _ (req _ ?x)) _ => set (rest := x) end.
    apply (v_iff _ _ (fun t => n_lvalue p1 = true /\ q_const (n_quals t1) = false /\ t = strip t1 /\
      match o with ASimple => assigns G (strip t1) b (value_type t2) | _ => rule_compound G o (strip t1) (value_type t2) end)).
    2:{ intros t. rewrite <- and_assoc, M. reflexivity. }
    apply v_req; [tauto|]. intros L. apply v_req; [apply negb_true_iff|]. intros Q. assert (MM : modifiable G t1 k1) by tauto.
    specialize (MS MM). subst rest. rewrite MS.
    assert (X : forall (u : out unit) (Q : Prop), (u = Ok tt <-> Q) /\ u <> Bad ->
      vmatches false (bind u (fun _ => Ok (value (strip t1) false))) (fun t => t = strip t1 /\ Q)).
    { intros u Q' (X & NB). destruct u as [[]| |]; cbn [bind]; try congruence.
      - eapply v_iff; [apply v_ok|]. intros t. cbn. tauto.
      - apply v_none. intros t (_ & Y). apply X in Y. discriminate Y. }
    assert (Es : enum_ok (strip t1)) by now apply strip_enum.
    pose proof (value_enum _ T2) as Ev. rewrite (conv_value t2 T2).
    destruct o; apply X; try (apply compound_spec; auto; try discriminate; intros [Y|Y]; try discriminate Y; exact OA).
    eapply assign_spec; eauto. apply T1.
  - destruct X' as (_ & _ & X' & _). unfold function, complete in F, X'. cbn in F. rewrite (tame_strip t1 T1) in F. destruct (strip t1); auto.
  - intros N. apply null_form_ice in N; [destruct N|exact I].
Qed.

(** ** The conditional operator *)

Lemma qualified_pointer_to : forall q c, (zero_qual q = false -> ~ array c) -> qualified_pointer q c = pointer_to q c.
Proof.
  intros q c N. unfold qualified_pointer, pointer_to. destruct (zero_qual q) eqn:Z.
  - now rewrite so_qualified_none.
  - rewrite so_qualified_other; [now rewrite add_qual_qualify|exact Z|]. destruct c; try reflexivity. destruct (N eq_refl). exact I.
Qed.
Lemma merge_or : forall a b, merge (n_quals a) (n_quals b) = or_qual (quals a) (quals b).
Proof. intros a b. destruct a, b; reflexivity. Qed.
Lemma is_null_true : forall e p t k, rel e p t k -> tame t -> is_null G e p = Ok true -> is_integer (value_type t) \/ is_pointer (value_type t).
Proof.
  intros e p t k R T H. unfold is_null in H. destruct (n_const p && _) eqn:C; [|discriminate H]. clear H.
  apply andb_true_iff in C. destruct C as (_ & C). rewrite (r_type _ _ _ _ R) in C. apply orb_true_iff in C.
  rewrite <- conv_value by exact T. destruct C as [C|C].
  - left. rewrite integral_conv by exact C. apply integral_iff; [|exact C]. destruct t; try exact I. apply T.
  - right. destruct t; try discriminate C. now exists t.
Qed.
Lemma is_null_bad : forall e p, is_null G e p <> Bad.
Proof. intros e p. unfold is_null. destruct (_ && _); [|discriminate]. destruct (fold G e); discriminate. Qed.

Lemma node_cond : forall ec e1 e2 pc p1 p2 tc t1 t2 kc k1 k2,
  analyze G e1 = Ok p1 -> analyze G e2 = Ok p2 -> rel ec pc tc kc -> rel e1 p1 t1 k1 -> rel e2 p2 t2 k2 ->
  tame tc -> tame t1 -> tame t2 -> bits_ok (value_type t1) (k_bits k1) -> bits_ok (value_type t2) (k_bits k2) ->
  ok_cond G e1 (value_type t1) (k_bits k1) e2 (value_type t2) (k_bits k2) ->
  matches (ECond ec e1 e2) (an_cond G pc e1 p1 e2 p2)
    (fun t k => rule_cond G (value_type tc) e1 t1 (k_bits k1) e2 t2 (k_bits k2) t /\ k = rvalue).
Proof.
  intros ec e1 e2 pc p1 p2 tc t1 t2 kc k1 k2 H1 H2 Rc R1 R2 Tc T1 T2 B1 B2 (OM & OS & ON & OP).
  pose proof (value_enum _ Tc) as Ec. pose proof (value_enum _ T1) as E1. pose proof (value_enum _ T2) as E2.
  assert (N1 := fun N => npc_value e1 p1 t1 k1 N H1 R1 T1). assert (N2 := fun N => npc_value e2 p2 t2 k2 N H2 R2 T2).
  assert (NT1 := fun N => is_null_true e1 p1 t1 k1 R1 T1 N). assert (NT2 := fun N => is_null_true e2 p2 t2 k2 R2 T2 N).
  assert (NS1 := fun O => is_null_spec e1 p1 t1 k1 H1 R1 T1 O). assert (NS2 := fun O => is_null_spec e2 p2 t2 k2 H2 R2 T2 O).
  set (c := n_const pc && n_const p1 && n_const p2).
  assert (VC : forall c, arithmetic (value_type t1) = true -> arithmetic (value_type t2) = true ->
    vmatches c (of_type (common_arithmetic (value_type t1) (k_bits k1) (value_type t2) (k_bits k2)) (fun t => Ok (value t c)))
      (common_type (value_type t1) (k_bits k1) (value_type t2) (k_bits k2))) by (intros; now apply v_common).
  assert (CA := fun t => common_arith (value_type t1) (k_bits k1) (value_type t2) (k_bits k2) t).
  eapply (matches_value _ c); [reflexivity| | | |].
  - unfold an_cond, rule_cond. rewrite (r_type _ _ _ _ Rc), (r_type _ _ _ _ R1), (r_type _ _ _ _ R2), (r_bits _ _ _ _ R1), (r_bits _ _ _ _ R2), !conv_value by auto.
    cbv zeta. fold c. set (v1 := value_type t1) in *. set (v2 := value_type t2) in *. clearbody v1 v2.
    apply (v_req _ _ _ (is_scalar (value_type tc))); [now apply scalar_iff|]. intros _.
    assert (AI : forall v, is_integer v -> is_arithmetic v) by apply integer_arithmetic.
    destruct (arithmetic v1 && arithmetic v2) eqn:A.
    { apply andb_true_iff in A. destruct A as (A1 & A2). eapply v_iff; [now apply VC|]. intros t. cbn.
      apply arithmetic_iff in A1; [|exact E1]. apply arithmetic_iff in A2; [|exact E2]. split; [tauto|].
      intros [X|[(X & _)|[(X & _)|[(X & _)|[(_ & X & _)|(_ & _ & a & b & X & _)]]]]]; [exact X| | | | |].
      - destruct v1; destruct X; destruct A1; reflexivity.
      - rewrite X in A1. now destruct A1.
      - destruct (pointer_not_arithmetic _ X A1).
      - destruct (pointer_not_arithmetic _ X A2).
      - rewrite X in A1. now destruct A1. }
    assert (NA : ~ (is_arithmetic v1 /\ is_arithmetic v2)) by (rewrite <- !arithmetic_iff by auto; intros (X & Y); rewrite X, Y in A; discriminate A).
    match goal with |- vmatches _ (if _ then match _ with Yes => _ | No => ?x | Ub => _ | NoFuel => _ end else _) ?y => set (other := x); set (sp := y) end.
    assert (Other : ~ (is_record v1 /\ is_record v2 /\ current G v1 = current G v2) -> vmatches c other sp).
    { intros NR. unfold other. destruct (is_void v1 && is_void v2) eqn:V.
      { apply andb_true_iff in V. rewrite !is_void_iff in V. destruct V as (V1 & V2).
        eapply v_iff; [apply v_ok|]. intros t. unfold sp. cbn. split; [tauto|].
        intros [X|[(X & _)|[X|[(X & _)|[(_ & X & _)|(_ & _ & a & b & X & _)]]]]]; [|rewrite V1 in X; destruct X|tauto| | |rewrite V1 in X; discriminate X].
        - apply CA in X. tauto.
        - destruct X as (y & X). rewrite V1 in X. discriminate X.
        - destruct X as (y & X). rewrite V2 in X. discriminate X. }
      assert (NV : ~ (v1 = void /\ v2 = void)) by (rewrite <- !is_void_iff; intros (X & Y); rewrite X, Y in V; discriminate V).
      destruct (pointer v1 || pointer v2) eqn:P.
      2:{ (* neither is a pointer *)
        apply orb_false_iff in P. destruct P as (P1 & P2).
        assert (NP1 : ~ is_pointer v1) by (intros X; apply pointer_iff in X; congruence).
        assert (NP2 : ~ is_pointer v2) by (intros X; apply pointer_iff in X; congruence).
        assert (X : vmatches c Err sp).
        { apply v_none. intros t. unfold sp. intros [X|[(X & Y & Z & _)|[(X & Y & _)|[(X & _)|[(_ & X & _)|(_ & _ & a & b & X & _)]]]]]; try tauto.
          - apply CA in X. tauto.
          - apply NP1. now exists a. }
        pose proof (is_null_bad e1 p1) as B1'. pose proof (is_null_bad e2 p2) as B2'.
        destruct (is_null G e1 p1) as [n1| |] eqn:I1; cbn [bind]; [|exact X|congruence].
        destruct (is_null G e2 p2) as [n2| |] eqn:I2; cbn [bind]; [|exact X|congruence].
        rewrite P1, P2. cbn [andb]. rewrite andb_false_r. destruct (n1 && n2) eqn:NN.
        { apply andb_true_iff in NN. destruct NN as (-> & ->). destruct (NT1 eq_refl); [|tauto]. destruct (NT2 eq_refl); [|tauto]. destruct NA; auto. }
        unfold an_cond_pointers. destruct v1; try exact X; discriminate P1. }
      (* at least one pointer *)
      assert (PP : is_pointer v1 \/ is_pointer v2) by (rewrite <- !pointer_iff; now apply orb_true_iff).
      destruct (ON PP) as (O1 & O2). destruct (NS1 O1) as (n1 & -> & Q1). destruct (NS2 O2) as (n2 & -> & Q2). cbn [bind].
      assert (NAC : forall t, ~ common_type v1 (k_bits k1) v2 (k_bits k2) t) by (intros t X; apply CA in X; tauto).
      destruct (pointer v1 && n2) eqn:C1; [|destruct (n1 && pointer v2) eqn:C2; [|destruct (n1 && n2) eqn:C3]].
      - apply andb_true_iff in C1. destruct C1 as (P1 & ->). apply pointer_iff in P1. assert (NN2 : npc G e2) by now apply Q2.
        eapply v_iff; [apply v_ok|]. intros t. unfold sp. cbn. split; [tauto|].
        intros [X|[X|[(X & Y & _)|[(_ & _ & X)|[(X & Y & ->)|(_ & X & _)]]]]]; try tauto; try (destruct (NAC _ X)).
        + destruct (N1 X) as (_ & [Z|Z]); [destruct (pointer_not_integer _ P1 Z)|]. destruct (N2 NN2) as (_ & [Z'|Z']); [destruct (pointer_not_integer _ Y Z')|]. congruence.
      - apply andb_true_iff in C2. destruct C2 as (-> & P2). apply pointer_iff in P2. assert (NN1 : npc G e1) by now apply Q1.
        assert (N12 : ~ (is_pointer v1 /\ npc G e2)). { intros (X & Y). apply Q2 in Y. apply pointer_iff in X. rewrite X, Y in C1. discriminate C1. }
        eapply v_iff; [apply v_ok|]. intros t. unfold sp. cbn. split; [tauto|].
        intros [X|[X|[X|[(X & Y & _)|[(X & Y & Z)|(X & _)]]]]]; try tauto; try (destruct (NAC _ X)).
      - exfalso. apply andb_true_iff in C3. destruct C3 as (-> & ->). rewrite andb_true_r in C1. cbn in C2. rewrite C1, C2 in P. discriminate P.
      - assert (N12 : ~ (is_pointer v1 /\ npc G e2)). { intros (X & Y). apply Q2 in Y. apply pointer_iff in X. rewrite X, Y in C1. discriminate C1. }
        assert (N21 : ~ (npc G e1 /\ is_pointer v2)). { intros (Y & X). apply Q1 in Y. apply pointer_iff in X. rewrite X, Y in C2. discriminate C2. }
        assert (Six : forall t, sp t <-> (exists a b, v1 = TPtr a /\ v2 = TPtr b /\
          ((strip a <> void /\ strip b <> void /\ conforms (strip a) (strip b) /\
            exists c, composite_of (strip a) (strip b) c /\ t = pointer_to (or_qual (quals a) (quals b)) c) \/
           ((strip a = void \/ strip b = void) /\ ~ function a /\ ~ function b /\ t = pointer_to (or_qual (quals a) (quals b)) void)))).
        { intros t. unfold sp. split.
          - intros [X|[X|[X|[X|[X|X]]]]]; try tauto; try (destruct (NAC _ X)).
          - intros X. right. right. right. right. right. destruct X as (a & b & V1 & V2 & X). split; [|split].
            + intros N. apply N21. split; [exact N|]. now exists b.
            + intros N. apply N12. split; [|exact N]. now exists a.
            + exists a, b. auto. }
        eapply v_iff; [|intros t; symmetry; apply Six].
        destruct (pointer v1 && pointer v2) eqn:PB.
        2:{ assert (X : vmatches c Err (fun t => exists a b, v1 = TPtr a /\ v2 = TPtr b /\
          ((strip a <> void /\ strip b <> void /\ conforms (strip a) (strip b) /\
            exists c, composite_of (strip a) (strip b) c /\ t = pointer_to (or_qual (quals a) (quals b)) c) \/
           ((strip a = void \/ strip b = void) /\ ~ function a /\ ~ function b /\ t = pointer_to (or_qual (quals a) (quals b)) void)))).
          { apply v_none. intros t (a & b & -> & -> & _). discriminate PB. }
          unfold an_cond_pointers. destruct v1; try exact X. destruct v2; try exact X. discriminate PB. }
        apply andb_true_iff in PB. destruct PB as (P1 & P2). apply pointer_iff in P1, P2. destruct P1 as (a & V1). destruct P2 as (b & V2).
        assert (NN1 : ~ npc G e1) by (intros N; apply N21; split; [exact N|now exists b]).
        assert (NN2 : ~ npc G e2) by (intros N; apply N12; split; [now exists a|exact N]).
        destruct (OP a b V1 V2 NN1 NN2) as (OV & OC). unfold an_cond_pointers. rewrite V1, V2. rewrite merge_or, (unqualified_strip a), (unqualified_strip b).
        destruct (is_void (strip a) || is_void (strip b)) eqn:W.
        + rewrite orb_true_iff, !is_void_iff in W. destruct (OV W) as (F1 & F2).
          rewrite qualified_pointer_to by (intros _ X; exact X). eapply v_iff; [apply v_ok|]. intros t. cbn. split.
          * intros ->. exists a, b. repeat (split; [reflexivity|]). right. auto.
          * intros (a' & b' & X & Y & [(Z1 & Z2 & _)|(_ & _ & _ & Z)]); injection X as <-; injection Y as <-; [tauto|exact Z].
        + rewrite orb_false_iff in W. destruct W as (W1 & W2).
          assert (V1' : strip a <> void) by (intros X; apply is_void_iff in X; congruence).
          assert (V2' : strip b <> void) by (intros X; apply is_void_iff in X; congruence).
          destruct (OC V1' V2') as (EX & ST & AR).
          apply (v_iff _ _ (fun t => conforms (strip a) (strip b) /\ exists c, composite_of (strip a) (strip b) c /\ t = pointer_to (or_qual (quals a) (quals b)) c)).
          2:{ intros t. split.
              - intros (X & Y). exists a, b. repeat (split; [reflexivity|]). left. auto.
              - intros (a' & b' & X & Y & [(_ & _ & Z)|(Z & _)]); injection X as <-; injection Y as <-; tauto. }
          apply compound_reqr; [exact EX|]. intros CF. destruct (ST CF) as (cc & -> & U).
          rewrite qualified_pointer_to by (intros Z; apply (AR Z cc); now apply U).
          eapply v_iff; [apply v_ok|]. intros t. cbn. split.
          * intros ->. exists cc. split; [now apply U|reflexivity].
          * intros (c' & X & ->). apply U in X. now subst c'. }
    destruct (record v1 && record v2) eqn:R.
    2:{ apply Other. intros (X & Y & _). apply record_iff in X, Y. rewrite X, Y in R. discriminate R. }
    apply andb_true_iff in R. rewrite !record_iff in R. destruct R as (Rv1 & Rv2). destruct (OS Rv1 Rv2) as (SS & SU & SN).
    destruct (same v1 v2) eqn:SM; try congruence.
    + eapply v_iff; [apply v_ok|]. intros t. unfold sp. cbn. assert (CE : current G v1 = current G v2) by now apply SS.
      assert (RP1 : ~ is_pointer v1) by (intros (a & ->); destruct Rv1). assert (RP2 : ~ is_pointer v2) by (intros (a & ->); destruct Rv2).
      split; [tauto|]. intros [X|[X|[(X & _)|[X|[X|(_ & _ & a & b & X & _)]]]]]; try tauto.
      * apply CA in X. tauto.
      * rewrite X in Rv1. destruct Rv1.
      * destruct RP1. now exists a.
    + apply Other. intros (_ & _ & X). apply SS in X. congruence.
  - intros t (_ & [X|[(X & _ & _ & ->)|[(_ & _ & ->)|[(X & _ & ->)|[(_ & X & ->)|(_ & _ & a & b & _ & _ & [(_ & _ & _ & cc & _ & ->)|(_ & _ & _ & ->)])]]]]]).
    + apply CA in X. tauto.
    + intros F. unfold function in F. destruct (value_type t1); destruct X; destruct F.
    + intros F; exact F.
    + now apply scalar_function; right.
    + now apply scalar_function; right.
    + intros F; exact F.
    + intros F; exact F.
  - unfold c. rewrite !andb_true_iff. intros ((X & Y) & Z). cbn. now rewrite (r_const _ _ _ _ Rc X), (r_const _ _ _ _ R1 Y), (r_const _ _ _ _ R2 Z).
  - intros N. apply null_form_ice in N; [|exact I]. destruct N as (X & Y & Z). unfold c.
    rewrite (r_ice _ _ _ _ Rc), (r_ice _ _ _ _ R1), (r_ice _ _ _ _ R2); auto; now left.
Qed.

(** ** Members *)

Lemma current_array : forall t, ~ array t -> is_array (current G t) = false.
Proof.
  intros t N. pose proof (current_shape t) as X. destruct t; try (rewrite X; try reflexivity).
  - destruct N. exact I.
  - destruct (current G t); reflexivity.
  - destruct (current G _); try destruct X; reflexivity.
  - destruct (current G _); try destruct X; reflexivity.
Qed.
Lemma member_spec : forall s m ref, ok_member G s m ->
  (forall t w, rule_member G s m t w -> an_member G s m ref = Ok (P t true (negb (is_some w)) w false ref)) /\
  (forall p, an_member G s m ref = Ok p -> exists t w, rule_member G s m t w /\ p = P t true (negb (is_some w)) w false ref) /\
  an_member G s m ref <> Bad.
Proof.
  intros s m ref (Ts & O). unfold an_member. rewrite unqualified_strip, completion_current.
  destruct (record (strip s)) eqn:R; cbn [req].
  2:{ split; [|split; discriminate]. intros t w (i & fs & t' & _ & X & _). apply record_iff in X. congruence. }
  apply record_iff in R.
  destruct (record (current G (strip s)) && negb (incomplete (current G (strip s)))) eqn:C; cbn [req].
  2:{ split; [|split; discriminate]. intros t w (i & fs & t' & [X|X] & _); rewrite X in C; discriminate C. }
  assert (Sh : exists i fs, current G (strip s) = TStruct true i fs \/ current G (strip s) = TUnion true i fs).
  { apply andb_true_iff in C. destruct C as (C1 & C2). destruct (current G (strip s)) as [| | | | | |c i fs|c i fs]; try discriminate C1; destruct c; try discriminate C2; eauto. }
  destruct Sh as (i & fs & Sh). destruct (O i fs Sh) as (A & U & NA).
  assert (Rc : is_record (current G (strip s))) by (destruct Sh as [-> | ->]; exact I).
  assert (Mc : members (current G (strip s)) = fs) by (destruct Sh as [-> | ->]; reflexivity).
  pose proof (resolve_spec _ m Rc A) as X. rewrite Mc in X.
  assert (Q : forall t' w, has_member fs m t' w ->
    match match s with TQual q _ => Some q | _ => None end with Some q => qualify q (current G t') | None => current G t' end = so_qualified (quals s) (current G t')).
  { intros t' w HM. destruct s; try (symmetry; apply so_qualified_none; reflexivity). cbn [quals].
    assert (Z : zero_qual q = false) by apply Ts. rewrite add_qual_qualify, so_qualified_other; auto. apply current_array. eapply NA; eauto. }
  assert (RM : forall t w, rule_member G s m t w -> exists t', has_member fs m t' w /\ t = so_qualified (quals s) (current G t')).
  { intros t w (i' & fs' & t' & D & _ & HM & ->). exists t'. split; [|reflexivity]. replace fs with fs'; [exact HM|]. destruct Sh as [E|E], D as [F|F]; congruence. }
  destruct (resolve_field (current G (strip s)) m) as [f| |]; [| |destruct X].
  - rewrite completion_current. rewrite (Q _ _ X). split; [|split; [|discriminate]].
    + intros t w D. apply RM in D. destruct D as (t' & HM & ->). destruct (U _ _ _ _ HM X) as (-> & ->). reflexivity.
    + intros p D. injection D as <-. eexists _, _. split; [|reflexivity]. exists i, fs, (f_type f). auto.
  - split; [|split; discriminate]. intros t w D. apply RM in D. destruct D as (t' & HM & _). destruct (X _ _ HM).
Qed.

Lemma rooted_lvalue : forall e t k, rooted e = true -> typed e t k -> is_record (strip t) -> k_lvalue k = true.
Proof.
  destruct S as (_ & _ & SF).
  induction e; intros t' k' R T Rt; cbn in R; try discriminate R; cbn in T.
  - unfold rule_id in T. destruct (c_ids G x) as [[t s|t|z]|] eqn:E; [| | |destruct T].
    + now destruct T as (_ & ->).
    + destruct T as (-> & _). apply SF in E. unfold function in E. destruct (strip t); destruct E; destruct Rt.
    + destruct T as (-> & _). destruct Rt.
  - destruct T as (? & ? & ? & ? & _ & _ & _ & ->). reflexivity.
  - destruct T as (t1 & k1 & w & T & (i & fs & t2 & _ & X & _) & ->). cbn. eauto.
  - destruct T as (? & ? & ? & ? & _ & _ & _ & ->). reflexivity.
  - destruct o; try discriminate R. destruct T as (t1 & k1 & _ & _ & _ & _ & T). apply T. split.
    + intros F. unfold function in F. destruct (strip t'); destruct F; destruct Rt.
    + intros V. rewrite V in Rt. exact Rt.
Qed.
Lemma unregistered_spec : forall e t k, unregistered G e = true -> typed e t k -> k_register k = false.
Proof.
  induction e; intros t' k' R T; cbn in T.
  - cbn in R. unfold rule_id in T. destruct (c_ids G x) as [[t s|t|z]|] eqn:E; [| | |destruct T]; destruct T as (_ & ->); try reflexivity.
    destruct s; try reflexivity. discriminate R.
  - destruct T as (_ & ->). reflexivity.
  - destruct T as (_ & ->). reflexivity.
  - destruct T as (? & ? & ? & ? & _ & _ & _ & ->). reflexivity.
  - destruct T as (? & ? & ? & _ & _ & _ & ->). reflexivity.
  - destruct T as (t1 & k1 & w & T & _ & ->). cbn in *. eauto.
  - destruct T as (? & ? & ? & ? & _ & _ & _ & ->). reflexivity.
  - destruct T as (t1 & k1 & _ & T). destruct o; cbn in T; try (destruct T as (-> & _); reflexivity). tauto.
  - destruct T as (? & ? & _ & _ & _ & _ & ->). reflexivity.
  - destruct T as (_ & _ & ->). reflexivity.
  - destruct T as (_ & _ & ->). reflexivity.
  - destruct T as (? & ? & _ & _ & _ & ->). reflexivity.
  - destruct T as (? & ? & ? & ? & _ & _ & _ & ->). reflexivity.
  - destruct T as (? & ? & ? & ? & ? & ? & _ & _ & _ & _ & ->). reflexivity.
  - destruct T as (? & ? & ? & ? & _ & _ & _ & ->). reflexivity.
  - destruct T as (-> & _). reflexivity.
Qed.
Lemma function_bits : forall t w, function t -> bits_ok (value_type t) w -> w = None.
Proof.
  intros t [w|] F B; [|reflexivity]. destruct B as (i & A & _). exfalso. unfold function in F. destruct t; cbn in F; try destruct F; try discriminate A.
  destruct t; try destruct F; discriminate A.
Qed.

Lemma node_member : forall s m p t1 k1, rel s p t1 k1 -> typed s t1 k1 -> ok_member G t1 m -> fine G (EMember s m) ->
  matches (EMember s m) (an_member G (n_type p) m (n_ref p)) (fun t k => exists w, rule_member G t1 m t w /\ k = K (k_lvalue k1) (k_register k1) w).
Proof.
  intros s m p t1 k1 R Ty O Fi. rewrite (r_type _ _ _ _ R). destruct (member_spec t1 m (n_ref p) O) as (M1 & M2 & M3).
  assert (RR : forall t w, rule_member G t1 m t w -> rel (EMember s m) (P t true (negb (is_some w)) w false (n_ref p)) t (K (k_lvalue k1) (k_register k1) w)).
  { intros t w D.
    assert (Rt : is_record (strip t1)) by (destruct D as (i & fs & t' & _ & X & _); exact X).
    assert (F : bits_ok (value_type t) w). { destruct (Fi t (K (k_lvalue k1) (k_register k1) w)) as (_ & B); [|exact B]. exists t1, k1, w. auto. }
    constructor; cbn; auto; try discriminate.
    - intros _ _ _ RT. eapply rooted_lvalue; eauto.
    - intros [X|[(? & ? & X)|[(? & X)|(_ & _ & X)]]] _; try discriminate X.
      + rewrite (function_bits _ _ X F). reflexivity.
      + cbn in X. subst w. reflexivity.
    - intros X RT. destruct (RT eq_refl) as (R1 & R2). right. right. right. cbn. destruct w; [discriminate X|]. repeat split.
      + eapply rooted_lvalue; eauto.
      + eapply unregistered_spec; eauto.
    - intros N. apply null_form_ice in N; [destruct N|exact I]. }
  split; [|split; [|exact M3]].
  - intros t k (w & D & ->). eexists. split; [apply (M1 t w D)|]. now apply RR.
  - intros q D. destruct (M2 q D) as (t & w & D' & ->). eexists _, _. split; [exists w; split; [exact D'|reflexivity]|]. now apply RR.
Qed.
Lemma node_arrow : forall s m p t1 k1, rel s p t1 k1 -> typed s t1 k1 -> tame t1 -> (forall a, value_type t1 = TPtr a -> ok_member G a m) -> fine G (EArrow s m) ->
  matches (EArrow s m) (an_arrow G p m) (fun t k => exists a w, value_type t1 = TPtr a /\ rule_member G a m t w /\ k = K true false w).
Proof.
  intros s m p t1 k1 R Ty T O Fi. unfold an_arrow. rewrite (r_type _ _ _ _ R), conv_value by exact T.
  destruct (pointer (value_type t1)) eqn:Pt.
  2:{ assert (X : matches (EArrow s m) Err (fun t k => exists a w, value_type t1 = TPtr a /\ rule_member G a m t w /\ k = K true false w)).
      { split; [|split; discriminate]. intros t k (a & w & X & _). rewrite X in Pt. discriminate Pt. }
      destruct (value_type t1); try exact X. discriminate Pt. }
  apply pointer_iff in Pt. destruct Pt as (a & Va). specialize (O a Va). rewrite Va.
  destruct (member_spec a m (n_const p) O) as (M1 & M2 & M3).
  assert (RR : forall t w, rule_member G a m t w -> rel (EArrow s m) (P t true (negb (is_some w)) w false (n_const p)) t (K true false w)).
  { intros t w D.
    assert (F : bits_ok (value_type t) w). { destruct (Fi t (K true false w)) as (_ & B); [|exact B]. exists t1, k1, a, w. auto. }
    constructor; cbn; auto; try discriminate.
    - intros [X|[(? & ? & X)|[(? & X)|(_ & _ & X)]]] _; try discriminate X.
      + rewrite (function_bits _ _ X F). reflexivity.
      + cbn in X. subst w. reflexivity.
    - intros X _. right. right. right. cbn. destruct w; [discriminate X|]. auto.
    - intros N. apply null_form_ice in N; [destruct N|exact I]. }
  split; [|split; [|exact M3]].
  - intros t k (a' & w & E & D & ->). injection E as <-. eexists. split; [apply (M1 t w D)|]. now apply RR.
  - intros q D. destruct (M2 q D) as (t & w & D' & ->). eexists _, _. split; [exists a, w; split; [reflexivity|]; split; [exact D'|reflexivity]|]. now apply RR.
Qed.

(** ** Calls *)

Definition each := fix each (l : list expr) (ts : list ty) {struct l} : Prop :=
  match l, ts with
  | [], [] => True
  | a :: l', t' :: ts' => (exists k', typed a t' k') /\ each l' ts'
  | _, _ => False
  end.
Definition analyze_all := fix loop (l : list expr) : out (list props) :=
  match l with
  | [] => Ok []
  | a :: r => bind (analyze G a) (fun p => bind (loop r) (fun ps => Ok (p :: ps)))
  end.
Fixpoint good (l : list expr) (ps : list props) (ts : list ty) : Prop :=
  match l, ps, ts with
  | [], [], [] => True
  | a :: l', p :: ps', t :: ts' => (analyze G a = Ok p /\ exists k, typed a t k /\ rel a p t k) /\ good l' ps' ts'
  | _, _, _ => False
  end.

Lemma args_spec : forall l, Forall (fun a => matches a (analyze G a) (typed a)) l ->
  (forall ts, each l ts -> exists ps, analyze_all l = Ok ps /\ good l ps ts) /\
  (forall ps, analyze_all l = Ok ps -> exists ts, each l ts /\ good l ps ts) /\ analyze_all l <> Bad.
Proof.
  induction l as [|a l IH]; intros F.
  - split; [|split; [|discriminate]].
    + intros [|t ts] H; [|destruct H]. exists []. split; [reflexivity|exact I].
    + intros ps H. injection H as <-. exists []. split; exact I.
  - inversion F as [|? ? (M1 & M2 & M3) F']; subst. destruct (IH F') as (I1 & I2 & I3). cbn. split; [|split].
    + intros [|t ts] H; [destruct H|]. destruct H as ((k & H) & H'). destruct (M1 t k H) as (p & E & R). destruct (I1 ts H') as (ps & Es & Gs).
      exists (p :: ps). rewrite E. cbn. fold analyze_all. rewrite Es. cbn. split; [reflexivity|]. eauto.
    + intros ps H. fold analyze_all in H. destruct (analyze G a) as [p| |] eqn:E; cbn in H; try discriminate H.
      destruct (analyze_all l) as [ps'| |] eqn:Es; cbn in H; try discriminate H. injection H as <-.
      destruct (M2 p eq_refl) as (t & k & H & R). destruct (I2 ps' eq_refl) as (ts & H' & Gs). exists (t :: ts). cbn. eauto 10.
    + fold analyze_all. destruct (analyze G a) as [p| |]; cbn; [|discriminate|congruence]. destruct (analyze_all l); cbn; congruence.
Qed.

Lemma parameter_adjusted : forall x, tame x -> unqualified (adjusted x) = parameter x /\ enum_ok (parameter x) /\ parameter x <> TBasic BVaList.
Proof.
  intros x (V & E & T). destruct x as [b|a|b q a|q a|r m ps el|c i es u|c i fs|c i fs]; try (split; [reflexivity|split; [exact I|discriminate]]).
  - destruct b; (split; [reflexivity|split; [exact I|discriminate]]).
  - split; [|split; [exact I|discriminate]]. cbn. destruct (zero_qual q); reflexivity.
  - destruct T as (_ & T). cbn in V, E. destruct a; try destruct T; (split; [reflexivity|split; [exact E|exact V]]).
  - split; [reflexivity|split; [exact E|discriminate]].
Qed.

Lemma check_spec : forall xs ell args ps ts prm, good args ps ts -> Forall tame ts -> map p_type prm = map Some xs -> Forall tame xs ->
  ok_args G xs (combine args ts) ->
  (passed G xs ell (combine args ts) <-> exists ra, check_args prm ps = Ok ([], ra) /\ (ra <> [] -> ell = true)) /\
  (forall rp ra, check_args prm ps = Ok (rp, ra) -> rp <> [] -> ra = [] /\ exists y, p_type (hd (Param None None) rp) = Some y /\ (List.length rp < List.length prm \/ args = [])%nat /\ In y xs) /\
  check_args prm ps <> Bad.
Proof.
  induction xs as [|x xs IH]; intros ell args ps ts prm Gd Tt Mp Tx Oa.
  - destruct prm; [|discriminate Mp]. cbn [check_args]. split; [|split; [|discriminate]].
    + destruct args as [|a args], ps as [|p ps], ts as [|t ts]; try destruct Gd; cbn.
      * split; [|tauto]. intros _. exists []. split; [reflexivity|]. congruence.
      * split; [intros ->; eexists; split; [reflexivity|reflexivity]|]. intros (ra & X & Y). injection X as <-. apply Y. discriminate.
    + intros rp ra X N. injection X as <- <-. congruence.
  - destruct prm as [|pr prm]; [discriminate Mp|]. injection Mp as Mp1 Mp2. inversion Tx as [|? ? Tx1 Tx2]; subst.
    destruct args as [|a args], ps as [|p ps], ts as [|t ts]; try destruct Gd.
    + cbn. split; [|split; [|discriminate]].
      * split; [intros []|]. intros (ra & X & _). discriminate X.
      * intros rp ra X _. injection X as <- <-. split; [reflexivity|]. exists x. cbn. auto.
    + cbn [check_args combine passed]. rewrite Mp1. destruct H as (E & k & Ty & R). inversion Tt as [|? ? Tt1 Tt2]; subst. destruct Oa as (Oa1 & Oa2).
      destruct (parameter_adjusted x Tx1) as (-> & En & NV).
      destruct (assign_spec (parameter x) a p t k E R Tt1 En NV Oa1) as (AS & AB).
      destruct (IH ell args ps ts prm H0 Tt2 Mp2 Tx2 Oa2) as (P1 & P2 & P3).
      destruct (assignable p (parameter x)) as [[]| |] eqn:AA; cbn [bind]; [| |congruence].
      * split; [|split; [|exact P3]].
        -- rewrite P1. rewrite <- AS. split; [tauto|]. split; [reflexivity|assumption].
        -- intros rp ra X N. destruct (P2 rp ra X N) as (-> & y & Y1 & Y2 & Y3). split; [reflexivity|]. exists y. split; [exact Y1|]. split; [|now right].
           left. destruct Y2 as [Y2| ->]; [cbn; lia|]. destruct ps as [|p' ps]; [|destruct ts; destruct H0]. destruct prm; cbn in X; injection X as <-; cbn; lia.
      * split; [|split; [|discriminate]].
        -- split; [intros (X & _); apply AS in X; discriminate X|]. intros (ra & X & _). discriminate X.
        -- intros rp ra X. discriminate X.
Qed.

Lemma map_some_inj : forall (xs ys : list ty), map Some xs = map Some ys -> xs = ys.
Proof. induction xs as [|x xs IH]; intros [|y ys] H; try discriminate H; [reflexivity|]. injection H as -> H. now rewrite (IH _ H). Qed.

Lemma node_call : forall f args pf tf kf ps ts, rel f pf tf kf -> tame tf -> good args ps ts -> Forall tame ts ->
  ok_call G tf (combine args ts) -> (forall t, rule_call G tf (combine args ts) t -> tame t) ->
  matches (ECall f args) (an_call pf ps) (fun t k => rule_call G tf (combine args ts) t /\ k = rvalue).
Proof.
  intros f args pf tf kf ps ts R T Gd Tt O Fi.
  eapply (matches_value _ false); [reflexivity| | |discriminate|].
  - unfold an_call. rewrite (r_type _ _ _ _ R), conv_value by exact T. unfold ok_call, rule_call in *. clear Fi.
    destruct (match value_type tf with TPtr (TFun _ _ _ _) => true | _ => false end) eqn:V.
    2:{ match goal with |- vmatches _ _ ?x => set (sp := x) end. assert (X : vmatches false Err sp).
        { apply v_none. intros t (r & m & prm & el & E & _). rewrite E in V. discriminate V. }
        destruct (value_type tf) as [|a| | | | | |]; try exact X. destruct a; try exact X. discriminate V. }
    destruct (value_type tf) as [|a| | | | | |]; try discriminate V. destruct a as [| | | |r m prm el| | |]; try discriminate V. clear V.
    destruct (O r m prm el eq_refl) as (Or & Oc & Om).
    set (check := match m with ModeParameters => _ | _ => _ end).
    assert (CK : (check = Ok tt <-> (m = ModeParameters -> exists xs, parameters prm xs /\ passed G xs el (combine args ts))) /\ check <> Bad).
    { destruct m; unfold check; try (split; [|discriminate]; split; [intros _ X; discriminate X|reflexivity]). clear check.
      destruct (Om eq_refl) as (xs & Mp & Tx & VX & Oa).
      destruct (check_spec xs el args ps ts prm Gd Tt Mp Tx Oa) as (C1 & C2 & C3).
      assert (Dec : xs = [void] \/ xs <> [void]).
      { destruct xs as [|x [|]]; try (right; discriminate). destruct (is_void x) eqn:V; [apply is_void_iff in V; subst; now left|right]. intros X. injection X as ->. discriminate V. }
      destruct Dec as [-> | NX].
      - (* void alone *)
        specialize (VX eq_refl). subst el. destruct prm as [|[pt s0] [|]]; try discriminate Mp. cbn in Mp. injection Mp as ->.
        assert (PX : (exists xs, parameters [Param (Some void) s0] xs /\ passed G xs false (combine args ts)) <-> args = []).
        { cbn. destruct args as [|a args], ps as [|p ps], ts as [|t ts]; try destruct Gd; cbn.
          - split; [reflexivity|]. intros _. exists []. split; [reflexivity|exact I].
          - split; [|discriminate]. intros (xs & -> & X). discriminate X. }
        split.
        + etransitivity; [|split; [intros X _; apply PX, X|intros X; apply PX, X; reflexivity]].
          destruct args as [|a args], ps as [|p ps], ts as [|t ts]; try destruct Gd; cbn.
          * tauto.
          * split; [|discriminate]. intros X. exfalso. cbn in C1. destruct H as (_ & k & _ & Rp). inversion Tt; subst.
            unfold assignable, type_assignable in X. cbn in X. discriminate X.
        + destruct ps as [|p ps]; cbn; [discriminate|]. unfold assignable, type_assignable. cbn. discriminate.
      - assert (PX : forall ys, parameters prm ys <-> ys = xs).
        { intros ys. assert (X : parameters prm ys <-> map p_type prm = map Some ys).
          { unfold parameters. destruct prm as [|[[[b| | | | | | |]|] s0] [|]]; try tauto; destruct b; try tauto. exfalso. apply NX.
            destruct xs as [|x [|]]; try discriminate Mp. cbn in Mp. injection Mp as <-. reflexivity. }
          rewrite X, Mp. split; [intros Y; symmetry; now apply map_some_inj|now intros ->]. }
        assert (PY : (ModeParameters = ModeParameters -> exists ys, parameters prm ys /\ passed G ys el (combine args ts)) <-> passed G xs el (combine args ts)).
        { split.
          - intros X. destruct (X eq_refl) as (ys & Y & Z). apply PX in Y. now subst ys.
          - intros X _. exists xs. split; [now apply PX|exact X]. }
        rewrite PY, C1. destruct (check_args prm ps) as [[rp ra]| |] eqn:CA; cbn [bind]; [| |congruence].
        + destruct rp as [|pr rp].
          * destruct ra as [|pa ra].
            -- split; [|discriminate]. split; [|reflexivity]. intros _. exists []. split; [reflexivity|]. congruence.
            -- destruct el; cbn; (split; [|discriminate]).
               ++ split; [|reflexivity]. intros _. exists (pa :: ra). auto.
               ++ split; [discriminate|]. intros (ra' & X & Y). injection X as <-. discriminate Y. discriminate.
          * destruct (C2 _ _ eq_refl) as (-> & y & Y1 & Y2 & Y3); [discriminate|]. cbn in Y1. rewrite Y1.
            assert (NV : is_void (adjusted y) && Nat.eqb (List.length prm) 1 = false).
            { destruct (is_void (adjusted y)) eqn:V; [|reflexivity]. destruct (Nat.eqb_spec (List.length prm) 1) as [L|L]; [|reflexivity]. exfalso.
              assert (Lx : List.length xs = 1%nat) by (rewrite <- (map_length Some xs), <- Mp, map_length; exact L).
              destruct xs as [|x [|]]; try discriminate Lx. destruct Y3 as [-> |[]]. apply NX. f_equal. apply is_void_iff in V.
              destruct y as [b| |b q a| | | | |]; cbn in V; try discriminate V; [destruct b; try discriminate V; reflexivity|]. destruct (zero_qual q); discriminate V. }
            rewrite NV. cbn. split; [|discriminate]. split; [discriminate|]. intros (ra' & X & _). discriminate X.
        + split; [|discriminate]. split; [discriminate|]. intros (ra' & X & _). discriminate X. }
    clearbody check. destruct CK as (CK & CB). rewrite unqualified_strip.
    assert (Spec : forall t, (exists r' m' prm' el', TPtr (TFun r m prm el) = TPtr (TFun r' m' prm' el') /\ (strip r' = void \/ complete G r' /\ ~ array r') /\
      Forall (fun a => complete G (value_type (snd a))) (combine args ts) /\
      (m' = ModeParameters -> exists xs, parameters prm' xs /\ passed G xs el' (combine args ts)) /\ t = strip r') <->
      check = Ok tt /\ is_array (strip r) = false /\ t = strip r).
    { intros t. rewrite CK. split.
      - intros (r' & m' & prm' & el' & E & A & B & C & D). injection E as <- <- <- <-. split; [exact C|]. split; [|exact D].
        destruct A as [A|(_ & A)]; [now rewrite A|]. unfold array in A. destruct (strip r); try reflexivity. destruct A. exact I.
      - intros (A & B & C). exists r, m, prm, el. split; [reflexivity|]. split; [|auto]. destruct Or as [Or|Or]; [now left|right].
        split; [exact Or|]. unfold array. destruct (strip r); auto. discriminate B. }
    eapply v_iff; [|intros t; symmetry; apply Spec]. destruct check as [[]| |]; cbn [bind]; [| |congruence].
    + eapply v_iff; [apply (v_req _ _ _ (is_array (strip r) = false)); [apply negb_true_iff|intros _; apply v_ok]|]. intros t. cbn. tauto.
    + apply v_none. intros t (X & _). discriminate X.
  - intros t X F. pose proof (Fi t X) as (_ & _ & Tt'). destruct X as (r & m & prm & el & _ & A & _ & _ & ->).
    unfold complete in A. unfold function in F. destruct (strip r) as [| | |q a| | | |]; cbn in F; try destruct F.
    + destruct Tt' as (_ & Tt'). destruct a; try destruct F; destruct Tt'.
    + destruct A as [A|(A & _)]; [discriminate A|exact A].
  - intros N. apply null_form_ice in N; [destruct N|exact I].
Qed.

(** ** Comma *)

Definition last_of (t : ty) := fix last (l : list expr) {struct l} : Prop :=
  match l with
  | [] => False
  | [a] => exists t' k', typed a t' k' /\ t = value_type t'
  | a :: l' => (exists t' k', typed a t' k') /\ last l'
  end.
Definition commas := fix loop (acc : out props) (l : list expr) : out props :=
  match l with
  | [] => acc
  | a :: r => bind (analyze G a) (fun p => loop (Ok (value (conv (n_type p)) false)) r)
  end.
Lemma comma_spec : forall l, Forall (fun a => fine G a /\ matches a (analyze G a) (typed a)) l -> forall acc, l <> [] ->
  vmatches false (commas acc l) (fun t => last_of t l).
Proof.
  induction l as [|a l IH]; intros F acc N; [congruence|]. inversion F as [|? ? (Fi & M1 & M2 & M3) F']; subst. clear F.
  destruct l as [|b l].
  - cbn. destruct (analyze G a) as [p| |] eqn:E; cbn [bind]; [| |congruence].
    + split; [|split; [|discriminate]].
      * intros t (t' & k' & H & ->). destruct (M1 _ _ H) as (p' & E' & R). injection E' as <-. rewrite (r_type _ _ _ _ R), conv_value by (now apply (Fi _ _ H)). reflexivity.
      * intros q H. injection H as <-. destruct (M2 p eq_refl) as (t & k & H & R). exists (value_type t).
        rewrite (r_type _ _ _ _ R), conv_value by (now apply (Fi _ _ H)). eauto.
    + apply v_none. intros t (t' & k' & H & _). destruct (M1 _ _ H) as (p & X & _). discriminate X.
  - change (vmatches false (bind (analyze G a) (fun p => commas (Ok (value (conv (n_type p)) false)) (b :: l)))
      (fun t => (exists t' k', typed a t' k') /\ last_of t (b :: l))).
    destruct (analyze G a) as [p| |] eqn:E; cbn [bind]; [| |congruence].
    + eapply v_iff; [apply (IH F'); discriminate|]. intros t. cbn beta. split; [|tauto]. intros H. split; [|exact H].
      destruct (M2 p eq_refl) as (t' & k' & H' & _). eauto.
    + apply v_none. intros t ((t' & k' & H) & _). destruct (M1 _ _ H) as (p & X & _). discriminate X.
Qed.
Lemma value_function : forall t, tame t -> ~ function (value_type t).
Proof.
  intros t (V & _ & T) F. destruct t; try exact F.
  - destruct b; exact F.
  - destruct T as (_ & T). destruct t; try destruct T; exact F.
Qed.

(** ** Every expression *)

Lemma expr_nested : forall Q : expr -> Prop,
  (forall x, Q (EId x)) -> (forall k z, Q (EConst k z)) -> (forall k n, Q (EStr k n)) ->
  (forall a i, Q a -> Q i -> Q (ESub a i)) ->
  (forall f args, Q f -> Forall Q args -> Q (ECall f args)) ->
  (forall s m, Q s -> Q (EMember s m)) -> (forall s m, Q s -> Q (EArrow s m)) ->
  (forall o a, Q a -> Q (EUn o a)) -> (forall a, Q a -> Q (ESizeof a)) ->
  (forall t, Q (ESizeofT t)) -> (forall t, Q (EAlignofT t)) -> (forall t a, Q a -> Q (ECast t a)) ->
  (forall o a b, Q a -> Q b -> Q (EBin o a b)) -> (forall c a b, Q c -> Q a -> Q b -> Q (ECond c a b)) ->
  (forall o a b, Q a -> Q b -> Q (EAssign o a b)) -> (forall es, Forall Q es -> Q (EComma es)) ->
  forall e, Q e.
Proof.
  intros Q H1 H2 H3 H4 H5 H6 H7 H8 H9 H10 H11 H12 H13 H14 H15 H16.
  fix IH 1. intros e.
  assert (L : forall l : list expr, (forall a, In a l -> Q a) -> Forall Q l) by (intros l X; now apply Forall_forall).
  destruct e.
  - apply H1.
  - apply H2.
  - apply H3.
  - apply H4; apply IH.
  - apply H5; [apply IH|]. exact ((fix go (l : list expr) : Forall Q l := match l with [] => Forall_nil _ | a :: r => Forall_cons _ (IH a) (go r) end) args).
  - apply H6, IH.
  - apply H7, IH.
  - apply H8, IH.
  - apply H9, IH.
  - apply H10.
  - apply H11.
  - apply H12, IH.
  - apply H13; apply IH.
  - apply H14; apply IH.
  - apply H15; apply IH.
  - apply H16. exact ((fix go (l : list expr) : Forall Q l := match l with [] => Forall_nil _ | a :: r => Forall_cons _ (IH a) (go r) end) es).
Qed.

Definition all_covered := fix all (l : list expr) : Prop := match l with [] => True | a :: r => covered G a /\ all r end.
Lemma covered_fine : forall e, covered G e -> fine G e.
Proof. intros [] H; apply H. Qed.
Lemma all_covered_spec : forall l, all_covered l -> Forall (fun e => covered G e -> matches e (analyze G e) (typed e)) l ->
  Forall (fun a => fine G a /\ matches a (analyze G a) (typed a)) l.
Proof.
  induction l as [|a l IH]; intros C F; constructor.
  - inversion F; subst. destruct C as (C & _). split; [now apply covered_fine|auto].
  - inversion F; subst. destruct C as (_ & C). auto.
Qed.
Lemma each_tame : forall l ts, each l ts -> Forall (fun a => fine G a /\ matches a (analyze G a) (typed a)) l -> Forall tame ts.
Proof.
  induction l as [|a l IH]; intros [|t ts] E F; try destruct E; constructor.
  - inversion F as [|? ? (Fi & _) _]; subst. destruct H as (k & H). now apply (Fi _ _ H).
  - inversion F; subst. eauto.
Qed.
Lemma each_forall2 : forall l ts, each l ts -> Forall2 (fun a t => exists k, typed a t k) l ts.
Proof. induction l as [|a l IH]; intros [|t ts] E; try destruct E; constructor; auto. Qed.

Ltac regroup := split; intros X;
  repeat match goal with H : exists _, _ |- _ => destruct H | H : _ /\ _ |- _ => destruct H end;
  repeat match goal with |- exists _, _ => eexists | |- _ /\ _ => split end; eassumption.

Theorem analyze_typed : forall e, covered G e -> matches e (analyze G e) (typed e).
Proof.
  induction e using expr_nested; intros C; cbn [covered] in C; destruct C as (Fe & C).
  - apply node_id.
  - apply node_const.
  - apply node_str.
  - destruct C as (C1 & C2 & O). pose proof (covered_fine _ C1) as F1. pose proof (covered_fine _ C2) as F2.
    apply (matches_iff _ _ (fun t k => exists t1 k1, typed e1 t1 k1 /\ exists t2 k2, typed e2 t2 k2 /\ rule_sub G t1 t2 t /\ k = K true false None)).
    2:{ intros t k. cbn [ExprTypeSpec.typed]. clear. regroup. }
    apply matches_bind; [auto|]. intros p1 t1 k1 A1 Y1 R1. apply matches_bind; [auto|]. intros p2 t2 k2 A2 Y2 R2.
    destruct (O _ _ _ _ Y1 Y2). eapply node_sub; eauto; [apply (F1 _ _ Y1)|apply (F2 _ _ Y2)].
  - destruct C as (C1 & Ca & O). pose proof (covered_fine _ C1) as F1. pose proof (all_covered_spec args Ca H) as FA.
    assert (MA : Forall (fun a => matches a (analyze G a) (typed a)) args) by (eapply Forall_impl; [|exact FA]; intros a (_ & X); exact X).
    destruct (args_spec args MA) as (A1 & A2 & A3).
    apply (matches_iff _ _ (fun t k => exists tf kf, typed e tf kf /\ exists ts, each args ts /\ rule_call G tf (combine args ts) t /\ k = rvalue)).
    2:{ intros t k. cbn [ExprTypeSpec.typed]. fold each. clear. split.
        - intros (tf & kf & Y & ts & X). exists tf, kf, ts. tauto.
        - intros (tf & kf & ts & Y & X). exists tf, kf. split; [exact Y|]. exists ts. tauto. }
    change (analyze G (ECall e args)) with (bind (analyze G e) (fun pf => bind (analyze_all args) (fun pargs => an_call pf pargs))).
    apply matches_bind; [auto|]. intros pf tf kf Af Yf Rf.
    assert (NC : forall ps ts, each args ts -> good args ps ts ->
      matches (ECall e args) (an_call pf ps) (fun t k => rule_call G tf (combine args ts) t /\ k = rvalue)).
    { intros ps ts Ea Gd. apply (node_call e args pf tf kf ps ts Rf); auto.
      - apply (F1 _ _ Yf).
      - eapply each_tame; eauto.
      - apply (O _ _ _ Yf). now apply each_forall2.
      - intros t X. apply (Fe t rvalue). cbn [ExprTypeSpec.typed]. fold each. eauto 10. }
    split; [|split].
    + intros t k (ts & Ea & X). destruct (A1 ts Ea) as (ps & E & Gd). rewrite E. cbn [bind]. apply (NC ps ts Ea Gd). exact X.
    + intros p X. destruct (analyze_all args) as [ps| |] eqn:E; cbn [bind] in X; try discriminate X. destruct (A2 ps eq_refl) as (ts & Ea & Gd).
      destruct (NC ps ts Ea Gd) as (_ & M & _). destruct (M p X) as (t & k & Y & R). exists t, k. split; [|exact R]. eauto.
    + destruct (analyze_all args) as [ps| |] eqn:E; cbn [bind]; [|discriminate|congruence]. destruct (A2 ps eq_refl) as (ts & Ea & Gd). apply (NC ps ts Ea Gd).
  - destruct C as (C1 & O).
    apply (matches_iff _ _ (fun t k => exists t1 k1, typed e t1 k1 /\ exists w, rule_member G t1 m t w /\ k = K (k_lvalue k1) (k_register k1) w)).
    2:{ intros t k. cbn [ExprTypeSpec.typed]. clear. regroup. }
    apply matches_bind; [auto|]. intros p1 t1 k1 A1 Y1 R1. apply node_member; eauto.
  - destruct C as (C1 & O). pose proof (covered_fine _ C1) as F1.
    apply (matches_iff _ _ (fun t k => exists t1 k1, typed e t1 k1 /\ exists a w, value_type t1 = TPtr a /\ rule_member G a m t w /\ k = K true false w)).
    2:{ intros t k. cbn [ExprTypeSpec.typed]. clear. regroup. }
    apply matches_bind; [auto|]. intros p1 t1 k1 A1 Y1 R1. eapply node_arrow; eauto. apply (F1 _ _ Y1).
  - destruct C as (C1 & O). pose proof (covered_fine _ C1) as F1. cbn [analyze ExprTypeSpec.typed].
    apply (matches_iff _ _ (fun t k => exists t1 k1, typed e t1 k1 /\ rule_unary G o e t1 k1 t k)); [|tauto].
    apply matches_bind; [auto|]. intros p1 t1 k1 A1 Y1 R1. destruct (F1 _ _ Y1). eapply node_unary; eauto.
  - destruct C as (C1 & O). pose proof (covered_fine _ C1) as F1.
    apply (matches_iff _ _ (fun t k => exists t1 k1, typed e t1 k1 /\ (complete G t1 /\ k_bits k1 = None /\ t = TBasic BSInt) /\ k = rvalue)).
    2:{ intros t k. cbn [ExprTypeSpec.typed]. clear. regroup. }
    apply matches_bind; [auto|]. intros p1 t1 k1 A1 Y1 R1. destruct (F1 _ _ Y1). eapply node_sizeof; eauto. exact (O _ _ Y1).
  - now apply node_sizeof_type.
  - now apply node_alignof.
  - destruct C as (C1 & Tt & Vt). pose proof (covered_fine _ C1) as F1.
    apply (matches_iff _ _ (fun t' k => exists t2 k2, typed e t2 k2 /\ (rule_cast t (value_type t2) /\ t' = strip t) /\ k = rvalue)).
    2:{ intros t' k. cbn [ExprTypeSpec.typed]. clear. regroup. }
    apply matches_bind; [auto|]. intros p1 t1 k1 A1 Y1 R1. destruct (F1 _ _ Y1). eapply node_cast; eauto.
  - destruct C as (C1 & C2 & O). pose proof (covered_fine _ C1) as F1. pose proof (covered_fine _ C2) as F2.
    apply (matches_iff _ _ (fun t k => exists t1 k1, typed e1 t1 k1 /\ exists t2 k2, typed e2 t2 k2 /\ rule_binary G o e1 t1 (k_bits k1) e2 t2 (k_bits k2) t /\ k = rvalue)).
    2:{ intros t k. cbn [ExprTypeSpec.typed]. clear. regroup. }
    apply matches_bind; [auto|]. intros p1 t1 k1 A1 Y1 R1. apply matches_bind; [auto|]. intros p2 t2 k2 A2 Y2 R2.
    destruct (F1 _ _ Y1), (F2 _ _ Y2). eapply node_binary; eauto.
  - destruct C as (C0 & C1 & C2 & O). pose proof (covered_fine _ C0) as F0. pose proof (covered_fine _ C1) as F1. pose proof (covered_fine _ C2) as F2.
    apply (matches_iff _ _ (fun t k => exists tc kc, typed e1 tc kc /\ exists t1 k1, typed e2 t1 k1 /\ exists t2 k2, typed e3 t2 k2 /\
      rule_cond G (value_type tc) e2 t1 (k_bits k1) e3 t2 (k_bits k2) t /\ k = rvalue)).
    2:{ intros t k. cbn [ExprTypeSpec.typed]. clear. regroup. }
    apply matches_bind; [auto|]. intros pc tc kc A0 Y0 R0. apply matches_bind; [auto|]. intros p1 t1 k1 A1 Y1 R1. apply matches_bind; [auto|]. intros p2 t2 k2 A2 Y2 R2.
    destruct (F0 _ _ Y0), (F1 _ _ Y1), (F2 _ _ Y2). eapply node_cond; eauto.
  - destruct C as (C1 & C2 & O). pose proof (covered_fine _ C1) as F1. pose proof (covered_fine _ C2) as F2.
    apply (matches_iff _ _ (fun t k => exists t1 k1, typed e1 t1 k1 /\ exists t2 k2, typed e2 t2 k2 /\ rule_assign G o t1 k1 e2 t2 t /\ k = rvalue)).
    2:{ intros t k. cbn [ExprTypeSpec.typed]. clear. regroup. }
    apply matches_bind; [auto|]. intros p1 t1 k1 A1 Y1 R1. apply matches_bind; [auto|]. intros p2 t2 k2 A2 Y2 R2.
    destruct (F1 _ _ Y1), (F2 _ _ Y2), (O _ _ _ _ Y1 Y2). eapply node_assign; eauto.
  - pose proof (all_covered_spec es C H) as FA.
    apply (matches_iff _ _ (fun t k => last_of t es /\ k = rvalue)).
    2:{ intros t k. cbn [ExprTypeSpec.typed]. fold (last_of t). tauto. }
    change (analyze G (EComma es)) with (commas Err es).
    eapply (matches_value _ false); [reflexivity| | |discriminate|].
    + destruct es as [|a es]; [|apply comma_spec; [exact FA|discriminate]]. apply v_none. intros t X. exact X.
    + intros t X. clear C H Fe. induction es as [|a es IH]; [destruct X|]. inversion FA as [|? ? (Fa & _) FA']; subst. destruct es as [|b es].
      * destruct X as (t' & k' & Y & ->). apply value_function. apply (Fa _ _ Y).
      * apply IH; [exact FA'|]. apply X.
    + intros N. apply null_form_ice in N; [destruct N|exact I].
Qed.
End Ctx.
