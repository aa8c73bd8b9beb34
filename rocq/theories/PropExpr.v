(** Properties C22-C26: translated expressions compute the C value.

    The specification is [ceval] (CSem.v), the program is [translate]
    (ExprCompile.v) run on the machine of IRMachine.v.  [~ ceval .. None] says that
    no permitted evaluation order of the expression is undefined. *)

From Coq Require Import ZArith Lia Bool List.
From Verif Require Import Bits CTypes TypeConvModel Memory CSem IRMachine ExprCompile ArithProofs ExprSide ExprProofs.
Import ListNotations.
Open Scope Z_scope.

(** [runs G pos code stk m stk' m']: wherever [code] is placed at index [pos] of a
    function body, the machine goes from its start to its end, turning operand stack
    [stk] and memory [m] into [stk'] and [m']. *)
Definition runs (G : renv) (pos : nat) (code : list instr) (stk : list Z) (m : mem) (stk' : list Z) (m' : mem) : Prop :=
  forall C, code_at C pos code -> star G C (pos, stk, m) ((pos + length code)%nat, stk', m').

Lemma translate_total : forall S e t, ctype_of S e = Some t -> forall pos, translate S pos e = Some (compile S RV pos e).
Proof.
  intros S e t H pos. unfold translate. destruct (ktype_sim S e t H) as (k & K & _). now rewrite K.
Qed.

(** ** C22 *)

(** Any expression whose compound assignments and conditionals have operand types in
    the sets of ExprSide.v. *)
Theorem c22_expression_value_and_effects : forall S G e t m,
  ctype_of S e = Some t -> expr_ok S e = true -> ~ ceval S G RV e m None ->
  exists v m', ceval S G RV e m (Some (v, m')) /\ vrange (decay t) v /\
  forall pos, exists code, translate S pos e = Some code /\
    forall stk, runs G pos code stk m (u64 v :: stk) m'.
Proof.
  intros S G e t m T OK NU. destruct (compile_correct S G e t T OK) as [H _].
  destruct (H m) as [U|(v & m' & E & R & K)]; [contradiction|].
  exists v, m'. split; auto. split; auto. intro pos. eexists. split; [eapply translate_total; eauto|].
  intros stk C HC. apply K. exact HC.
Qed.

(** The expression language named in C22 has neither compound assignment nor the
    conditional operator; then there is no side condition. *)
Fixpoint plain (e : expr) : bool :=
  match e with
  | EConst _ _ | ELocal _ _ | EGlobal _ _ _ => true
  | EUn _ a | ECast _ a | EDeref a | EAddr a | EMember a _ | EIncDec _ _ a => plain a
  | EBin _ a b | ELAnd a b | ELOr a b | EComma a b | EIndex a b | EAssign a b => plain a && plain b
  | ECond _ _ _ | EOpAssign _ _ _ => false
  end.

Lemma plain_ok : forall S e, plain e = true -> expr_ok S e = true.
Proof.
  induction e; cbn [plain expr_ok]; intro H; auto; try discriminate;
    apply andb_true_iff in H; destruct H; rewrite IHe1, IHe2; auto.
Qed.

Theorem c22_integer_expression_correct : forall S G e t m,
  ctype_of S e = Some t -> plain e = true -> ~ ceval S G RV e m None ->
  exists v m', ceval S G RV e m (Some (v, m')) /\ vrange (decay t) v /\
  forall pos, exists code, translate S pos e = Some code /\
    forall stk, runs G pos code stk m (u64 v :: stk) m'.
Proof. intros. apply c22_expression_value_and_effects; auto. now apply plain_ok. Qed.

(** Lvalues: the address of the object. *)
Theorem c22_lvalue_address : forall S G e t m,
  ctype_of S e = Some t -> expr_ok S e = true -> is_lv e = true -> ~ ceval S G LV e m None ->
  exists a m', ceval S G LV e m (Some (a, m')) /\ 0 <= a < 2 ^ 64 /\
  forall pos stk, runs G pos (compile S LV pos e) stk m (a :: stk) m'.
Proof.
  intros S G e t m T OK L NU. destruct (compile_correct S G e t T OK) as [_ H]. specialize (H L).
  destruct (H m) as [U|(v & m' & E & R & K)]; [contradiction|].
  exists v, m'. split; auto. split; auto. intros pos stk C HC. rewrite <- (u64_id v) by exact R. apply K. exact HC.
Qed.

(** *** A concrete case: int i; long a[4]; a[i++] = -i * 3 && (unsigned char)a[0] *)
Definition S0 : senv := {| ssize := fun _ => 16; sfield := fun _ f => match f with O => Some (0, TInt IInt) | _ => Some (8, TPtr (TInt IInt)) end |}.
Definition G0 : renv := {| lbase := 1000; gaddr := fun _ => 5000 |}.
Definition m0 : mem := store (fun _ => 0) 1000 4 2.

Definition ex_e : expr :=
  EAssign (EIndex (EGlobal 0 0 (TArr (TInt ILong) 4)) (EIncDec false true (ELocal 0 (TInt IInt))))
          (EBin BMul (EUn UMinus (EConst IInt 7)) (EConst IUInt 3)).

Example ex_typed : ctype_of S0 ex_e = Some (TInt ILong) /\ plain ex_e = true.
Proof. split; reflexivity. Qed.

(** Every evaluation of the example yields 4294967275 (= (unsigned) -21). *)
Ltac inv H := inversion H; clear H; subst.
Ltac inv_rtype := match goal with
  | H : rtype _ _ _ |- _ => let t := fresh in let E := fresh in destruct H as (t & E & H);
      cbn [ctype_of] in E; first [discriminate E | injection E as E; subst t; cbn [decay] in H; first [discriminate H | subst | injection H as H; subst]] end.
Ltac inv_ev := match goal with
  | H : Some _ = Some _ |- _ => inv H
  | H : ceval _ _ RV (EConst _ _) _ _ |- _ => inv H; [discriminate|]
  | H : ceval _ _ RV (EUn _ _) _ _ |- _ => inv H; [discriminate|]
  | H : ceval _ _ RV (EBin _ _ _) _ _ |- _ => inv H; [discriminate|]
  | H : ceval _ _ RV (EIncDec _ _ _) _ _ |- _ => inv H; [discriminate|]
  | H : ceval _ _ RV (EAssign _ _) _ _ |- _ => inv H; [discriminate|]
  | H : ceval _ _ RV (EOpAssign _ _ _) _ _ |- _ => inv H; [discriminate|]
  | H : ceval _ _ RV (EGlobal _ _ _) _ _ |- _ => inv H
  | H : ceval _ _ LV _ _ _ |- _ => inv H
  | H : seq2 _ _ _ _ |- _ => inv H
  | H : ctype_of _ _ = Some _ |- _ => cbn [ctype_of] in H
  end.
Example ex_defined : forall r, ceval S0 G0 RV ex_e m0 r -> exists m', r = Some (4294967275, m').
Proof.
  assert (R : forall m r, ceval S0 G0 RV (EBin BMul (EUn UMinus (EConst IInt 7)) (EConst IUInt 3)) m r ->
     r = Some (4294967275, m)).
  { intros m r H.
    assert (N : forall m r, ceval S0 G0 RV (EUn UMinus (EConst IInt 7)) m r -> r = Some (-7, m))
      by (clear; intros; repeat first [inv_ev|inv_rtype]; reflexivity).
    assert (C : forall m r, ceval S0 G0 RV (EConst IUInt 3) m r -> r = Some (3, m))
      by (clear; intros; repeat inv_ev; reflexivity).
    inv_ev. inv_rtype. inv_rtype. inv_ev;
      repeat match goal with
      | H : ceval _ _ _ (EUn _ _) _ _ |- _ => apply N in H; inv H
      | H : ceval _ _ _ (EConst _ _) _ _ |- _ => apply C in H; inv H
      end; reflexivity. }
  assert (I : forall r, ceval S0 G0 RV (EIncDec false true (ELocal 0 (TInt IInt))) m0 r -> exists m', r = Some (2, m')).
  { intros r H. repeat inv_ev. cbn [bindo].
    replace (cload (TInt IInt) m0 (u64 (lbase G0 + 0))) with (Some 2) by (vm_compute; reflexivity).
    cbn [bindo]. eexists. reflexivity. }
  assert (X : forall r, ceval S0 G0 LV (EIndex (EGlobal 0 0 (TArr (TInt ILong) 4)) (EIncDec false true (ELocal 0 (TInt IInt)))) m0 r ->
     exists a m', r = Some (a, m')).
  { assert (GA : forall m r, ceval S0 G0 RV (EGlobal 0 0 (TArr (TInt ILong) 4)) m r -> r = Some (5000, m))
      by (clear; intros; repeat inv_ev; reflexivity).
    intros r H. inv_ev; repeat inv_rtype. inv_ev;
      repeat match goal with
        | H : ceval _ _ RV (EGlobal _ _ _) _ _ |- _ => apply GA in H; inv H
        | H : ceval _ _ RV (EIncDec _ _ _) m0 _ |- _ => apply I in H; destruct H as (? & H); inv H
        end; cbn [bindo]; eauto. }
  intros r H. unfold ex_e in H. inv_ev.
  match goal with H : ctype_of _ _ = Some _ |- _ => cbn in H; inv H end. inv_ev;
  repeat match goal with
      | H : ceval _ _ RV (EBin _ _ _) _ _ |- _ => apply R in H; inv H
      | H : ceval _ _ LV (EIndex _ _) m0 _ |- _ => apply X in H; destruct H as (? & ? & H); inv H
      end; cbn [bindo cconv_ty]; eexists; reflexivity.
Qed.

Example ex_not_ub : ~ ceval S0 G0 RV ex_e m0 None.
Proof. intro H. apply ex_defined in H. destruct H as (? & H). discriminate. Qed.

(** ** C23: conversions *)

(** The code converting from one scalar type to another maps the representation of
    [v] to the representation of [v] converted to the target type, touching nothing
    else. *)
Theorem c23_integer_conversion : forall (from to : ity) (v : Z) G pos stk m,
  in_range from v ->
  runs G pos (kconv (TInt from) (TInt to)) (u64 v :: stk) m (u64 (cconv to v) :: stk) m.
Proof.
  intros from to v G pos stk m R C HC. apply seq_star; auto.
  apply (kconv_ok G (TInt from) (TInt to)); auto.
Qed.

(** ... where [cconv] is the conversion of 6.3.1.2/6.3.1.3: the unique value of the
    target type congruent to [v], or [v <> 0] for _Bool. *)
Theorem c23_conversion_is_c17 : forall to v,
  in_range to (cconv to v) /\
  (to = IBool -> cconv to v = b2z (negb (v =? 0))) /\
  (to <> IBool -> (2 ^ iwidth to | cconv to v - v)) /\
  (in_range to v -> cconv to v = v).
Proof.
  intros to v. split; [apply cconv_range|]. split; [|split].
  - intros ->. unfold cconv. destruct (v =? 0); reflexivity.
  - intro NB. pose proof (cconv_eqm to v NB) as E. pose proof (iwidth_pos to). apply eqm_exists in E; [|lia].
    destruct E as [k E]. exists k. rewrite E. ring.
  - apply cconv_id.
Qed.

(** Normalization, used after arithmetic, works on any slot contents. *)
Theorem c23_normalize : forall (to : ity) (w : Z) G pos stk m, 0 <= w < 2 ^ 64 ->
  runs G pos (knorm to) (w :: stk) m (u64 (cconv to w) :: stk) m.
Proof. intros to w G pos stk m R C HC. apply seq_star; auto. now apply knorm_ok. Qed.

Example c23_ex : in_range IInt (-1) /\ u64 (cconv IUShort (-1)) = 65535 /\ u64 (cconv IBool (-1)) = 1
  /\ u64 (cconv ISChar 200) = 2 ^ 64 - 56.
Proof. repeat split; vm_compute; congruence. Qed.

(** ** C24: short-circuit evaluation *)

(** Nothing is assumed about the second operand except when the first value demands
    it: it may be undefined, and its code may trap. *)
Theorem c24_and_short_circuits : forall S G a b ta tb m,
  ctype_of S a = Some ta -> ctype_of S b = Some tb -> scalar (decay ta) = true -> scalar (decay tb) = true ->
  expr_ok S a = true -> expr_ok S b = true -> ~ ceval S G RV a m None ->
  exists va m1, ceval S G RV a m (Some (va, m1)) /\
  (va = 0 -> forall pos stk, runs G pos (compile S RV pos (ELAnd a b)) stk m (0 :: stk) m1) /\
  (va <> 0 -> ~ ceval S G RV b m1 None ->
     exists vb m2, ceval S G RV b m1 (Some (vb, m2)) /\
     forall pos stk, runs G pos (compile S RV pos (ELAnd a b)) stk m ((if vb =? 0 then 0 else 1) :: stk) m2).
Proof.
  intros S G a b ta tb m TA TB SA SB OA OB NU.
  destruct (compile_correct S G a ta TA OA) as [HA _]. destruct (compile_correct S G b tb TB OB) as [HB _].
  assert (T : ctype_of S (ELAnd a b) = Some (TInt IInt)) by (cbn [ctype_of]; now rewrite TA, TB, SA, SB).
  destruct (HA m) as [U|(va & m1 & EA & RA & KA)]; [contradiction|].
  exists va, m1. split; auto.
  pose proof (vr_bound _ _ _ RA) as BA.
  assert (PRE : forall pos stk, run_at G pos (compile S RV pos a ++ [OTrunc1; OPick 0; OBNot]) stk m
     (bit (va =? 0) :: bit (negb (va =? 0)) :: stk) m1).
  { intros. eapply run_app_seq; [apply KA|]. cbn [exec_seq exec1 nth_error]. rewrite u64_zero by lia.
    destruct (va =? 0); reflexivity. }
  split.
  - intros ->  pos stk. cbn [compile]. eapply run_branch; [reflexivity|apply PRE| |].
    + discriminate.
    + intros _. split; reflexivity.
  - intros NZ NB. destruct (HB m1) as [U|(vb & m2 & EB & RB & KB)]; [contradiction|].
    pose proof (vr_bound _ _ _ RB) as BB.
    exists vb, m2. split; auto. intros pos stk. cbn [compile]. eapply run_branch; [reflexivity|apply PRE| |].
    + intros _. eapply run_app_seq; [apply KB|]. cbn [exec_seq exec1]. rewrite u64_zero by lia.
      destruct (Z.eqb_spec va 0); [contradiction|]. destruct (vb =? 0); reflexivity.
    + destruct (Z.eqb_spec va 0); [contradiction|]. cbn. congruence.
Qed.

Theorem c24_or_short_circuits : forall S G a b ta tb m,
  ctype_of S a = Some ta -> ctype_of S b = Some tb -> scalar (decay ta) = true -> scalar (decay tb) = true ->
  expr_ok S a = true -> expr_ok S b = true -> ~ ceval S G RV a m None ->
  exists va m1, ceval S G RV a m (Some (va, m1)) /\
  (va <> 0 -> forall pos stk, runs G pos (compile S RV pos (ELOr a b)) stk m (1 :: stk) m1) /\
  (va = 0 -> ~ ceval S G RV b m1 None ->
     exists vb m2, ceval S G RV b m1 (Some (vb, m2)) /\
     forall pos stk, runs G pos (compile S RV pos (ELOr a b)) stk m ((if vb =? 0 then 0 else 1) :: stk) m2).
Proof.
  intros S G a b ta tb m TA TB SA SB OA OB NU.
  destruct (compile_correct S G a ta TA OA) as [HA _]. destruct (compile_correct S G b tb TB OB) as [HB _].
  destruct (HA m) as [U|(va & m1 & EA & RA & KA)]; [contradiction|].
  exists va, m1. split; auto.
  pose proof (vr_bound _ _ _ RA) as BA.
  assert (PRE : forall pos stk, run_at G pos (compile S RV pos a ++ [OTrunc1; OPick 0]) stk m
     (bit (negb (va =? 0)) :: bit (negb (va =? 0)) :: stk) m1).
  { intros. eapply run_app_seq; [apply KA|]. cbn [exec_seq exec1 nth_error]. rewrite u64_zero by lia.
    destruct (va =? 0); reflexivity. }
  split.
  - intros NZ  pos stk. cbn [compile]. destruct (Z.eqb_spec va 0); [contradiction|].
    eapply run_branch; [reflexivity|apply PRE| |].
    + discriminate.
    + intros _. split; reflexivity.
  - intros -> NB. destruct (HB m1) as [U|(vb & m2 & EB & RB & KB)]; [contradiction|].
    pose proof (vr_bound _ _ _ RB) as BB.
    exists vb, m2. split; auto. intros pos stk. cbn [compile]. eapply run_branch; [reflexivity|apply PRE| |].
    + intros _. eapply run_app_seq; [apply KB|]. cbn [exec_seq exec1]. rewrite u64_zero by lia.
      destruct (vb =? 0); reflexivity.
    + cbn. congruence.
Qed.

(** The skipped operand may well be undefined: 0 && 1 / 0. *)
Example c24_ex : let b := EBin BDiv (EConst IInt 1) (EConst IInt 0) in
  ctype_of S0 b = Some (TInt IInt) /\ expr_ok S0 b = true /\ ceval S0 G0 RV b m0 None /\
  ~ ceval S0 G0 RV (EConst IInt 0) m0 None.
Proof.
  cbn zeta. split; [reflexivity|]. split; [reflexivity|]. split.
  - refine (ev_bin S0 G0 BDiv _ _ (TInt IInt) (TInt IInt) m0 (Some (1, 0, m0)) _ _ _); try (eexists; split; reflexivity).
    eapply s2_lr; constructor.
  - intro H. inv H. discriminate.
Qed.

(** ** C25: compound assignment *)

(** The full statement of C25 for integer operands of types [tl] and [tr]: for every
    lvalue and value expression of these types. *)
Definition compound_correct (op : binop) (tl tr : ity) : Prop :=
  forall S G l r m, is_lv l = true -> ctype_of S l = Some (TInt tl) ->
    (exists t, ctype_of S r = Some t /\ decay t = TInt tr) ->
    expr_ok S l = true -> expr_ok S r = true -> ~ ceval S G RV (EOpAssign op l r) m None ->
    exists v m', ceval S G RV (EOpAssign op l r) m (Some (v, m')) /\
      forall pos stk, runs G pos (compile S RV pos (EOpAssign op l r)) stk m (u64 v :: stk) m'.

(** It is exactly right for the operand types in [compound_ok]: for every other
    combination there are operand values for which value or effect is wrong. *)
Definition probe (t : ity) : list Z :=
  filter (in_rangeb t)
    [0; 1; 2; 3; 31; -1; -2; -3; -7; -8; imin t; imax t; imin t + 1; imax t - 1; 2 ^ 31; 2 ^ 32 - 1; 2 ^ 32; 2 ^ 63; 2 ^ 64 - 7].

Definition Gz : renv := {| lbase := 0; gaddr := fun _ => 0 |}.
Definition mz (x : Z) : mem := store (fun _ => 0) 0 8 x.

Definition wit_expr (op : binop) (tl tr : ity) (y : Z) : expr := EOpAssign op (ELocal 0 (TInt tl)) (EConst tr y).

Definition oz_eqb (a : option Z) (b : Z) : bool := match a with Some x => x =? b | None => false end.

Definition is_wit (op : binop) (tl tr : ity) (x y : Z) : bool :=
  in_rangeb tr y && oz_eqb (cload (TInt tl) (mz x) 0) x &&
  match cbin_int op tl tr x y with
  | Some z =>
    match exec_seq Gz (compile S0 RV 0 (wit_expr op tl tr y)) ([], mz x) with
    | Some ([w], _) => negb (w =? u64 (cconv tl z))
    | _ => true
    end
  | None => false
  end.

Definition find_wit (op : binop) (tl tr : ity) : option (Z * Z) :=
  find (fun p => is_wit op tl tr (fst p) (snd p)) (list_prod (probe tl) (probe tr)).

Definition assign_ops : list binop := [BAdd; BSub; BMul; BDiv; BMod; BShl; BShr; BAnd; BOr; BXor].

Lemma witnesses : forall op tl tr, class_of op <> CRel -> compound_ok op tl tr = false -> find_wit op tl tr <> None.
Proof.
  assert (K : forallb (fun op => forallb (fun tl => forallb (fun tr =>
      if compound_ok op tl tr then true else match find_wit op tl tr with Some _ => true | None => false end) all_ity) all_ity) assign_ops = true)
    by (vm_compute; reflexivity).
  intros op tl tr NR OK.
  assert (I : In op assign_ops) by (destruct op; cbn; auto 12; exfalso; apply NR; reflexivity).
  rewrite forallb_forall in K. specialize (K op I).
  pose proof (all_ity_forall _ K tl) as K1. cbv beta in K1.
  pose proof (all_ity_forall _ K1 tr) as K2. cbv beta in K2.
  rewrite OK in K2. destruct (find_wit op tl tr); congruence.
Qed.

Lemma wit_outcomes : forall op tl tr x y z, class_of op <> CRel -> in_rangeb tr y = true ->
  cload (TInt tl) (mz x) 0 = Some x -> cbin_int op tl tr x y = Some z ->
  forall r, ceval S0 Gz RV (wit_expr op tl tr y) (mz x) r ->
  r = Some (cconv tl z, cstore (TInt tl) (mz x) 0 (cconv tl z)).
Proof.
  intros op tl tr x y z NR Y CL CB r H. unfold wit_expr in H. inv H; [discriminate|].
  match goal with E : rtype _ _ _ |- _ => destruct E as (t0 & T0 & ->) end.
  match goal with E : ctype_of _ (ELocal _ _) = _ |- _ => inv E end.
  cbn [ctype_of] in T0. rewrite Y in T0. inv T0. cbn [decay].
  match goal with E : seq2 _ _ _ _ |- _ => rename E into SQ end.
  assert (CC : forall m r, ceval S0 Gz RV (EConst tr y) m r -> r = Some (y, m)) by (intros m r E; inv E; [discriminate|reflexivity]).
  assert (CL' : forall m r, ceval S0 Gz LV (ELocal 0 (TInt tl)) m r -> r = Some (0, m)) by (intros m r E; inv E; reflexivity).
  assert (F : r0 = Some (0, y, mz x)).
  { inv SQ; repeat match goal with
      | H : ceval _ _ RV (EConst _ _) _ _ |- _ => apply CC in H; inv H
      | H : ceval _ _ LV (ELocal _ _) _ _ |- _ => apply CL' in H; inv H
      end; reflexivity. }
  subst r0. cbn [bindo]. rewrite CL. cbn [bindo]. unfold copassign. cbn [cbin]. rewrite CB. reflexivity.
Qed.

Theorem c25_compound_assignment_partial : forall op tl tr, class_of op <> CRel ->
  compound_ok op tl tr = true -> compound_correct op tl tr.
Proof.
  intros op tl tr NR OK S G l r m L TL (t & TR & DT) OL OR NU.
  assert (T : ctype_of S (EOpAssign op l r) = Some (TInt tl)).
  { cbn [ctype_of]. rewrite TL, TR, L, DT. destruct (class_of op); congruence. }
  assert (OE : expr_ok S (EOpAssign op l r) = true).
  { cbn [expr_ok]. rewrite OL, OR. unfold cty_of. rewrite TL, TR, DT. exact OK. }
  destruct (c22_expression_value_and_effects S G _ _ m T OE NU) as (v & m' & E & _ & K).
  exists v, m'. split; auto. intros pos stk. destruct (K pos) as (code & TE & R).
  rewrite (translate_total S _ _ T pos) in TE. inv TE. apply R.
Qed.

Lemma at_end : forall G C stk m, step G C (length C, stk, m) = None.
Proof. intros. unfold step. assert (N : nth_error C (length C) = None) by (apply nth_error_None; lia). now rewrite N. Qed.

Lemma steps_end : forall G C n k a b c, steps G C n a b -> steps G C k a c ->
  step G C b = None -> step G C c = None -> b = c.
Proof.
  intros G C n k a b c H. revert k c. induction H; intros k c' H' N1 N2; inversion H'; subst; auto; try congruence.
  rewrite H in H1. inversion H1; subst. eauto.
Qed.

Lemma seq_stuck : forall G C l pos stk m n stk' m', code_at C pos l -> (pos + length l = length C)%nat ->
  forallb (fun i => negb (is_jump i)) l = true ->
  exec_seq G l (stk, m) = None -> steps G C n (pos, stk, m) (length C, stk', m') -> False.
Proof.
  intros G C. induction l as [|i l IH]; intros pos stk m n stk' m' HC L J E R; cbn [exec_seq] in E; [discriminate|].
  apply code_at_cons in HC. destruct HC as [N HC]. cbn [forallb] in J. apply andb_true_iff in J. destruct J as [J1 J].
  cbn [length] in L.
  remember (length C) as len. remember (pos, stk, m) as c0. remember (len, stk', m') as c1. destruct R as [c|n c c2 c3 ST R].
  - rewrite Heqc0 in Heqc1. injection Heqc1. intros. lia.
  - subst c. unfold step in ST. rewrite N in ST. subst c3.
    assert (X : match exec1 G i (stk, m) with Some (s1, m1) => Some (S pos, s1, m1) | None => None end = Some c2)
      by (destruct i; try discriminate J1; exact ST).
    destruct (exec1 G i (stk, m)) as [[s1 m1]|]; [|discriminate]. inversion X; subst c2.
    apply (IH (S pos) s1 m1 n stk' m'); auto; lia.
Qed.

Theorem c25_compound_assignment_refuted : forall op tl tr, class_of op <> CRel ->
  compound_ok op tl tr = false -> ~ compound_correct op tl tr.
Proof.
  intros op tl tr NR OK H.
  destruct (find_wit op tl tr) as [[x y]|] eqn:F; [|exact (witnesses op tl tr NR OK F)].
  apply find_some in F. destruct F as [_ F]. unfold is_wit in F. cbn [fst snd] in F.
  apply andb_true_iff in F. destruct F as [F FW]. apply andb_true_iff in F. destruct F as [FY FX].
  assert (CL : cload (TInt tl) (mz x) 0 = Some x).
  { unfold oz_eqb in FX. destruct (cload _ _ _); [|discriminate]. apply Z.eqb_eq in FX. congruence. }
  destruct (cbin_int op tl tr x y) as [z|] eqn:CB; [|discriminate].
  assert (OUT := wit_outcomes op tl tr x y z NR FY CL CB).
  destruct (H S0 Gz (ELocal 0 (TInt tl)) (EConst tr y) (mz x)) as (v & m' & E & R); auto.
  { exists (TInt tr). cbn [ctype_of]. now rewrite FY. }
  { intro U. apply OUT in U. discriminate. }
  apply OUT in E. inv E.
  specialize (R 0%nat []).
  set (code := compile S0 RV 0 (EOpAssign op (ELocal 0 (TInt tl)) (EConst tr y))) in *.
  assert (CA : code_at code 0 code) by (exists [], []; rewrite app_nil_r; auto).
  specialize (R code CA). destruct R as [n R]. cbn [Nat.add] in R.
  assert (ST : forall st, exec_seq Gz code ([], mz x) = Some st -> st = ([u64 (cconv tl z)], cstore (TInt tl) (mz x) 0 (cconv tl z))).
  { intros [stk' m''] E. pose proof (seq_star Gz code code 0 [] (mz x) stk' m'' CA E) as [k R']. cbn [Nat.add] in R'.
    assert (Q := steps_end _ _ _ _ _ _ _ R R' (at_end _ _ _ _) (at_end _ _ _ _)). inversion Q; subst. reflexivity. }
  unfold wit_expr in FW. fold code in FW.
  destruct (exec_seq Gz code ([], mz x)) as [[stk' m'']|] eqn:EX.
  - specialize (ST _ eq_refl). inversion ST; subst. apply negb_true_iff, Z.eqb_neq in FW. congruence.
  - (* the machine cannot be stuck and reach the end *)
    clear -EX R CA.
    refine (seq_stuck Gz code code 0%nat _ _ _ _ _ CA _ _ EX R); [reflexivity|].
    subst code. cbn [compile compound_shape]. unfold rt. cbn [ty ktype_of decay].
    rewrite !forallb_app || idtac. 
    assert (NJ : forall t, forallb (fun i => negb (is_jump i)) (knorm t) = true) by (intros []; reflexivity).
    assert (KJ : forall a b, forallb (fun i => negb (is_jump i)) (kconv a (TInt b)) = true).
    { intros a b. unfold kconv. destruct (cty_eqb a (TInt b)); auto. apply NJ. }
    assert (OJ : forall sg, forallb (fun i => negb (is_jump i)) (op_code op sg) = true) by (intro sg; destruct op, sg; reflexivity).
    assert (LJ : forallb (fun i => negb (is_jump i)) (load_code (TInt tl)) = true) by (destruct tl; reflexivity).
    unfold ty. cbn [ktype_of decay compound_shape]. 
    repeat (rewrite ?forallb_app; cbn [forallb app is_jump negb andb off_code Z.eqb assign_tail store_code];
            rewrite ?KJ, ?OJ, ?LJ, ?NJ).
    reflexivity.
Qed.

(** The exact domain, as an equivalence. *)
Corollary c25_compound_assignment_domain : forall op tl tr, class_of op <> CRel ->
  (compound_correct op tl tr <-> compound_ok op tl tr = true).
Proof.
  intros op tl tr NR. split.
  - intro H. destruct (compound_ok op tl tr) eqn:E; auto. exfalso. exact (c25_compound_assignment_refuted op tl tr NR E H).
  - now apply c25_compound_assignment_partial.
Qed.

Example c25_ok_int : forall op, In op assign_ops -> compound_ok op IInt IInt = true.
Proof. intros op H. cbn in H. intuition (subst; reflexivity). Qed.
Example c25_bad : compound_ok BShr IULong IInt = false /\ compound_ok BMod IULong IInt = false
  /\ compound_ok BAdd IUInt IUInt = false /\ compound_ok BAdd IBool IUInt = false.
Proof. repeat split. Qed.

(** Pointer targets: p += n and p -= n. *)
Theorem c25_pointer_compound : forall S G op l r t tr m, (op = BAdd \/ op = BSub) ->
  is_lv l = true -> ctype_of S l = Some (TPtr t) -> (exists t', ctype_of S r = Some t' /\ decay t' = TInt tr) ->
  expr_ok S l = true -> expr_ok S r = true -> ~ ceval S G RV (EOpAssign op l r) m None ->
  exists v m', ceval S G RV (EOpAssign op l r) m (Some (v, m')) /\
    forall pos stk, runs G pos (compile S RV pos (EOpAssign op l r)) stk m (u64 v :: stk) m'.
Proof.
  intros S G op l r t tr m OP L TL (t' & TR & DT) OL OR NU.
  assert (T : ctype_of S (EOpAssign op l r) = Some (TPtr t)).
  { cbn [ctype_of]. rewrite TL, TR, L, DT. destruct OP; subst; reflexivity. }
  assert (OE : expr_ok S (EOpAssign op l r) = true).
  { cbn [expr_ok]. rewrite OL, OR. unfold cty_of. rewrite TL. reflexivity. }
  destruct (c22_expression_value_and_effects S G _ _ m T OE NU) as (v & m' & E & _ & K).
  exists v, m'. split; auto. intros pos stk. destruct (K pos) as (code & TE & R).
  rewrite (translate_total S _ _ T pos) in TE. inv TE. apply R.
Qed.

(** ** C26: the conditional operator *)

(** For all operand types: exactly the selected branch is evaluated, after the
    condition, and the slot holds that branch's value {e in its own type}. *)
Theorem c26_selected_branch : forall S G c a b tc ta tb t m,
  ctype_of S c = Some tc -> ctype_of S a = Some ta -> ctype_of S b = Some tb ->
  ctype_of S (ECond c a b) = Some t ->
  expr_ok S c = true -> expr_ok S a = true -> expr_ok S b = true -> ~ ceval S G RV c m None ->
  exists vc m1, ceval S G RV c m (Some (vc, m1)) /\
  let e := if vc =? 0 then b else a in
  (~ ceval S G RV e m1 None ->
   exists v m2, ceval S G RV e m1 (Some (v, m2)) /\
     forall pos stk, runs G pos (compile S RV pos (ECond c a b)) stk m (u64 v :: stk) m2).
Proof.
  intros S G c a b tc ta tb t m TC TA TB T OC OA OB NU.
  destruct (compile_correct S G c tc TC OC) as [HC _].
  destruct (compile_correct S G a ta TA OA) as [HA _]. destruct (compile_correct S G b tb TB OB) as [HB _].
  destruct (HC m) as [U|(vc & m1 & EC & RC & KC)]; [contradiction|].
  pose proof (vr_bound _ _ _ RC) as BC.
  exists vc, m1. split; auto. cbn zeta. destruct (Z.eqb_spec vc 0) as [->|NZ]; intro NB.
  - destruct (HB m1) as [U|(v & m2 & E & R & K)]; [contradiction|]. exists v, m2. split; auto.
    intros pos stk C HC0. cbn [compile] in *.
    apply code_at_app in HC0. destruct HC0 as [H1 H2]. apply code_at_cons in H2. destruct H2 as [N1 H2].
    apply code_at_app in H2. destruct H2 as [H2 H3]. apply code_at_cons in H3. destruct H3 as [N2 H3].
    eapply star_trans; [apply KC; exact H1|]. eapply star_trans; [apply (star_branch _ _ _ _ _ _ _ N1)|].
    cbn. replace (Datatypes.S (pos + length (compile S RV pos c))) with (pos + length (compile S RV pos c) + 1)%nat in * by lia.
    eapply star_trans; [apply K; exact H2|]. eapply star_trans; [apply star_jmp; exact N2|].
    apply star_here. rewrite !app_length. cbn [length]. rewrite !app_length. cbn [length]. lia.
  - destruct (HA m1) as [U|(v & m2 & E & R & K)]; [contradiction|]. exists v, m2. split; auto.
    intros pos stk C HC0. cbn [compile] in *.
    apply code_at_app in HC0. destruct HC0 as [H1 H2]. apply code_at_cons in H2. destruct H2 as [N1 H2].
    apply code_at_app in H2. destruct H2 as [H2 H3]. apply code_at_cons in H3. destruct H3 as [N2 H3].
    eapply star_trans; [apply KC; exact H1|]. eapply star_trans; [apply (star_branch _ _ _ _ _ _ _ N1)|].
    rewrite u64_zero by lia. destruct (Z.eqb_spec vc 0); [contradiction|].
    match goal with |- star _ _ (?x, _, _) _ => match type of H3 with code_at _ ?y _ => replace y with x in H3 by lia end end.
    eapply star_trans; [apply K; exact H3|]. apply star_here. rewrite !app_length. cbn [length]. rewrite !app_length. cbn [length]. lia.
Qed.

(** The full statement of C26 for integer branches of types [x] and [y]. *)
Definition conditional_correct (x y : ity) : Prop :=
  forall S G c a b tc ta tb m, ctype_of S c = Some tc -> scalar (decay tc) = true ->
    ctype_of S a = Some ta -> decay ta = TInt x -> ctype_of S b = Some tb -> decay tb = TInt y ->
    expr_ok S c = true -> expr_ok S a = true -> expr_ok S b = true ->
    ~ ceval S G RV (ECond c a b) m None ->
    exists v m', ceval S G RV (ECond c a b) m (Some (v, m')) /\
      forall pos stk, runs G pos (compile S RV pos (ECond c a b)) stk m (u64 v :: stk) m'.

Theorem c26_conditional_partial : forall x y, cond_ok (TInt x) (TInt y) = true -> conditional_correct x y.
Proof.
  intros x y OK S G c a b tc ta tb m TC SC TA DA TB DB OC OA OB NU.
  assert (T : ctype_of S (ECond c a b) = Some (TInt (c_common x y))).
  { cbn [ctype_of]. rewrite TC, TA, TB, SC, DA, DB. reflexivity. }
  assert (OE : expr_ok S (ECond c a b) = true).
  { cbn [expr_ok]. rewrite OC, OA, OB. unfold cty_of. rewrite TA, TB, DA, DB. exact OK. }
  destruct (c22_expression_value_and_effects S G _ _ m T OE NU) as (v & m' & E & _ & K).
  exists v, m'. split; auto. intros pos stk. destruct (K pos) as (code & TE & R).
  rewrite (translate_total S _ _ T pos) in TE. inv TE. apply R.
Qed.

(** Outside, the branch is left unconverted: 1 ? -1 : 0u. *)
Theorem c26_conditional_refuted : forall x y, cond_ok (TInt x) (TInt y) = false -> ~ conditional_correct x y.
Proof.
  assert (W : forall x y, cond_ok (TInt x) (TInt y) = false -> exists sel v, in_rangeb (if sel : bool then x else y) v = true
     /\ (u64 (cconv (c_common x y) v) =? u64 v) = false).
  { assert (K : forallb (fun x => forallb (fun y => cond_ok (TInt x) (TInt y) ||
        existsb (fun sel : bool => existsb (fun v => in_rangeb (if sel then x else y) v && negb (u64 (cconv (c_common x y) v) =? u64 v))
          [-1; 2 ^ 63]) [true; false]) all_ity) all_ity = true) by (vm_compute; reflexivity).
    intros x y OK. pose proof (all_ity_forall _ K x) as K1. cbv beta in K1.
    pose proof (all_ity_forall _ K1 y) as K2. cbv beta in K2. rewrite OK in K2. cbn [orb] in K2.
    apply existsb_exists in K2. destruct K2 as (sel & _ & K2). apply existsb_exists in K2. destruct K2 as (v & _ & K2).
    apply andb_true_iff in K2. destruct K2 as [K2 K3]. apply negb_true_iff in K3. eauto. }
  intros x y OK H. destruct (W x y OK) as (sel & v & RV0 & NE). apply Z.eqb_neq in NE.
  set (c := EConst IInt (if sel then 1 else 0)).
  set (va := if sel then v else 0). set (vb := if sel then 0 else v).
  assert (RA : in_rangeb x va = true) by (destruct sel; auto; destruct x; reflexivity).
  assert (RB : in_rangeb y vb = true) by (destruct sel; auto; destruct y; reflexivity).
  assert (CC : forall i w m r, ceval S0 Gz RV (EConst i w) m r -> r = Some (w, m)) by (intros i w m r E; inv E; [discriminate|reflexivity]).
  assert (TT : ctype_of S0 (ECond c (EConst x va) (EConst y vb)) = Some (TInt (c_common x y))).
  { cbn [ctype_of]. rewrite RA, RB. subst c. destruct sel; reflexivity. }
  assert (OUT : forall r, ceval S0 Gz RV (ECond c (EConst x va) (EConst y vb)) m0 r -> r = Some (cconv (c_common x y) v, m0)).
  { intros r E. inv E; [discriminate| | |].
    all: repeat match goal with
      | E : ctype_of _ (ECond _ _ _) = Some _ |- _ => rewrite TT in E; injection E as E; try subst
      | E : ceval _ _ RV _ _ _ |- _ => apply CC in E; try discriminate E; inversion E; clear E; try subst
      end.
    all: destruct sel; try congruence.
    all: try subst va; try subst vb; repeat match goal with E : Some _ = Some _ |- _ => inv E end; try congruence; reflexivity. }
  destruct (H S0 Gz c (EConst x va) (EConst y vb) (TInt IInt) (TInt x) (TInt y) m0) as (w & m' & E & R); auto.
  - subst c. destruct sel; reflexivity.
  - cbn [ctype_of]. now rewrite RA.
  - cbn [ctype_of]. now rewrite RB.
  - intro U. apply OUT in U. discriminate.
  - apply OUT in E. inv E. specialize (R 0%nat []).
    set (code := compile S0 RV 0 (ECond c (EConst x va) (EConst y vb))) in *.
    assert (CA : code_at code 0 code) by (exists [], []; rewrite app_nil_r; auto).
    specialize (R code CA). destruct R as [n R].
    assert (R' : exists k, steps Gz code k (0%nat, [], m0) (length code, [u64 v], m0)).
    { try subst code; try subst c; try subst va; try subst vb. destruct sel; (eexists; cbn [compile length app Nat.add]; eapply steps_S; [reflexivity|]; eapply steps_S; [reflexivity|];
        eapply steps_S; [reflexivity|]; try (eapply steps_S; [reflexivity|]); apply steps_0). }
    destruct R' as [k R']. cbn [Nat.add] in R.
    assert (Q := steps_end _ _ _ _ _ _ _ R R' (at_end _ _ _ _) (at_end _ _ _ _)). inversion Q; subst. congruence.
Qed.

Corollary c26_conditional_domain : forall x y, conditional_correct x y <-> cond_ok (TInt x) (TInt y) = true.
Proof.
  intros x y. split.
  - intro H. destruct (cond_ok (TInt x) (TInt y)) eqn:E; auto. exfalso. exact (c26_conditional_refuted x y E H).
  - apply c26_conditional_partial.
Qed.

Example c26_ok : cond_ok (TInt IInt) (TInt ILong) = true /\ cond_ok (TInt IUChar) (TInt IInt) = true
  /\ cond_ok (TInt IInt) (TInt IULong) = true.
Proof. repeat split. Qed.
Example c26_bad : cond_ok (TInt IInt) (TInt IUInt) = false.
Proof. reflexivity. Qed.

Print Assumptions c22_expression_value_and_effects.
Print Assumptions c22_integer_expression_correct.
Print Assumptions c22_lvalue_address.
Print Assumptions c23_integer_conversion.
Print Assumptions c23_conversion_is_c17.
Print Assumptions c24_and_short_circuits.
Print Assumptions c24_or_short_circuits.
Print Assumptions c25_compound_assignment_domain.
Print Assumptions c25_pointer_compound.
Print Assumptions c26_selected_branch.
Print Assumptions c26_conditional_domain.
