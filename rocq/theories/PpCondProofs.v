(** C56: the evaluation of conditions agrees with 6.10.1. *)
From Coq Require Import ZArith Bool List String Lia PeanoNat.
From Coq Require Import ZifyBool ZifyNat ZifyN.
From Verif Require Import CTypes Bits TypeConvModel LexModel MacroModel CSem ExprCompile ArithProofs ExprProofs ConstEval.
From Verif Require Import PropIntConst PpCondModel PpCondSpec.
Import ListNotations.
Open Scope Z_scope.

(** ** Values *)

Definition T (u : bool) : ity := if u then IULong else ILong.

Lemma T_signed : forall u, isigned (T u) = negb u.
Proof. intros []; reflexivity. Qed.
Lemma T_range : forall u v, in_range (T u) v <-> if u then 0 <= v < 2 ^ 64 else - 2 ^ 63 <= v < 2 ^ 63.
Proof. intros [] v; unfold in_range, imin, imax; cbn; lia. Qed.
Lemma fits_long : forall v, fits_signed v = in_rangeb ILong v.
Proof. intro v. unfold fits_signed, in_rangeb, imin, imax. cbn. lia. Qed.
Lemma result_wrap : forall u v, result u v = wrap (T u) v.
Proof. intros [] v; unfold result, wrap; [reflexivity|]. rewrite fits_long. reflexivity. Qed.
Lemma reading : forall v, signed_reading v = s64 v.
Proof. reflexivity. Qed.
Lemma truth_b2z : forall b, truth b = b2z b.
Proof. reflexivity. Qed.
Lemma s64_to_type : forall u v, s64 (to_type u v) = s64 v.
Proof. intros [] v; [|reflexivity]. apply s64_eqm. apply u64_u64. Qed.
Lemma to_type_range : forall ua ub u v, u = ua || ub -> in_range (T ua) v -> in_range (T u) (to_type u v).
Proof.
  intros ua ub u v -> R. apply T_range. apply T_range in R. destruct ua, ub; cbn [orb to_type] in *;
    try exact R; apply Z.mod_pos_bound; reflexivity.
Qed.
Lemma to_type_low : forall u v, low v = true -> to_type u v = v.
Proof. intros [] v L; [|reflexivity]. unfold low in L. cbn. apply Z.mod_small. lia. Qed.
Lemma low_both : forall v b, low v = true -> in_range (T b) v.
Proof. intros v b L. apply T_range. unfold low in L. destruct b; lia. Qed.
Lemma wrap_range : forall u v r, wrap (T u) v = Some r -> in_range (T u) r.
Proof. intros [] v r H; apply wrap_ok in H; try reflexivity; exact (proj1 H). Qed.
Lemma truth_range : forall b u, in_range (T u) (truth b).
Proof. intros [] u; apply T_range; destruct u; cbn; lia. Qed.
Lemma h_signed_same : forall h r, fits_signed h = true -> s64 h = s64 r -> h_signed h = OVal (s64 r).
Proof.
  intros h r F Q. rewrite fits_long in F. unfold h_signed. rewrite F. f_equal. rewrite <- Q. symmetry. apply s64_small.
  apply i64_spec. exact F.
Qed.

Definition bop (o : pbin) : option binop :=
  match o with
  | QMul => Some BMul | QDiv => Some BDiv | QMod => Some BMod | QAdd => Some BAdd | QSub => Some BSub
  | QShl => Some BShl | QShr => Some BShr | QLt => Some BLt | QGt => Some BGt | QLe => Some BLe | QGe => Some BGe
  | QEq => Some BEq | QNe => Some BNe | QAnd => Some BAnd | QXor => Some BXor | QOr => Some BOr
  | QLand | QLor => None
  end.
Definition is_shift (o : pbin) : bool := match o with QShl | QShr => true | _ => false end.
Definition is_truth (o : pbin) : bool :=
  match o with QLt | QGt | QLe | QGe | QEq | QNe => true | _ => false end.

(** The operator on operands of the common type. *)
Lemma common_arith : forall o u x y r b, bop o = Some b -> is_shift o = false -> is_truth o = false ->
  in_range (T u) x -> in_range (T u) y -> common_value o u x y = Some r -> c_arith b (T u) x y = Some r.
Proof.
  intros o u x y r b B S R X Y H. destruct o; try discriminate; injection B as <-; cbn [common_value c_arith] in *;
    rewrite ?result_wrap in H; auto.
  destruct (y =? 0) eqn:Y0; [discriminate|]. destruct u; cbn [T] in *.
  - rewrite orb_true_r in H. apply (T_range true) in X, Y.
    replace (in_rangeb IULong (x ÷ y)) with true; [exact H|]. symmetry. apply in_rangeb_spec. apply (T_range true).
    rewrite Z.quot_div_nonneg by lia. split; [apply Z.div_pos; lia|]. apply Z.div_lt_upper_bound; nia.
  - rewrite orb_false_r, fits_long in H. exact H.
Qed.
Lemma common_rel : forall o u x y r b, bop o = Some b -> is_truth o = true ->
  common_value o u x y = Some r -> c_rel b x y = Some r.
Proof.
  intros o u x y r b B R H. destruct o; try discriminate; injection B as <-; cbn [common_value c_rel] in *;
    rewrite truth_b2z in H; rewrite <- H; try reflexivity; do 2 f_equal; lia.
Qed.
Lemma common_range : forall o u x y r, is_shift o = false -> in_range (T u) x -> in_range (T u) y ->
  common_value o u x y = Some r -> in_range (T (if is_truth o then false else u)) r.
Proof.
  intros o u x y r S X Y H. destruct (is_truth o) eqn:R.
  - destruct o; try discriminate; injection H as <-; apply truth_range.
  - destruct (bop o) as [b|] eqn:B; [|destruct o; discriminate].
    eapply range_arith; [| exact X|exact Y|eapply common_arith; eassumption]. destruct u; reflexivity.
Qed.

Definition sensitive (o : pbin) : bool :=
  match o with QDiv | QMod | QLt | QGt | QLe | QGe => true | _ => false end.

(** Same signedness, or small operands, whatever the signedness is taken for. *)
Lemma sensitive_ok : forall o u sg x y r b, bop o = Some b -> sensitive o = true ->
  in_range (T u) x -> in_range (T u) y -> (sg = negb u \/ low x = true /\ low y = true) ->
  common_value o u x y = Some r -> k_binary b sg (s64 x) (s64 y) = OVal (s64 r).
Proof.
  intros o u sg x y r b B S X Y G H.
  assert (W : forall u, wide (T u) = true) by (intros []; reflexivity).
  assert (Q : in_range (T (negb sg)) x /\ in_range (T (negb sg)) y /\ common_value o (negb sg) x y = Some r).
  { destruct G as [->|[Lx Ly]]; [rewrite negb_involutive; auto|].
    split; [now apply low_both|]. split; [now apply low_both|]. unfold low in Lx, Ly.
    destruct o; try discriminate; cbn [common_value] in *; auto; destruct (y =? 0) eqn:Y0; auto.
    - assert (D : 0 <= Z.quot x y < 2 ^ 63).
      { rewrite Z.quot_div_nonneg by lia. split; [apply Z.div_pos; lia|]. apply Z.div_lt_upper_bound; nia. }
      assert (Z : forall u, result u (Z.quot x y) = Some (Z.quot x y)).
      { intros []; unfold result, fits_signed; [rewrite Z.mod_small by lia; reflexivity|].
        replace (- 2 ^ 63 <=? x ÷ y) with true by lia. replace (x ÷ y <? 2 ^ 63) with true by lia. reflexivity. }
      rewrite Z in *. exact H.
    - assert (D : 0 <= Z.quot x y < 2 ^ 63).
      { rewrite Z.quot_div_nonneg by lia. split; [apply Z.div_pos; lia|]. apply Z.div_lt_upper_bound; nia. }
      replace (fits_signed (x ÷ y)) with true in * by (unfold fits_signed; lia). exact H. }
  clear G H X Y. destruct Q as (X & Y & H). replace sg with (isigned (T (negb sg))) by (destruct sg; reflexivity).
  destruct o; try discriminate; injection B as <-.
  - apply k_div_ok; auto. refine (common_arith _ _ _ _ _ _ _ _ _ _ _ H); auto.
  - apply k_mod_ok; auto. refine (common_arith _ _ _ _ _ _ _ _ _ _ _ H); auto.
  - apply k_rel_ok; auto; try (refine (common_rel _ _ _ _ _ _ _ _ H); auto).
  - apply k_rel_ok; auto; try (refine (common_rel _ _ _ _ _ _ _ _ H); auto).
  - apply k_rel_ok; auto; try (refine (common_rel _ _ _ _ _ _ _ _ H); auto).
  - apply k_rel_ok; auto; try (refine (common_rel _ _ _ _ _ _ _ _ H); auto).
Qed.

Lemma s64_add : forall x y, s64 (s64 x + s64 y) = s64 (x + y).
Proof. intros. apply s64_eqm. unfold u at 1 2. rewrite Zplus_mod. fold (u 64 (s64 x)) (u 64 (s64 y)). rewrite !u64_s64. unfold u. rewrite <- Zplus_mod. reflexivity. Qed.
Lemma s64_sub : forall x y, s64 (s64 x - s64 y) = s64 (x - y).
Proof. intros. apply s64_eqm. unfold u at 1 2. rewrite Zminus_mod. fold (u 64 (s64 x)) (u 64 (s64 y)). rewrite !u64_s64. unfold u. rewrite <- Zminus_mod. reflexivity. Qed.
Lemma s64_mul : forall x y, s64 (s64 x * s64 y) = s64 (x * y).
Proof. intros. apply s64_eqm. unfold u at 1 2. rewrite Zmult_mod. fold (u 64 (s64 x)) (u 64 (s64 y)). rewrite !u64_s64. unfold u. rewrite <- Zmult_mod. reflexivity. Qed.

Lemma result_s64 : forall u v r, result u v = Some r -> s64 r = s64 v.
Proof.
  intros [] v r H; unfold result in H.
  - injection H as <-. apply s64_eqm. apply u64_u64.
  - destruct (fits_signed v); [|discriminate]. injection H as <-. reflexivity.
Qed.
Lemma result_fits : forall u v r h, result u v = Some r -> h = v \/ u = true -> negb u || fits_signed h = true -> fits_signed h = true.
Proof.
  intros [] v r h H E F; [exact F|]. destruct E as [->|E]; [|discriminate]. unfold result in H.
  destruct (fits_signed v); [reflexivity|discriminate].
Qed.

Lemma binary_ok : forall o a b x y r k, bop o = Some k -> is_shift o = false ->
  in_range (T (is_unsigned a)) x -> in_range (T (is_unsigned b)) y -> op_agrees o a b x y = true ->
  (let u := is_unsigned a || is_unsigned b in common_value o u (to_type u x) (to_type u y)) = Some r ->
  k_binary k (isigned (c_common (phase7 a) (phase7 b))) (s64 x) (s64 y) = OVal (s64 r).
Proof.
  intros o a b x y r k B S X Y A H. cbv zeta in H. remember (is_unsigned a || is_unsigned b) as u eqn:U.
  pose proof (to_type_range _ _ _ _ U X) as X'.
  assert (Y' : in_range (T u) (to_type u y)) by (eapply to_type_range; [rewrite orb_comm in U; exact U|exact Y]).
  unfold op_agrees in A. rewrite <- U in A. cbv zeta in A. rewrite (reading x), (reading y) in A.
  rewrite <- (s64_to_type u x), <- (s64_to_type u y).
  assert (SX : u = false -> s64 (to_type u x) = to_type u x).
  { intros ->. apply s64_small. apply (T_range false) in X'. exact X'. }
  assert (SY : u = false -> s64 (to_type u y) = to_type u y).
  { intros ->. apply s64_small. apply (T_range false) in Y'. exact Y'. }
  destruct (sensitive o) eqn:Sn.
  { apply (sensitive_ok o u); auto.
    assert (E : Bool.eqb (isigned (c_common (phase7 a) (phase7 b))) (negb u) || low x && low y = true)
      by (destruct o; try discriminate Sn; exact A).
    apply orb_prop in E. destruct E as [E|E]; [left; now apply eqb_prop|]. apply andb_prop in E. destruct E as [E1 E2].
    right. rewrite !to_type_low by assumption. auto. }
  assert (SN : u = true \/ s64 (to_type u x) = to_type u x /\ s64 (to_type u y) = to_type u y) by (destruct u; auto).
  rewrite <- (s64_to_type u x), <- (s64_to_type u y) in A.
  destruct o; try discriminate; injection B as <-; cbn [common_value k_binary] in *.
  - apply h_signed_same.
    + eapply result_fits; [exact H| |exact A]. destruct SN as [->|[-> ->]]; auto.
    + rewrite (result_s64 _ _ _ H). apply s64_mul.
  - apply h_signed_same.
    + eapply result_fits; [exact H| |exact A]. destruct SN as [->|[-> ->]]; auto.
    + rewrite (result_s64 _ _ _ H). apply s64_add.
  - apply h_signed_same.
    + eapply result_fits; [exact H| |exact A]. destruct SN as [->|[-> ->]]; auto.
    + rewrite (result_s64 _ _ _ H). apply s64_sub.
  - exact (k_rel_ok BEq (T u) _ _ _ eq_refl X' Y' H).
  - exact (k_rel_ok BNe (T u) _ _ _ eq_refl X' Y' H).
  - injection H as <-. now rewrite s64_land.
  - injection H as <-. now rewrite s64_lxor.
  - injection H as <-. now rewrite s64_lor.
Qed.

Lemma shift_ok : forall (left sg u : bool) x y r, in_range (T u) x ->
  (if left then negb sg || negb u || (low x && fits_signed (x * 2 ^ y)) else Bool.eqb sg (negb u) || low x) = true ->
  shift_value left u x y = Some r ->
  k_binary (if left then BShl else BShr) sg (s64 x) (s64 y) = OVal (s64 r) /\ in_range (T u) r.
Proof.
  intros left sg u x y r X A H. unfold shift_value in H.
  destruct ((0 <=? y) && (y <? 64)) eqn:C; [|discriminate].
  assert (Cy : 0 <= y < 64) by lia. assert (P2 : 0 < 2 ^ y) by (apply Z.pow_pos_nonneg; lia).
  apply T_range in X.
  destruct left; cbn [k_binary]; rewrite (s64_small y) by lia; unfold h_count; rewrite C.
  - destruct (u || (0 <=? x)) eqn:D; [|discriminate]. split.
    2: { rewrite result_wrap in H. eapply wrap_range; exact H. }
    destruct sg.
    + assert (F : s64 x = x /\ 0 <= x /\ fits_signed (x * 2 ^ y) = true).
      { destruct u; cbn [negb orb] in A.
        - apply andb_prop in A. destruct A as [L F]. unfold low in L. rewrite s64_small by lia. repeat split; auto. lia.
        - rewrite s64_small by lia. cbn [orb] in D. unfold result in H.
          destruct (fits_signed (x * 2 ^ y)); [|discriminate]. repeat split; auto. lia. }
      destruct F as (E & N & F). rewrite E. replace (0 <=? x) with true by lia. apply h_signed_same; [exact F|].
      symmetry. eapply result_s64. exact H.
    + unfold h_unsigned. f_equal. rewrite (result_s64 _ _ _ H). apply s64_eqm. rewrite u64_s64.
      unfold Bits.u. rewrite Zmult_mod_idemp_l. reflexivity.
  - injection H as <-.
    assert (Rr : in_range (T u) (x / 2 ^ y)).
    { apply T_range. destruct u.
      - split; [apply Z.div_pos; lia|]. apply Z.div_lt_upper_bound; nia.
      - split; [apply Z.div_le_lower_bound; nia|]. apply Z.div_lt_upper_bound; nia. }
    split; [|exact Rr]. apply T_range in Rr. apply orb_prop in A. destruct A as [A|A].
    + apply eqb_prop in A. subst sg. destruct u; cbn [negb].
      * unfold h_unsigned. rewrite u64_s64, u64_id by lia. reflexivity.
      * rewrite !s64_small by lia. reflexivity.
    + unfold low in A. assert (0 <= x / 2 ^ y < 2 ^ 63) by (split; [apply Z.div_pos; lia|apply Z.div_lt_upper_bound; nia]).
      rewrite (s64_small x) by lia. destruct sg; [now rewrite s64_small by lia|].
      unfold h_unsigned. rewrite u64_id by lia. reflexivity.
Qed.

(** ** The expression that kefir evaluates *)

Definition uop (o : pun) : unop := match o with NPlus => UPlus | NMinus => UMinus | NCompl => UNot | NNot => ULNot end.
Fixpoint kx (e : pexpr) : expr :=
  match e with
  | PNum dec u n v => EConst (num_type dec u n v) v
  | PLit t v => EConst t v
  | PUn o a => EUn (uop o) (kx a)
  | PBin o a b =>
    match bop o with
    | Some k => EBin k (kx a) (kx b)
    | None => match o with QLand => ELAnd (kx a) (kx b) | _ => ELOr (kx a) (kx b) end
    end
  | PCond c a b => ECond (kx c) (kx a) (kx b)
  end.

Lemma valid_type : forall dec u n v, (n <= 2)%nat -> constant_valid dec u v = true ->
  exists t, constant_type u n dec v = Some t /\ in_rangeb t v = true.
Proof.
  intros dec u n v N V. unfold constant_valid in V.
  destruct (constant_type u n dec v) as [t|] eqn:C.
  - exists t. split; [reflexivity|]. unfold constant_type in C. apply find_some in C. apply C.
  - exfalso. unfold constant_type in C. pose proof (find_none _ _ C) as F. clear C.
    assert (H : in_rangeb (if u || negb dec then IULLong else ILLong) v = false).
    { apply F. unfold candidates. apply filter_In. split; [destruct u, dec; cbn; tauto|].
      destruct n as [|[|[|n]]]; [| | |lia]; destruct u, dec; reflexivity. }
    assert (R : in_rangeb (if u || negb dec then IULLong else ILLong) v = true); [|congruence].
    apply in_rangeb_spec. destruct u, dec; cbn [orb negb] in *; unfold in_range, imin, imax; cbn; lia.
Qed.

(** Constants have at most two letters l. *)
Fixpoint suffixed (e : pexpr) : bool :=
  match e with
  | PNum _ _ n _ => Nat.leb n 2
  | PLit _ _ => true
  | PUn _ a => suffixed a
  | PBin _ a b => suffixed a && suffixed b
  | PCond c a b => suffixed c && suffixed a && suffixed b
  end.

Lemma kx_const : forall e, suffixed e = true -> valid e = true -> int_const (kx e) = true.
Proof.
  induction e; intros S V; cbn [suffixed valid kx] in *; rewrite ?andb_true_iff in *.
  - cbn [int_const]. destruct (valid_type dec u n v) as (t & C & R); [now apply Nat.leb_le|exact V|].
    unfold num_type. rewrite C. exact R.
  - exact V.
  - cbn [int_const]. auto.
  - destruct S as [S1 S2], V as [V1 V2]. destruct o; cbn [bop int_const]; rewrite IHe1, IHe2 by assumption; reflexivity.
  - destruct S as [[S1 S2] S3], V as [[V1 V2] V3]. cbn [int_const]. rewrite IHe1, IHe2, IHe3 by assumption. reflexivity.
Qed.
Lemma kx_type : forall e, cit (kx e) = phase7 e.
Proof.
  induction e; cbn [kx phase7]; try reflexivity.
  - cbn [cit]. destruct o; cbn [uop]; congruence.
  - destruct o; cbn [bop cit class_of]; congruence.
  - cbn [cit]. congruence.
Qed.

Section Value.
Variable E : senv.

Lemma keval_bin : forall k a b, suffixed a = true -> suffixed b = true -> valid a = true -> valid b = true ->
  keval E (EBin k (kx a) (kx b)) =
  obind (keval E (kx a)) (fun x => obind (keval E (kx b)) (fun y =>
    k_binary k (isigned (c_common (phase7 a) (phase7 b))) x y)).
Proof.
  intros k a b Sa Sb Va Vb. cbn [keval]. rewrite common_signed by (apply kx_const; assumption).
  rewrite !kx_type. reflexivity.
Qed.

Lemma lit_range : forall t v, in_rangeb t v = true -> in_range (T (negb (isigned (c_promote t)))) v.
Proof.
  intros t v R. apply in_rangeb_spec in R. apply promote_range in R. apply T_range.
  destruct (isigned (c_promote t)) eqn:S; cbn [negb].
  - exact (in_range_signed _ _ S R).
  - exact (in_range_unsigned _ _ S R).
Qed.

Lemma value_ok : forall e v, suffixed e = true -> valid e = true -> agrees e = true -> pvalue e = Some v ->
  keval E (kx e) = OVal (s64 v) /\ in_range (T (is_unsigned e)) v.
Proof.
  induction e as [dec u n c|t c|o a IHa|o a IHa b IHb|c IHc a IHa b IHb]; intros v S V A H.
  - cbn [pvalue] in H. injection H as <-. cbn [valid] in V. unfold constant_valid in V. split; [reflexivity|].
    cbn [is_unsigned]. apply T_range. unfold constant_unsigned. destruct u, dec; cbn [orb negb] in *; try lia;
      destruct (c <? 2 ^ 63) eqn:L; cbn [negb]; lia.
  - cbn [pvalue] in H. injection H as <-. cbn [valid] in V. split; [reflexivity|]. apply lit_range. exact V.
  - cbn [suffixed valid agrees pvalue] in *. apply andb_prop in A. destruct A as [A B].
    destruct (pvalue a) as [x|]; [|discriminate]. destruct (IHa x S V A eq_refl) as [K R]. cbn [kx keval]. rewrite K.
    cbn [obind]. destruct o; cbn [uop k_unary un_value is_unsigned] in *.
    + injection H as <-. auto.
    + split; [|rewrite result_wrap in H; eapply wrap_range; exact H]. apply h_signed_same.
      * rewrite (reading x) in B. eapply result_fits; [exact H| |exact B]. destruct (is_unsigned a) eqn:U; [now right|].
        left. apply T_range in R. now rewrite s64_small.
      * rewrite (result_s64 _ _ _ H). change (- s64 x) with (s64 0 - s64 x). rewrite s64_sub. reflexivity.
    + split; [|rewrite result_wrap in H; eapply wrap_range; exact H]. rewrite s64_lnot. f_equal.
      rewrite (result_s64 _ _ _ H). reflexivity.
    + injection H as <-. split; [|apply (truth_range _ false)]. erewrite s64_zero by exact R.
      destruct (x =? 0); reflexivity.
  - cbn [suffixed valid] in *. apply andb_prop in S, V. destruct S as [Sa Sb], V as [Va Vb].
    destruct (bop o) as [k|] eqn:B.
    + assert (A' : agrees a && agrees b &&
          match pvalue a, pvalue b with Some x, Some y => op_agrees o a b x y | _, _ => true end = true)
        by (destruct o; try discriminate B; exact A).
      rewrite !andb_true_iff in A'. destruct A' as [[Aa Ab] O].
      assert (H' : match pvalue a, pvalue b with
        | Some x, Some y =>
          if is_shift o then shift_value (match o with QShl => true | _ => false end) (is_unsigned a) x y
          else let u := is_unsigned a || is_unsigned b in common_value o u (to_type u x) (to_type u y)
        | _, _ => None end = Some v)
        by (destruct o; try discriminate B; exact H).
      destruct (pvalue a) as [x|]; [|discriminate]. destruct (pvalue b) as [y|]; [|discriminate].
      destruct (IHa x Sa Va Aa eq_refl) as [Ka Ra]. destruct (IHb y Sb Vb Ab eq_refl) as [Kb Rb].
      cbn [kx]. rewrite B. rewrite keval_bin by assumption. rewrite Ka, Kb. cbn [obind].
      destruct (is_shift o) eqn:Sh.
      * destruct o; try discriminate Sh; injection B as <-; cbn [is_unsigned].
        -- exact (shift_ok true _ _ _ _ _ Ra O H').
        -- exact (shift_ok false _ _ _ _ _ Ra O H').
      * split; [exact (binary_ok _ _ _ _ _ _ _ B Sh Ra Rb O H')|]. cbv zeta in H'.
        remember (is_unsigned a || is_unsigned b) as u eqn:U.
        pose proof (to_type_range _ _ _ _ U Ra) as X'.
        assert (Y' : in_range (T u) (to_type u y)) by (eapply to_type_range; [rewrite orb_comm in U; exact U|exact Rb]).
        pose proof (common_range _ _ _ _ _ Sh X' Y' H') as R.
        destruct o; try discriminate B; try discriminate Sh; cbn [is_unsigned is_truth] in *; rewrite <- ?U; exact R.
    + destruct o; try discriminate B; cbn [kx bop keval agrees pvalue is_unsigned] in *; clear B;
        apply andb_prop in A; destruct A as [Aa Ab]; (destruct (pvalue a) as [x|]; [|discriminate]);
        destruct (IHa x Sa Va Aa eq_refl) as [Ka Ra]; rewrite Ka; cbn [obind]; rewrite (s64_zero _ _ Ra);
        destruct (x =? 0); cbn [orb negb] in *;
        try (injection H as <-; split; [reflexivity|apply (truth_range false false)]);
        try (injection H as <-; split; [reflexivity|apply (truth_range true false)]);
        (destruct (pvalue b) as [y|]; [|discriminate]); injection H as <-;
        destruct (IHb y Sb Vb Ab eq_refl) as [Kb Rb]; rewrite Kb; cbn [obind]; rewrite (s64_zero _ _ Rb);
        (split; [destruct (y =? 0); reflexivity|apply (truth_range _ false)]).
  - cbn [suffixed valid agrees pvalue kx keval is_unsigned] in *. rewrite !andb_true_iff in *.
    destruct S as [[Sc Sa] Sb], V as [[Vc Va] Vb], A as [Ac A]. destruct (pvalue c) as [x|]; [|discriminate].
    destruct (IHc x Sc Vc Ac eq_refl) as [Kc Rc]. rewrite Kc. cbn [obind]. rewrite (s64_zero _ _ Rc).
    destruct (x =? 0).
    + destruct (pvalue b) as [y|]; [|discriminate]. injection H as <-. destruct (IHb y Sb Vb A eq_refl) as [K R].
      rewrite s64_to_type. split; [exact K|]. eapply to_type_range; [rewrite orb_comm; reflexivity|exact R].
    + destruct (pvalue a) as [y|]; [|discriminate]. injection H as <-. destruct (IHa y Sa Va A eq_refl) as [K R].
      rewrite s64_to_type. split; [exact K|]. eapply to_type_range; [reflexivity|exact R].
Qed.
End Value.

(** If all constants are signed in phase 7, nothing more is needed. *)
Lemma num_signed : forall dec u n v, (n <= 2)%nat -> constant_valid dec u v = true ->
  isigned (num_type dec u n v) = true -> constant_unsigned u v = false.
Proof.
  intros dec u n v N V S. unfold num_type in S. destruct (valid_type dec u n v N V) as (t & C & R). rewrite C in S.
  unfold constant_type in C. apply find_some in C. destruct C as [I R']. unfold candidates in I. apply filter_In in I.
  destruct I as [_ I]. rewrite S in I. apply andb_prop in I. destruct I as [_ I]. unfold constant_unsigned.
  destruct u; [discriminate I|]. apply in_rangeb_spec in R. pose proof (in_range_signed _ _ S R). cbn [orb]. lia.
Qed.
Lemma promote_signed : forall t, isigned t = true -> isigned (c_promote t) = true.
Proof. intros []; cbn; auto. Qed.
Lemma common_signed7 : forall a b, isigned a = true -> isigned b = true -> isigned (c_common a b) = true.
Proof. intros [] []; cbn; auto; discriminate. Qed.
Lemma signed_types : forall e, suffixed e = true -> valid e = true -> signed_constants e = true ->
  is_unsigned e = false /\ isigned (phase7 e) = true.
Proof.
  induction e; intros S V C; cbn [suffixed valid signed_constants is_unsigned phase7] in *; rewrite ?andb_true_iff in *.
  - split; [|exact C]. apply Nat.leb_le in S. exact (num_signed _ _ _ _ S V C).
  - split; [|exact C]. now rewrite promote_signed.
  - destruct (IHe S V C) as [I1 I2]. destruct o; auto using promote_signed.
  - destruct S as [S1 S2], V as [V1 V2], C as [C1 C2]. destruct (IHe1 S1 V1 C1) as [I1 I2], (IHe2 S2 V2 C2) as [J1 J2].
    rewrite I1, J1. destruct o; auto using promote_signed, common_signed7.
  - destruct S as [[S1 S2] S3], V as [[V1 V2] V3], C as [[C1 C2] C3].
    destruct (IHe2 S2 V2 C2) as [I1 I2], (IHe3 S3 V3 C3) as [J1 J2].
    rewrite I1, J1. auto using common_signed7.
Qed.
Lemma signed_agrees : forall e, suffixed e = true -> valid e = true -> signed_constants e = true -> agrees e = true.
Proof.
  induction e; intros S V C; cbn [agrees]; auto.
  - cbn [suffixed valid signed_constants] in *. rewrite IHe by assumption. destruct (signed_types e S V C) as [-> _].
    destruct o, (pvalue e); reflexivity.
  - cbn [suffixed valid signed_constants] in *. rewrite ?andb_true_iff in *.
    destruct S as [S1 S2], V as [V1 V2], C as [C1 C2].
    destruct (signed_types e1 S1 V1 C1) as [I1 I2], (signed_types e2 S2 V2 C2) as [J1 J2].
    rewrite IHe1, IHe2 by assumption.
    assert (O : forall x y, op_agrees o e1 e2 x y = true).
    { intros. unfold op_agrees. rewrite I1, J1, common_signed7 by assumption. destruct o; reflexivity. }
    destruct o; cbn [andb]; try (destruct (pvalue e1); rewrite ?orb_true_r; reflexivity);
      destruct (pvalue e1), (pvalue e2); auto.
  - cbn [suffixed valid signed_constants] in *. rewrite ?andb_true_iff in *.
    destruct S as [[S1 S2] S3], V as [[V1 V2] V3], C as [[C1 C2] C3]. rewrite IHe1 by assumption.
    split; [reflexivity|]. destruct (pvalue e1) as [x|]; [|reflexivity]. destruct (x =? 0); auto.
Qed.

(** ** Conversion and parsing *)

From Verif Require ParseModel ParseSpec ParseProofs PropParse.

Lemma ity_index_range : forall t, 0 <= ity_index t < 16.
Proof. intros []; cbn; lia. Qed.
Lemma code_type_code : forall t v, code_type (code t v) = t.
Proof.
  intros t v. unfold code_type, code. replace ((v * 16 + ity_index t) mod 16) with (ity_index t); [destruct t; reflexivity|].
  rewrite Z.add_comm, Z_mod_plus_full. symmetry. apply Z.mod_small. apply ity_index_range.
Qed.
Lemma code_value_code : forall t v, code_value (code t v) = v.
Proof.
  intros t v. unfold code_value, code. rewrite Z.add_comm, Z.div_add by lia. rewrite Z.div_small by apply ity_index_range. lia.
Qed.

Section Parsing.
Variable literal : nat -> option (ity * Z).
Context {ty ini : Type} (ty_spell : ty -> list ParseModel.tok) (ini_spell : ini -> list ParseModel.tok).

Definition tun (o : pun) : ParseSpec.uop :=
  match o with NPlus => ParseSpec.UPlus | NMinus => ParseSpec.UMinus | NCompl => ParseSpec.UCompl | NNot => ParseSpec.UNot end.
Definition tbin (o : pbin) : ParseModel.binop :=
  match o with
  | QMul => ParseModel.OMul | QDiv => ParseModel.ODiv | QMod => ParseModel.OMod | QAdd => ParseModel.OAdd
  | QSub => ParseModel.OSub | QShl => ParseModel.OShl | QShr => ParseModel.OShr | QLt => ParseModel.OLt
  | QGt => ParseModel.OGt | QLe => ParseModel.OLe | QGe => ParseModel.OGe | QEq => ParseModel.OEq | QNe => ParseModel.ONe
  | QAnd => ParseModel.OAnd | QXor => ParseModel.OXor | QOr => ParseModel.OOr | QLand => ParseModel.OLand
  | QLor => ParseModel.OLor
  end.
Fixpoint tree_of (e : pexpr) : ParseSpec.tree ty ini :=
  match e with
  | PNum dec u n v => ParseSpec.TrConst (code (num_type dec u n v) v)
  | PLit t v => ParseSpec.TrConst (code t v)
  | PUn o a => ParseSpec.TrUn (tun o) (tree_of a)
  | PBin o a b => ParseSpec.TrBin (tbin o) (tree_of a) (tree_of b)
  | PCond c a b => ParseSpec.TrCond (tree_of c) (tree_of a) (tree_of b)
  end.

Lemma node_expr : forall e, to_expr (ParseSpec.node (tree_of e)) = Some (kx e).
Proof.
  induction e; cbn [tree_of ParseSpec.node to_expr kx].
  - rewrite code_type_code, code_value_code. reflexivity.
  - rewrite code_type_code, code_value_code. reflexivity.
  - rewrite IHe. destruct o; reflexivity.
  - rewrite IHe1, IHe2. destruct o; reflexivity.
  - rewrite IHe1, IHe2, IHe3. reflexivity.
Qed.

Lemma convert_app : forall a b x y, convert_buffer literal a = Some x -> convert_buffer literal b = Some y ->
  convert_buffer literal (a ++ b) = Some (x ++ y).
Proof.
  induction a as [|t a IH]; intros b x y A B; [injection A as <-; exact B|].
  destruct t; cbn [convert_buffer app] in *;
    try (match type of A with context [convert ?l ?t] => destruct (convert l t) end; [|discriminate];
         destruct (convert_buffer literal a) as [xs|]; [|discriminate]; injection A as <-;
         rewrite (IH b xs y eq_refl B); reflexivity).
  eapply IH; eassumption.
Qed.
Lemma convert_spaces : forall l, convert_buffer literal (spaces_out l) = convert_buffer literal l.
Proof.
  induction l as [|t l IH]; [reflexivity|]. destruct t; cbn [spaces_out filter is_ws negb] in *; cbn [convert_buffer];
    fold (spaces_out l) in *; rewrite ?IH; try reflexivity.
Qed.
Lemma number_nonneg : forall b x y, 0 < b -> number b x y -> 0 <= y.
Proof.
  intros b x y Hb H. induction H as [|x y c d Hn IH Hd Hl]; [lia|].
  assert (0 <= d).
  { unfold digit_value in Hd. repeat match type of Hd with context [if ?b then _ else _] => destruct b eqn:? end;
      try discriminate; injection Hd as <-; lia. }
  nia.
Qed.
Lemma suffix_small : forall w u n, suffix w u n -> (n <= 2)%nat.
Proof.
  assert (L : forall w n, long_suffix w n -> (n <= 2)%nat) by (intros w n [[_ ->]|[_ ->]]; lia).
  intros w u n [| | w' n' H | w' x n' _ H | w' x n' _ H]; try lia; eapply L; exact H.
Qed.
Lemma phrase_suffixed : forall l e ts, phrase literal l e ts -> suffixed e = true.
Proof.
  induction 1; cbn [suffixed]; auto.
  - apply Nat.leb_le. eapply suffix_small. eassumption.
  - now rewrite IHphrase1, IHphrase2.
  - now rewrite IHphrase1, IHphrase2, IHphrase3.
Qed.

Lemma D_lift : forall lit k l t ts, (l <= 16)%nat -> (k <= l)%nat -> ParseSpec.D ty_spell ini_spell lit l t ts ->
  ParseSpec.D ty_spell ini_spell lit k t ts.
Proof.
  intros lit k l t ts L K H. remember (l - k)%nat as d eqn:E. revert l L K H E.
  induction d; intros l L K H E.
  - assert (l = k) by lia. now subst.
  - destruct l as [|l]; [lia|]. apply (IHd l); try lia. apply ParseSpec.D_up; [lia|exact H].
Qed.

Lemma phrase_derives : forall l e ts, phrase literal l e ts -> valid e = true ->
  exists xs, convert_buffer literal ts = Some xs /\ ParseSpec.D ty_spell ini_spell 14 l (tree_of e) xs.
Proof.
  induction 1 as [s w sfx dec u n v Es C S|k t v L|e ts P IH|o e ts P IH|o a b ta tb Pa IHa Pb IHb
    |c a b tc ta tb Pc IHc Pa IHa Pb IHb|l e ts Ll P IH]; intro V; cbn [valid tree_of] in *.
  - pose proof (suffix_small _ _ _ S) as N. destruct (valid_type dec u n v N V) as (t & Ct & _).
    assert (K : constant_valid dec u v = true) by exact V. unfold constant_valid in K.
    pose proof (c08_value_and_type_partial dec w v sfx u n [] C S) as Q. rewrite app_nil_r in Q.
    eexists. split; [|apply ParseSpec.D_const]. cbn [convert_buffer convert]. rewrite Es, Q; [|unfold ends; cbn; lia|lia].
    rewrite Ct. unfold num_type. rewrite Ct. reflexivity.
  - eexists. split; [|apply ParseSpec.D_const]. cbn [convert_buffer convert]. rewrite L. reflexivity.
  - destruct (IH V) as (xs & E & D). exists (ParseSpec.parens xs). split.
    + cbn [convert_buffer convert pp_punct]. erewrite convert_app; [|exact E|reflexivity]. reflexivity.
    + apply ParseSpec.D_paren. eapply D_lift; [| |exact D]; lia.
  - destruct (IH V) as (xs & E & D). exists (ParseModel.TP (ParseSpec.uop_punct (tun o)) :: xs). split.
    + cbn [convert_buffer convert]. rewrite E. destruct o; reflexivity.
    + apply ParseSpec.D_un. exact D.
  - apply andb_prop in V. destruct V as [Va Vb]. destruct (IHa Va) as (xa & Ea & Da), (IHb Vb) as (xb & Eb & Db).
    exists (xa ++ ParseModel.TP (ParseSpec.bin_punct (tbin o)) :: xb). split.
    + eapply convert_app; [exact Ea|]. cbn [convert_buffer convert]. rewrite Eb. destruct o; reflexivity.
    + replace (pbin_level o) with (ParseSpec.bin_level (tbin o)) in * by (destruct o; reflexivity).
      apply ParseSpec.D_bin; assumption.
  - rewrite !andb_true_iff in V. destruct V as [[Vc Va] Vb].
    destruct (IHc Vc) as (xc & Ec & Dc), (IHa Va) as (xa & Ea & Da), (IHb Vb) as (xb & Eb & Db).
    exists (xc ++ ParseModel.TP ParseModel.PQuestion :: xa ++ ParseModel.TP ParseModel.PColon :: xb). split.
    + eapply convert_app; [exact Ec|]. cbn [convert_buffer convert pp_punct].
      erewrite convert_app; [|exact Ea|]; [reflexivity|]. cbn [convert_buffer convert pp_punct]. rewrite Eb. reflexivity.
    + apply ParseSpec.D_cond; [exact Dc| |exact Db]. eapply D_lift; [| |exact Da]; lia.
  - destruct (IH V) as (xs & E & D). exists xs. split; [exact E|]. apply ParseSpec.D_up; assumption.
Qed.
End Parsing.
