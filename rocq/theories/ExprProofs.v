(** Correctness of the expression translation. *)

From Coq Require Import ZArith Lia Bool List.
From Verif Require Import Bits CTypes TypeConvModel Memory CSem IRMachine ExprCompile ExprSide ArithProofs.
Import ListNotations.
Open Scope Z_scope.

(** ** Compound assignment on values *)

Lemma common_cases : forall a b, let t := c_common a b in
  iwidth a <= iwidth t /\ iwidth b <= iwidth t /\ (isigned t = true -> represents_all a t = true /\ represents_all b t = true).
Proof.
  assert (X : forall a b, let t := c_common a b in
    (iwidth a <=? iwidth t) && (iwidth b <=? iwidth t) &&
    implb (isigned t) (represents_all a t && represents_all b t) = true).
  { intro a. apply all_ity_forall. revert a. apply all_ity_forall. vm_compute. reflexivity. }
  intros a b t. specialize (X a b). fold t in X. cbv zeta in X.
  rewrite !andb_true_iff, !Z.leb_le in X. destruct X as [[X1 X2] X3]. split; [auto|split; [auto|]].
  intro Hs. rewrite Hs in X3. apply andb_true_iff in X3. exact X3.
Qed.

Lemma represents_all_range : forall a b v, represents_all a b = true -> in_range a v -> in_range b v.
Proof.
  intros a b v H R. unfold represents_all in H. apply andb_true_iff in H.
  rewrite !Z.leb_le in H. unfold in_range in *. lia.
Qed.

Lemma cconv_rep : forall a t v, represents_all a t = true -> in_range a v -> cconv t v = v.
Proof. intros. apply cconv_id. eapply represents_all_range; eauto. Qed.

(** Conversion from the common type back to the target of a raw result. *)
Lemma back_conv : forall G t tl r z stk m,
  wide t = true -> in_range t z -> 0 <= r < 2 ^ 64 ->
  (t = tl -> r = u64 z) -> (tl = IBool -> r = u64 z) ->
  (t <> tl -> tl <> IBool -> cconv tl r = cconv tl z) ->
  exec_seq G (kconv (TInt t) (TInt tl)) (r :: stk, m) = Some (u64 (cconv tl z) :: stk, m).
Proof.
  intros G t tl r z stk m W Z R H1 H2 H3. unfold kconv. cbn [cty_eqb].
  destruct (ity_eqb t tl) eqn:E.
  - apply ity_eqb_eq in E. subst. cbn [exec_seq]. rewrite H1 by auto. now rewrite cconv_id.
  - cbn [knorm_ty]. rewrite knorm_ok by auto. f_equal. f_equal. f_equal. f_equal.
    destruct (ity_eqb tl IBool) eqn:B.
    + apply ity_eqb_eq in B. rewrite H2 by auto. apply cconv_u64.
      pose proof (in_range_64 _ _ Z). lia.
    + apply H3; intro; subst; [|discriminate]. destruct tl; discriminate.
Qed.

Lemma shr_split : forall x k c, 0 <= c <= 64 -> (x + k * 2 ^ 64) / 2 ^ c = x / 2 ^ c + k * 2 ^ (64 - c).
Proof.
  intros. replace (2 ^ 64) with (2 ^ (64 - c) * 2 ^ c).
  - rewrite Z.mul_assoc. apply Z.div_add. pose proof (pow2_pos c). lia.
  - rewrite <- Z.pow_add_r by lia. f_equal. lia.
Qed.

Lemma compound_sound0 : forall G op tl tr tr' x y z stk m,
  class_of op <> CRel -> compound_ok0 op tl tr = true -> ity_sim tr' tr = true ->
  in_range tl x -> in_range tr y -> cbin_int op tl tr x y = Some z ->
  let t := kcommon tl tr' in
  let sg := match op with BMod | BShr => k_is_signed tr' | _ => k_is_signed t end in
  exec_seq G (op_code op sg ++ kconv (TInt t) (TInt tl))
    (u64 (cconv t y) :: u64 (cconv t x) :: stk, m) = Some (u64 (cconv tl z) :: stk, m).
Proof.
  intros G op tl tr tr' x y z stk m C OK SIM X Y H t sg.
  set (ct := c_common tl tr) in *.
  assert (TS : ity_sim t ct = true).
  { eapply ity_sim_trans; [apply kcommon_sim|]. apply c_common_sim; auto using ity_sim_refl. }
  assert (W : wide t = true) by apply wide_kcommon. clearbody t.
  assert (SGN : isigned t = isigned ct) by now apply isigned_sim.
  assert (WID : iwidth t = iwidth ct) by now apply iwidth_sim.
  assert (SGR : k_is_signed tr' = isigned tr) by (rewrite k_signed; now apply isigned_sim).
  assert (CV : forall v, cconv t v = cconv ct v) by (intro; now apply cconv_sim).
  pose proof (common_cases tl tr) as CC. cbv zeta in CC. fold ct in CC. destruct CC as (WL & WR & REP).
  assert (RT : forall v, in_range ct v -> in_range t v) by (intros; eapply in_range_sim; [apply ity_sim_sym|]; eauto).
  pose proof (iwidth_pos tl) as PL. pose proof (iwidth_pos t) as PT.
  assert (BIN : class_of op = CArith \/ class_of op = CBits \/ class_of op = CShift) by (destruct op; cbn in *; auto; congruence).
  rewrite exec_seq_app.
  destruct BIN as [BIN|[BIN|BIN]].
  1,2: unfold cbin_int in H; rewrite BIN in H; fold ct in H; cbv zeta in H; rewrite <- !CV in H;
    assert (H' : c_arith op t (cconv t x) (cconv t y) = Some z)
     by (rewrite <- H; destruct op; cbn [c_arith class_of] in *; try discriminate; unfold wrap, in_rangeb, imin, imax;
         rewrite ?SGN, ?WID; reflexivity); clear H.
  1: destruct (Bool.eqb sg (isigned t)) eqn:SE.
  - apply eqb_prop in SE. rewrite SE.
    destruct (arith_ok G op t (cconv t x) (cconv t y) z stk m (or_introl BIN) W (cconv_range _ _) (cconv_range _ _) H')
      as (Z & r & E & R & Q & EX). rewrite E.
    assert (NE : (t = tl \/ tl = IBool) -> r = u64 z).
    { intros D. apply EX. unfold exact_op. unfold compound_ok0 in OK. fold ct in OK.
      unfold is_u32 in OK. rewrite <- SGN, <- WID in OK.
      destruct op; auto; try discriminate;
       destruct (isigned t) eqn:S1; auto; cbn [negb orb andb] in *;
       destruct (wide_signed_width t W S1) as [W1|W1]; rewrite W1 in *; cbn in OK |- *; auto;
       destruct D as [D|D]; subst tl; try discriminate OK;
       destruct t; discriminate. }
    apply back_conv; auto. intros D1 D2. apply cconv_compat; auto.
    apply (eqm_weaken _ (iwidth t)); [lia|auto].
  - (* modulo with the wrong opcode *)
    apply eqb_false_iff in SE. destruct op; try discriminate; cbn [compound_ok0] in OK; subst sg;
      try (rewrite k_signed in SE; congruence).
    fold ct in OK. rewrite SGR in *. rewrite <- SGN in OK. unfold is_u32 in OK. rewrite <- SGN, <- WID in OK.
    assert (XR := cconv_range t x). assert (YR := cconv_range t y).
    assert (NN : (0 <= cconv t x < 2 ^ 63 /\ 0 <= cconv t y < 2 ^ 63) ).
    { destruct (isigned tr) eqn:S1; destruct (isigned t) eqn:S2; cbn [negb andb orb Bool.eqb] in *; try congruence.
      - rewrite orb_false_r in OK. apply Z.eqb_eq in OK. unfold in_range, imin, imax in XR, YR. rewrite S2, OK in XR, YR. lia.
      - apply negb_true_iff in OK. destruct (REP ltac:(congruence)) as [R1 R2].
        rewrite !CV in *. rewrite (cconv_rep _ _ _ R1 X) in *. rewrite (cconv_rep _ _ _ R2 Y) in *.
        pose proof (in_range_unsigned _ _ OK X). pose proof (in_range_unsigned _ _ S1 Y).
        apply in_range_signed in XR; auto. apply in_range_signed in YR; auto. lia. }
    cbn [c_arith] in H'. destruct (Z.eqb_spec (cconv t y) 0) as [|N]; [discriminate|].
    destruct (in_rangeb t (Z.quot (cconv t x) (cconv t y))) eqn:B; inversion H'; subst z. apply in_rangeb_spec in B.
    assert (Q1 := Z.rem_bound_pos (cconv t x) (cconv t y) ltac:(lia) ltac:(lia)).
    assert (Q2 : 0 <= Z.quot (cconv t x) (cconv t y) < 2 ^ 63).
    { split; [apply Z.quot_pos; lia|]. pose proof (Z.quot_le_mono (cconv t x) (2^63-1) (cconv t y)).
      apply Z.le_lt_trans with (cconv t x); [|lia]. apply Z.quot_le_upper_bound; [lia|]. nia. }
    assert (ZR : in_range t (Z.rem (cconv t x) (cconv t y))).
    { assert (imin t <= 0) by (destruct t; vm_compute; congruence). unfold in_range in *. lia. }
    assert (EE : exec_seq G (op_code BMod (isigned tr)) (u64 (cconv t y) :: u64 (cconv t x) :: stk, m)
                 = Some (u64 (Z.rem (cconv t x) (cconv t y)) :: stk, m)).
    { destruct (isigned tr); cbn [op_code exec_seq exec1].
      - rewrite idiv64_ok by lia. reflexivity.
      - rewrite udiv64_ok by lia. cbn [option_map snd]. rewrite Z.rem_mod_nonneg by lia.
        rewrite Z.rem_mod_nonneg in Q1 by lia. rewrite u64_id by lia. reflexivity. }
    rewrite EE. apply back_conv; auto using u64_range. intros.
    apply cconv_u64_nb; auto.
  - assert (SE : op_code op sg = op_code op (isigned t)) by (destruct op; discriminate || reflexivity).
    rewrite SE.
    destruct (arith_ok G op t (cconv t x) (cconv t y) z stk m (or_intror BIN) W (cconv_range _ _) (cconv_range _ _) H')
      as (Z & r & E & R & Q & EX). rewrite E.
    assert (r = u64 z) by (apply EX; destruct op; try discriminate; reflexivity).
    apply back_conv; auto. intros D1 D2. apply cconv_compat; auto.
    apply (eqm_weaken _ (iwidth t)); [lia|auto].
  - (* shifts *)
    unfold cbin_int in H. rewrite BIN in H. set (p := c_promote tl) in *.
    assert (PRF : wide p = true /\ represents_all tl p = true /\ iwidth p <= iwidth t /\ (iwidth tl <= iwidth p)
                  /\ (isigned p = false -> p = tl) /\ (isigned tl = true -> isigned p = true)
                  /\ (iwidth tl <= 32 -> iwidth p = 32)).
    { assert (K : forall a b, let p := c_promote a in let t := c_common a b in
        wide p && represents_all a p && (iwidth p <=? iwidth t) && (iwidth a <=? iwidth p)
        && (isigned p || ity_eqb p a) && implb (isigned a) (isigned p)
        && implb (iwidth a <=? 32) (iwidth p =? 32) = true).
      { intro a. apply all_ity_forall. revert a. apply all_ity_forall. vm_compute. reflexivity. }
      specialize (K tl tr). cbv zeta in K. fold p ct in K. rewrite !andb_true_iff, !Z.leb_le in K.
      destruct K as [[[[[[K1 K2] K3] K4] K5] K6] K7]. rewrite WID.
      split; [auto|]. split; [auto|]. split; [auto|]. split; [auto|]. split; [|split].
      - intro D. rewrite D in K5. apply ity_eqb_eq in K5. auto.
      - intro D. rewrite D in K6. auto.
      - intro D. apply Z.leb_le in D. rewrite D in K7. apply Z.eqb_eq in K7. auto. }
    destruct PRF as (WP & RP & WPT & WLP & UP & SP & P32).
    assert (XP : in_range p x) by (eapply represents_all_range; eauto).
    pose proof (iwidth_pos p) as PP.
    assert (CR : 0 <= y < iwidth p).
    { unfold c_shift in H. destruct ((0 <=? y) && (y <? iwidth p)) eqn:E; [|discriminate].
      apply andb_true_iff in E. rewrite Z.leb_le, Z.ltb_lt in E. lia. }
    assert (YC : cconv t y = y).
    { apply cconv_id. unfold in_range. destruct t; try discriminate; cbn in WPT, PT |- *; lia. }
    rewrite YC.
    assert (TL64 : t = tl -> iwidth tl = iwidth t) by (intros ->; auto).
    destruct op; try discriminate.
    + (* shl *)
      cbn [op_code exec_seq exec1]. rewrite shl_mod by lia.
      unfold c_shift in H. replace ((0 <=? y) && (y <? iwidth p)) with true in H
        by (symmetry; apply andb_true_iff; rewrite Z.leb_le, Z.ltb_lt; lia).
      destruct (isigned p) eqn:SPP.
      * destruct ((0 <=? x) && in_rangeb p (x * 2 ^ y)) eqn:B; inversion H; subst z; clear H.
        apply andb_true_iff in B. destruct B as [B1 B2]. apply Z.leb_le in B1. apply in_rangeb_spec in B2.
        assert (XC : cconv t x = x).
        { apply cconv_id. unfold in_range in *. pose proof (imin t).
          assert (imin t <= 0) by (destruct t; vm_compute; congruence).
          assert (imax p <= imax t).
          { unfold imax. rewrite SPP. destruct (isigned t).
            - assert (2 ^ (iwidth p - 1) <= 2 ^ (iwidth t - 1)) by (apply Z.pow_le_mono_r; lia). lia.
            - assert (2 ^ (iwidth p - 1) <= 2 ^ iwidth t) by (apply Z.pow_le_mono_r; lia). lia. }
          lia. }
        rewrite XC.
        assert (ZB := in_range_64 _ _ B2).
        unfold kconv. cbn [cty_eqb]. destruct (ity_eqb t tl) eqn:E.
        -- apply ity_eqb_eq in E. cbn [exec_seq].
           assert (tl = p).
           { subst p. rewrite <- E. revert W. clear. destruct t; try discriminate; reflexivity. }
           rewrite (cconv_id tl); [reflexivity|congruence].
        -- cbn [knorm_ty]. rewrite knorm_ok by apply u64_range. rewrite cconv_u64 by lia. reflexivity.
      * inversion H; subst z; clear H. rewrite (UP eq_refl) in *. 
        assert (XC : eqm (iwidth tl) (cconv t x) x).
        { apply (eqm_weaken _ (iwidth t)); [lia|]. apply cconv_eqm. intro; subst t; discriminate. }
        assert (Q : eqm (iwidth tl) (cconv t x * 2 ^ y) (x * 2 ^ y)) by (apply eqm_mul; [lia|auto|apply eqm_refl]).
        unfold kconv. cbn [cty_eqb]. destruct (ity_eqb t tl) eqn:E.
        -- apply ity_eqb_eq in E. cbn [exec_seq]. cbn [compound_ok0] in OK. fold ct in OK.
           unfold is_u32 in OK. rewrite <- SGN, <- WID, E, SPP in OK.
           destruct (wide_signed_width tl WP SPP) as [W32|W64].
           { exfalso. rewrite W32 in OK. destruct tl; try discriminate. }
           rewrite W64 in *. rewrite (cconv_id tl) by (rewrite <- W64; now apply in_range_mod).
           change ((x * 2 ^ y) mod 2 ^ 64) with (u64 (x * 2 ^ y)). rewrite u64_u64.
           f_equal. f_equal. f_equal. now apply u_compat.
        -- cbn [knorm_ty]. rewrite knorm_ok by apply u64_range.
           assert (NB : tl <> IBool) by (intro; subst tl; discriminate).
           rewrite cconv_u64_nb by auto. f_equal. f_equal. f_equal. f_equal.
           apply cconv_compat; auto. eapply eqm_trans; [exact Q|]. apply eqm_sym, (u_eqm (iwidth tl)). lia.
    + (* shr *)
      subst sg. rewrite SGR.
      unfold c_shift in H. replace ((0 <=? y) && (y <? iwidth p)) with true in H
        by (symmetry; apply andb_true_iff; rewrite Z.leb_le, Z.ltb_lt; lia).
      inversion H; subst z; clear H.
      cbn [compound_ok0] in OK. fold ct in OK. unfold is_u64 in OK. rewrite <- SGN, <- WID in OK.
      apply orb_true_iff in OK. destruct OK as [OK|OK].
      * apply andb_true_iff in OK. destruct OK as [O1 O2].
        assert (XC : cconv t x = x) by (rewrite CV; now apply (cconv_rep tl)).
        rewrite XC. assert (XT : in_range t x) by (rewrite <- XC; apply cconv_range).
        assert (SH : c_shift BShr t x y = Some (x / 2 ^ y)).
        { unfold c_shift. replace ((0 <=? y) && (y <? iwidth t)) with true; auto.
          symmetry; apply andb_true_iff; rewrite Z.leb_le, Z.ltb_lt; lia. }
        destruct (shift_ok G BShr t (isigned tr) x y (x / 2 ^ y) stk m eq_refl W XT) as (Z & _ & r & E & R & Q & EX); auto.
        { intros _ S1. rewrite S1 in O2. apply negb_true_iff in O2. apply in_range_unsigned in X; auto. lia. }
        { intros _ S1. rewrite S1 in O2. apply negb_true_iff in O2. 
          destruct (isigned t) eqn:S2; cbn in O2.
          - apply in_range_signed in XT; auto. lia.
          - destruct (wide_signed_width t W S2) as [W1|W1]; rewrite W1 in O2; [|discriminate].
            unfold in_range, imax in XT. rewrite S2, W1 in XT. lia. }
        rewrite E. assert (r = u64 (x / 2 ^ y)) by (apply EX; reflexivity).
        apply back_conv; auto. intros D1 D2. apply cconv_compat; auto.
        apply (eqm_weaken _ (iwidth t)); [lia|auto].
      * rewrite !andb_true_iff in OK. destruct OK as [[[O1 O2] O3] O4].
        apply negb_true_iff in O1. rewrite O1. apply Z.leb_le in O2. specialize (P32 O2).
        assert (TN : t <> tl).
        { intro D. rewrite <- D in O4. apply negb_true_iff in O4. rewrite TS in O4. discriminate. }
        assert (NT : eqm 64 (cconv t x) x).
        { apply orb_true_iff in O3. destruct O3 as [O3|O3].
          - apply andb_true_iff in O3. destruct O3 as [_ O3]. apply Z.eqb_eq in O3.
            pose proof (cconv_eqm t x ltac:(intro; subst t; discriminate)) as Q. rewrite O3 in Q. auto.
          - destruct (REP ltac:(congruence)) as [R1 _]. rewrite CV. rewrite (cconv_rep _ _ _ R1 X). apply eqm_refl. }
        assert (UX : u64 (cconv t x) = u64 x) by (now apply u_compat).
        rewrite UX. cbn [op_code exec_seq exec1]. unfold shr64. rewrite (u64_id y) by lia. rewrite Z.mod_small by lia.
        assert (RR : 0 <= u64 x / 2 ^ y < 2 ^ 64).
        { pose proof (u64_range x). pose proof (pow2_pos y ltac:(lia)).
          assert (u64 x / 2 ^ y <= u64 x) by (apply Z.div_le_upper_bound; nia).
          assert (0 <= u64 x / 2 ^ y) by (apply Z.div_pos; lia). lia. }
        assert (XZ : in_range p (x / 2 ^ y)) by (apply div_pow_range; auto; lia).
        unfold kconv. cbn [cty_eqb]. destruct (ity_eqb t tl) eqn:E; [apply ity_eqb_eq in E; contradiction|].
        cbn [knorm_ty]. rewrite knorm_ok by auto. f_equal. f_equal. f_equal. f_equal.
        assert (U : exists k, u64 x = x + k * 2 ^ 64).
        { apply (eqm_exists 64); [lia|]. apply u_eqm. lia. }
        destruct U as [k U].
        destruct (ity_eqb tl IBool) eqn:EB.
        -- apply ity_eqb_eq in EB. subst tl. rewrite (u64_id x); auto. apply in_range_unsigned in X; auto.
        -- apply cconv_compat; [intro; subst tl; discriminate|].
           rewrite U, shr_split by lia.
           apply eqm_exists; [lia|]. exists (k * 2 ^ (64 - y - iwidth tl)).
           rewrite <- Z.mul_assoc, <- Z.pow_add_r by lia. f_equal. f_equal. f_equal. lia.
Qed.

Lemma kcommon_cases : forall tl tr tr', ity_sim tr' tr = true -> is_u32 (c_common tl tr) = true -> kcommon tl tr' = IUInt.
Proof.
  intros tl tr tr' SIM U.
  assert (TS : ity_sim (kcommon tl tr') (c_common tl tr) = true).
  { eapply ity_sim_trans; [apply kcommon_sim|]. apply c_common_sim; auto using ity_sim_refl. }
  revert TS U. generalize (kcommon tl tr') (c_common tl tr). intros [] []; vm_compute; congruence.
Qed.

Lemma compound_sound : forall G op tl tr tr' x y z stk m,
  class_of op <> CRel -> compound_ok op tl tr = true -> ity_sim tr' tr = true ->
  in_range tl x -> in_range tr y -> cbin_int op tl tr x y = Some z ->
  let t := kcommon tl tr' in
  let sg := match op with BMod | BShr => k_is_signed tr' | _ => k_is_signed t end in
  exec_seq G (op_code op sg ++ kconv (TInt t) (TInt tl))
    (u64 (cconv t y) :: u64 (cconv t x) :: stk, m) = Some (u64 (cconv tl z) :: stk, m).
Proof.
  intros G op tl tr tr' x y z stk m C OK SIM X Y H t sg. unfold compound_ok in OK. apply orb_true_iff in OK.
  destruct OK as [OK|OK]; [eapply compound_sound0; eauto|].
  destruct op; try discriminate OK; cbn [compound_ok1] in OK.
  - apply andb_true_iff in OK. destruct OK as [E1 E2]. apply ity_eqb_eq in E1, E2. subst tl tr.
    assert (T : t = IUInt) by (apply (kcommon_cases IBool IUInt); auto). subst sg. clearbody t. subst t.
    unfold in_range, imin, imax in X, Y. cbn in X, Y. unfold cbin_int in H. cbn [class_of c_arith] in H.
    change (c_common IBool IUInt) with IUInt in H. rewrite (cconv_id IUInt x), (cconv_id IUInt y) in * by (unfold in_range; cbn; lia).
    unfold wrap in H. cbn in H. inversion H; subst z. cbn [op_code app exec_seq exec1 kconv cty_eqb ity_eqb knorm_ty knorm].
    rewrite (u64_id x), (u64_id y) by lia. cbn [cconv].
    do 3 f_equal. change 4294967296 with (2 ^ 32). unfold u.
    destruct (Z.eq_dec x y) as [->|N].
    + rewrite Z.sub_diag. reflexivity.
    + assert ((x - y) mod 2 ^ 64 <> 0) by (intro D; apply Z.mod_divide in D; [|lia]; destruct D as [q D]; nia).
      assert ((x - y) mod 2 ^ 32 <> 0) by (intro D; apply Z.mod_divide in D; [|lia]; destruct D as [q D]; nia).
      destruct (Z.eqb_spec ((x - y) mod 2 ^ 64) 0); [contradiction|].
      destruct (Z.eqb_spec ((x - y) mod 2 ^ 32) 0); [contradiction|]. reflexivity.
  - assert (K : (tl = IBool /\ tr = IUInt) \/ (tl = IUInt /\ tr = IBool)).
    { apply orb_true_iff in OK. destruct OK as [OK|OK]; apply andb_true_iff in OK; destruct OK as [E1 E2]; apply ity_eqb_eq in E1, E2; auto. }
    assert (U : is_u32 (c_common tl tr) = true) by (destruct K as [[-> ->]|[-> ->]]; reflexivity).
    assert (T : t = IUInt) by (eapply kcommon_cases; eauto).
    assert (CT : c_common tl tr = IUInt) by (destruct K as [[-> ->]|[-> ->]]; reflexivity).
    subst sg. clearbody t. subst t. unfold cbin_int in H. cbn [class_of c_arith] in H. rewrite CT in H.
    assert (XY : 0 <= x < 2 ^ 32 /\ 0 <= y < 2 ^ 32 /\ 0 <= x * y < 2 ^ 32).
    { destruct K as [[-> ->]|[-> ->]]; unfold in_range, imin, imax in X, Y; cbn in X, Y; nia. }
    rewrite (cconv_id IUInt x), (cconv_id IUInt y) in * by (unfold in_range; cbn; lia).
    unfold wrap in H. cbn [isigned] in H. change (iwidth IUInt) with 32 in H. rewrite Z.mod_small in H by lia. inversion H; subst z.
    destruct K as [[-> ->]|[-> ->]]; cbn [op_code app exec_seq exec1 kconv cty_eqb ity_eqb knorm_ty knorm];
      rewrite (u64_id x), (u64_id y) by lia; rewrite (u64_id (x * y)) by lia.
    + cbn [cconv]. destruct (x * y =? 0); reflexivity.
    + rewrite cconv_id by (unfold in_range; cbn; lia). now rewrite u64_id by lia.
  - apply ity_eqb_eq in OK. subst tr.
    assert (Y1 : y = 1).
    { unfold in_range in Y. cbn in Y. assert (y = 0 \/ y = 1) as [->| ->] by lia; auto.
      exfalso. unfold cbin_int in H. cbn [class_of c_arith] in H.
      assert (E : cconv (c_common tl IBool) 0 = 0) by (destruct tl; reflexivity). rewrite E in H. discriminate. }
    subst y.
    assert (Z0 : z = 0).
    { unfold cbin_int in H. cbn [class_of c_arith] in H.
      assert (E : cconv (c_common tl IBool) 1 = 1) by (destruct tl; reflexivity). rewrite E in H. cbn in H.
      destruct (in_rangeb _ _); inversion H. apply Z.rem_1_r. }
    subst z. assert (C1 : cconv t 1 = 1) by (subst t; apply cconv_id; pose proof (wide_kcommon tl tr') as W; destruct (kcommon tl tr'); try discriminate W; split; vm_compute; congruence).
    rewrite C1. change (u64 1) with 1.
    assert (S1 : k_is_signed tr' = false) by (revert SIM; destruct tr'; vm_compute; congruence).
    subst sg. rewrite S1. cbn [op_code app]. erewrite exec_cons by reflexivity. cbn [udiv64 Z.eqb option_map snd].
    rewrite Z.mod_1_r. unfold kconv. cbn [cty_eqb].
    assert (C0 : u64 (cconv tl 0) = 0) by (destruct tl; reflexivity). rewrite C0.
    destruct (ity_eqb t tl); [reflexivity|]. cbn [knorm_ty]. rewrite knorm_ok by lia. now rewrite C0.
Qed.

(** ** Analyzer types against C types *)

Definition tsim (k c : cty) : Prop :=
  match k, c with TInt i, TInt j => ity_sim i j = true | _, _ => k = c end.

Lemma tsim_refl : forall t, tsim t t.
Proof. destruct t; simpl; auto using ity_sim_refl. Qed.

Lemma tsim_decay : forall a b, tsim a b -> tsim (decay a) (decay b).
Proof. intros [] [] H; simpl in *; try discriminate; auto; inversion H; auto. Qed.

Lemma tsim_scalar : forall a b, tsim a b -> scalar a = scalar b.
Proof. intros [] [] H; simpl in *; try discriminate; auto. Qed.

Lemma tsim_inv_int : forall k j, tsim k (TInt j) -> exists i, k = TInt i /\ ity_sim i j = true.
Proof. intros [] j H; simpl in H; try discriminate; eauto. Qed.

Lemma tsim_inv_ptr : forall k t, tsim k (TPtr t) -> k = TPtr t.
Proof. intros [] t' H; simpl in H; auto; discriminate. Qed.

Lemma tsim_vrange : forall k c v, tsim k c -> vrange c v -> vrange k v.
Proof.
  intros [] [] v H R; simpl in *; try discriminate; auto.
  eapply in_range_sim; [apply ity_sim_sym|]; eauto.
Qed.

Lemma kun_sim : forall op k c t, tsim k c -> cun_type op c = Some t ->
  exists t', kun_type op k = Some t' /\ tsim t' t.
Proof.
  intros op k c t H C. destruct c; try (destruct op; discriminate).
  - apply tsim_inv_int in H. destruct H as (j & -> & H).
    destruct op; inversion C; subst; cbn [kun_type]; rewrite ?k_promote_total; cbn [omap];
      (eexists; split; [reflexivity|]); simpl; auto using c_promote_sim.
  - apply tsim_inv_ptr in H. subst k. destruct op; inversion C; subst. eexists; split; [reflexivity|]. simpl; auto.
Qed.

Lemma kbin_sim : forall op ka kb ca cb t, tsim ka ca -> tsim kb cb -> cbin_type op ca cb = Some t ->
  exists t', kbin_type op ka kb = Some t' /\ tsim t' t.
Proof.
  intros op ka kb ca cb t HA HB C.
  destruct ca as [x|p| |]; destruct cb as [y|q| |]; try discriminate.
  - apply tsim_inv_int in HA. apply tsim_inv_int in HB.
    destruct HA as (x' & -> & HA), HB as (y' & -> & HB). cbn [cbin_type kbin_type] in *.
    destruct (k_common_total x' y') as (c & E & S).
    assert (ity_sim c (c_common x y) = true) by (eapply ity_sim_trans; [exact S|now apply c_common_sim]).
    rewrite E, k_promote_total.
    destruct (class_of op); inversion C; subst; cbn [omap]; (eexists; split; [reflexivity|]); simpl; auto using c_promote_sim.
  - apply tsim_inv_int in HA. apply tsim_inv_ptr in HB. destruct HA as (x' & -> & HA). subst kb.
    cbn [cbin_type kbin_type] in *. exists t. split; auto. destruct op; inversion C; apply tsim_refl.
  - apply tsim_inv_int in HB. apply tsim_inv_ptr in HA. destruct HB as (x' & -> & HB). subst ka.
    cbn [cbin_type kbin_type] in *. exists t. split; auto. apply tsim_refl.
  - apply tsim_inv_ptr in HB. apply tsim_inv_ptr in HA. subst.
    cbn [cbin_type kbin_type] in *. exists t. split; auto. apply tsim_refl.
Qed.

Lemma kcond_sim : forall ka kb ca cb t, tsim ka ca -> tsim kb cb -> ccond_type ca cb = Some t ->
  exists t', kcond_type ka kb = Some t' /\ tsim t' t.
Proof.
  intros ka kb ca cb t HA HB C.
  destruct ca as [x|p| |]; destruct cb as [y|q| |]; try discriminate.
  - apply tsim_inv_int in HA. apply tsim_inv_int in HB.
    destruct HA as (x' & -> & HA), HB as (y' & -> & HB). cbn [ccond_type kcond_type] in *.
    destruct (k_common_total x' y') as (c & E & S). rewrite E. inversion C; subst. cbn [omap].
    eexists; split; [reflexivity|]. simpl. eapply ity_sim_trans; [exact S|now apply c_common_sim].
  - apply tsim_inv_ptr in HB. apply tsim_inv_ptr in HA. subst.
    cbn [ccond_type kcond_type] in *. exists t. split; auto. apply tsim_refl.
Qed.

Lemma assignable_sim : forall l k c, tsim k c -> assignable l c = assignable l k.
Proof.
  intros l k c H. destruct c; destruct k; simpl in H; try discriminate; try (inversion H; subst; reflexivity).
Qed.

Lemma ktype_sim : forall S e t, ctype_of S e = Some t ->
  exists t', ktype_of S e = Some t' /\ tsim t' t /\ (is_lv e = true -> t' = t).
Proof.
  intros S e. induction e; intros rt0 H; cbn [ctype_of ktype_of is_lv] in *;
  repeat match goal with
  | IH : forall t, Some _ = Some t -> _ |- _ =>
    let k := fresh "k" in let K := fresh "K" in let T := fresh "T" in let L := fresh "L" in
    destruct (IH _ eq_refl) as (k & K & T & L); clear IH; rewrite K
  | H : match ?x with Some _ => _ | None => None end = Some _ |- _ =>
    let E := fresh "E" in destruct x eqn:E; [|discriminate]
  end.
  - destruct (in_rangeb i v); inversion H; subst. eexists; split; [reflexivity|]. split; [apply tsim_refl|discriminate].
  - inversion H; subst. eexists; split; [reflexivity|]. split; [apply tsim_refl|auto].
  - inversion H; subst. eexists; split; [reflexivity|]. split; [apply tsim_refl|auto].
  - destruct (kun_sim op _ _ _ (tsim_decay _ _ T) H) as (t' & X & Y). exists t'. split; [auto|]. split; [auto|discriminate].
  - destruct (kbin_sim op _ _ _ _ _ (tsim_decay _ _ T) (tsim_decay _ _ T0) H) as (t' & X & Y).
    exists t'. split; [auto|]. split; [auto|discriminate].
  - rewrite (tsim_scalar _ _ (tsim_decay _ _ T)), (tsim_scalar _ _ (tsim_decay _ _ T0)).
    destruct (_ && _); inversion H; subst. eexists; split; [reflexivity|]. split; [reflexivity|discriminate].
  - rewrite (tsim_scalar _ _ (tsim_decay _ _ T)), (tsim_scalar _ _ (tsim_decay _ _ T0)).
    destruct (_ && _); inversion H; subst. eexists; split; [reflexivity|]. split; [reflexivity|discriminate].
  - rewrite (tsim_scalar _ _ (tsim_decay _ _ T)). destruct (scalar (decay c)); [|discriminate].
    destruct (kcond_sim _ _ _ _ _ (tsim_decay _ _ T0) (tsim_decay _ _ T1) H) as (t' & X & Y).
    exists t'. split; [auto|]. split; [auto|discriminate].
  - rewrite (tsim_scalar _ _ (tsim_decay _ _ T)), (tsim_scalar _ _ (tsim_decay _ _ T0)).
    destruct (_ && _); inversion H; subst. eexists; split; [reflexivity|]. split; [now apply tsim_decay|discriminate].
  - rewrite (tsim_scalar _ _ (tsim_decay _ _ T)).
    destruct (_ && _); inversion H; subst. eexists; split; [reflexivity|]. split; [apply tsim_refl|discriminate].
  - pose proof (tsim_decay _ _ T) as D. destruct (decay c) eqn:DC; try discriminate. inversion H; subst.
    apply tsim_inv_ptr in D. rewrite D. eexists; split; [reflexivity|]. split; [apply tsim_refl|auto].
  - destruct (is_lv e); [|discriminate]. rewrite L in * by auto. inversion H; subst.
    eexists; split; [reflexivity|]. split; [apply tsim_refl|discriminate].
  - pose proof (tsim_decay _ _ T) as D. pose proof (tsim_decay _ _ T0) as D0.
    destruct (decay c) eqn:DC; destruct (decay c0) eqn:DC0; try discriminate; inversion H; subst.
    + apply tsim_inv_int in D. destruct D as (? & -> & _). apply tsim_inv_ptr in D0. rewrite D0.
      eexists; split; [reflexivity|]. split; [apply tsim_refl|auto].
    + apply tsim_inv_int in D0. destruct D0 as (? & -> & _). apply tsim_inv_ptr in D. rewrite D.
      eexists; split; [reflexivity|]. split; [apply tsim_refl|auto].
  - destruct c as [| | |id]; try discriminate. destruct (is_lv e); [|discriminate].
    rewrite L by auto. destruct (sfield S id f) as [[o tt]|]; inversion H; subst.
    eexists; split; [reflexivity|]. split; [apply tsim_refl|auto].
  - destruct (is_lv e1) eqn:LV1; [|discriminate]. rewrite L in * by auto.
    rewrite <- (assignable_sim _ _ _ (tsim_decay _ _ T0)).
    destruct (true && scalar c && assignable c (decay c0)); inversion H; subst.
    eexists; split; [reflexivity|]. split; [apply tsim_refl|discriminate].
  - destruct (is_lv e1) eqn:LV1; [|discriminate]. rewrite L in * by auto.
    pose proof (tsim_decay _ _ T0) as D.
    destruct c; try discriminate; destruct (decay c0) eqn:DC; try discriminate;
      apply tsim_inv_int in D; destruct D as (? & -> & _); (exists rt0; split; [exact H|]);
      (split; [|discriminate]); destruct op; inversion H; apply tsim_refl.
  - destruct (is_lv e) eqn:LV1; [|discriminate]. rewrite L in * by auto.
    destruct (true && scalar c); inversion H; subst.
    eexists; split; [reflexivity|]. split; [apply tsim_refl|discriminate].
Qed.

Lemma ty_sim : forall S e t, ctype_of S e = Some t -> tsim (ty S e) t /\ (is_lv e = true -> ty S e = t).
Proof. intros S e t H. unfold ty. destruct (ktype_sim S e t H) as (t' & -> & A & B). auto. Qed.

Lemma rt_sim : forall S e t, ctype_of S e = Some t -> tsim (rt S e) (decay t).
Proof. intros. apply tsim_decay. eapply ty_sim; eauto. Qed.

(** ** Running code *)

Section Correct.
Variable S : senv.
Variable G : renv.

Definition run_at (pos : nat) (code : list instr) (stk : list Z) (m : mem) (stk' : list Z) (m' : mem) : Prop :=
  forall C, code_at C pos code -> star G C (pos, stk, m) ((pos + length code)%nat, stk', m').

Lemma run_seq : forall pos code stk m stk' m',
  exec_seq G code (stk, m) = Some (stk', m') -> run_at pos code stk m stk' m'.
Proof. intros pos code stk m stk' m' H C HC. eapply seq_star; eauto. Qed.

Lemma run_app : forall pos c1 c2 stk m stk1 m1 stk2 m2,
  run_at pos c1 stk m stk1 m1 -> run_at (pos + length c1) c2 stk1 m1 stk2 m2 ->
  run_at pos (c1 ++ c2) stk m stk2 m2.
Proof.
  intros pos c1 c2 stk m stk1 m1 stk2 m2 H1 H2 C HC. apply code_at_app in HC. destruct HC as [HA HB].
  eapply star_trans; [apply H1; auto|]. rewrite app_length, Nat.add_assoc. apply H2. auto.
Qed.

Lemma run_app_seq : forall pos c1 c2 stk m stk1 m1 stk2 m2,
  run_at pos c1 stk m stk1 m1 -> exec_seq G c2 (stk1, m1) = Some (stk2, m2) ->
  run_at pos (c1 ++ c2) stk m stk2 m2.
Proof. intros. eapply run_app; eauto. now apply run_seq. Qed.

Lemma run_cons : forall pos i c stk m stk1 m1 stk2 m2,
  exec1 G i (stk, m) = Some (stk1, m1) -> run_at (Datatypes.S pos) c stk1 m1 stk2 m2 ->
  run_at pos (i :: c) stk m stk2 m2.
Proof.
  intros. change (i :: c) with ([i] ++ c). eapply run_app.
  - apply run_seq. cbn [exec_seq]. rewrite H. reflexivity.
  - simpl. rewrite Nat.add_1_r. auto.
Qed.

(** ** Memory *)

Ltac some_inv H := match type of H with Some ?x = Some ?y =>
  let E := fresh in assert (E : y = x) by congruence; clear H; subst y end.

Lemma cload_range : forall t m a v, 0 <= a < 2 ^ 64 -> cload t m a = Some v -> vrange (decay t) v.
Proof.
  intros t m a v A H.
  assert (RS : forall n, 0 <= read m a n < 2 ^ (8 * Z.of_nat n)) by (intro; apply read_range).
  destruct t as [i|p|p n|id]; cbn [cload decay vrange] in *; [| | |discriminate].
  - destruct i.
    { destruct ((read m a 1 =? 0) || (read m a 1 =? 1)) eqn:E; [|discriminate]. assert (v = read m a 1) by congruence. subst v.
      apply orb_true_iff in E. rewrite !Z.eqb_eq in E. unfold in_range. destruct E as [-> | ->]; vm_compute; split; congruence. }
    all: cbn [isigned isize] in H; some_inv H; unfold in_range, imin, imax; cbn [isigned]; unfold iwidth; cbn [isize].
    1,2: pose proof (s_range (8*1) (read m a (Z.to_nat 1)) ltac:(lia)); lia.
    + pose proof (RS (Z.to_nat 1)). change (8 * Z.of_nat (Z.to_nat 1)) with (8*1) in H. lia.
    + pose proof (s_range (8*2) (read m a (Z.to_nat 2)) ltac:(lia)); lia.
    + pose proof (RS (Z.to_nat 2)). change (8 * Z.of_nat (Z.to_nat 2)) with (8*2) in H. lia.
    + pose proof (s_range (8*4) (read m a (Z.to_nat 4)) ltac:(lia)); lia.
    + pose proof (RS (Z.to_nat 4)). change (8 * Z.of_nat (Z.to_nat 4)) with (8*4) in H. lia.
    + pose proof (s_range (8*8) (read m a (Z.to_nat 8)) ltac:(lia)); lia.
    + pose proof (RS (Z.to_nat 8)). change (8 * Z.of_nat (Z.to_nat 8)) with (8*8) in H. lia.
    + pose proof (s_range (8*8) (read m a (Z.to_nat 8)) ltac:(lia)); lia.
    + pose proof (RS (Z.to_nat 8)). change (8 * Z.of_nat (Z.to_nat 8)) with (8*8) in H. lia.
  - some_inv H. apply (RS 8%nat).
  - inversion H; subst. auto.
Qed.

Lemma load_ok : forall t m a v stk, 0 <= a < 2 ^ 64 -> cload t m a = Some v ->
  exec_seq G (load_code t) (a :: stk, m) = Some (u64 v :: stk, m).
Proof.
  intros t m a v stk A H.
  assert (RU : forall n, (n <= 8)%nat -> read m a n = u64 (read m a n)).
  { intros. symmetry. apply u64_id. pose proof (read_range n m a).
    assert (2 ^ (8 * Z.of_nat n) <= 2 ^ 64) by (apply Z.pow_le_mono_r; lia). lia. }
  destruct t as [i|p|p n|id]; cbn [cload] in H; [| | |discriminate].
  - destruct i; cbn [load_code exec_seq exec1].
    { destruct ((read m a 1 =? 0) || (read m a 1 =? 1)); [|discriminate]. assert (v = read m a 1) by congruence. subst v. now rewrite <- RU by lia. }
    all: cbn [isigned isize] in H; some_inv H.
    1,2,4,6: reflexivity.
    1,2,3: rewrite <- RU by lia; reflexivity.
    1,3: change (Z.to_nat 8) with 8%nat; rewrite u64_s64, <- RU by lia; reflexivity.
    1,2: change (Z.to_nat 8) with 8%nat; rewrite <- RU by lia; reflexivity.
  - some_inv H. cbn [load_code exec_seq exec1]. now rewrite <- RU by lia.
  - inversion H; subst. cbn [load_code exec_seq]. now rewrite u64_id.
Qed.

Lemma store_ok : forall t m a v stk, 0 <= a < 2 ^ 64 -> scalar t = true ->
  exec_seq G (store_code t) (u64 v :: a :: stk, m) = Some (stk, cstore t m a v).
Proof.
  intros t m a v stk A H. destruct t as [i|p|p n|id]; try discriminate; cbn [store_code exec_seq exec1 cstore].
  - rewrite store_u64; [reflexivity|]. destruct i; vm_compute; lia.
  - rewrite store_u64 by lia. reflexivity.
Qed.

Lemma off_ok : forall off a stk m, 
  exec_seq G (off_code off) (u64 a :: stk, m) = Some (u64 (a + off) :: stk, m).
Proof.
  intros. unfold off_code. destruct (Z.eqb_spec off 0) as [->|N]; cbn [exec_seq exec1].
  - now rewrite Z.add_0_r.
  - f_equal. f_equal. f_equal. apply u_compat. apply eqm_add; [lia|apply u_eqm; lia|apply eqm_refl].
Qed.

Lemma elem_ok : forall t p k stk m,
  exec_seq G [OElementPtr (csize S t)] (u64 k :: u64 p :: stk, m) = Some (u64 (cptr_add S t p k) :: stk, m).
Proof.
  intros. cbn [exec_seq exec1]. unfold cptr_add. rewrite u64_u64. f_equal. f_equal. f_equal. apply u_compat.
  apply eqm_add; [lia|apply u_eqm; lia|]. apply eqm_mul; [lia|apply u_eqm; lia|apply eqm_refl].
Qed.

(** ** Operators *)

Lemma wrap_sim : forall a b z, ity_sim a b = true -> wrap a z = wrap b z.
Proof.
  intros. unfold wrap, in_rangeb, imin, imax. now rewrite (isigned_sim _ _ H), (iwidth_sim _ _ H).
Qed.

Lemma c_arith_sim : forall op a b x y, ity_sim a b = true -> c_arith op a x y = c_arith op b x y.
Proof.
  intros. destruct op; cbn [c_arith]; rewrite ?(wrap_sim _ _ _ H); auto.
  unfold in_rangeb, imin, imax. now rewrite (isigned_sim _ _ H), (iwidth_sim _ _ H).
Qed.

Lemma un_ok : forall op k c t v w stk m, tsim k c -> cun_type op c = Some t -> vrange c v ->
  cun op c v = Some w ->
  vrange t w /\ exec_seq G (un_code op k) (u64 v :: stk, m) = Some (u64 w :: stk, m).
Proof.
  intros op k c t v w stk m T C R H.
  pose proof (vrange_bound _ _ R) as B.
  assert (NOT : cun ULNot c v = Some w -> op = ULNot -> vrange t w /\ exec_seq G [OBNot] (u64 v :: stk, m) = Some (u64 w :: stk, m)).
  { intros X ->. cbn [cun] in X. assert (w = b2z (v =? 0)) by (destruct c; inversion X; auto). subst w.
    assert (t = TInt IInt) by (destruct c; inversion C; auto). subst t. split; [apply b2z_range|].
    cbn [exec_seq exec1]. rewrite bit_b2z. do 4 f_equal.
    destruct (Z.eqb_spec v 0) as [->|N]; [reflexivity|]. apply Z.eqb_neq. intro E. unfold u in E.
    apply Z.mod_divide in E; [|lia]. destruct E as [q E]. nia. }
  destruct c as [i| | |]; try (destruct op; try discriminate; destruct k; simpl in T; try discriminate; apply NOT; auto).
  apply tsim_inv_int in T. destruct T as (j & -> & T). cbn [vrange] in R.
  assert (PS : ity_sim (c_promote j) (c_promote i) = true) by now apply c_promote_sim.
  assert (WJ := wide_promote j).
  assert (RP : in_range (c_promote i) v).
  { eapply represents_all_range; [|exact R]. destruct i; reflexivity. }
  destruct op; cbn [cun cun_type un_code] in *; [| | |apply NOT; auto]; inversion C; subst; rewrite kpromote_eq; cbn [vrange].
  - inversion H; subst. split; [auto|]. rewrite knorm_ok by apply u64_range.
    rewrite cconv_u64 by lia. rewrite (cconv_sim _ _ _ PS), cconv_id by auto. reflexivity.
  - rewrite <- (wrap_sim _ _ _ PS) in H.
    destruct (wrap_ok _ _ _ WJ H) as (A & Q & _). split; [eapply in_range_sim; eauto|].
    erewrite exec_cons by reflexivity. apply norm_result; auto using u64_range.
    replace (u64 (- u64 v)) with (u64 (- v)); auto. apply u_compat. apply eqm_opp; [lia|]. apply eqm_sym, u_eqm. lia.
  - inversion H; subst. split; [apply cconv_range|].
    erewrite exec_cons by reflexivity. apply norm_result; auto using u64_range.
    + eapply in_range_sim; [apply ity_sim_sym; exact PS|]. apply cconv_range.
    + pose proof (iwidth_pos (c_promote j)).
      apply eqm_trans with (Z.lnot v).
      * apply (eqm_weaken _ 64); [lia|]. eapply eqm_trans; [apply u_eqm; lia|]. apply eqm_lnot; [lia|]. apply u_eqm; lia.
      * rewrite (iwidth_sim _ _ PS). apply eqm_sym. apply cconv_eqm. intro E. destruct i; discriminate.
Qed.

Lemma bin_ok : forall op ka kb ca cb t va vb z,
  tsim ka ca -> tsim kb cb -> cbin_type op ca cb = Some t -> vrange ca va -> vrange cb vb ->
  cbin S op ca cb va vb = Some z ->
  vrange t z /\
  let '(swap, c1, c2, code) := bin_shape S op ka kb in
  exists xa xb,
    (forall stk m, exec_seq G c1 (u64 va :: stk, m) = Some (xa :: stk, m)) /\
    (forall stk m, exec_seq G c2 (u64 vb :: stk, m) = Some (xb :: stk, m)) /\
    (forall stk m, exec_seq G code (if swap : bool then xa :: xb :: stk else xb :: xa :: stk, m) = Some (u64 z :: stk, m)).
Proof.
  intros op ka kb ca cb t va vb z TA TB C RA RB H.
  destruct ca as [x|p| |]; destruct cb as [y|q| |]; try discriminate.
  - (* integers *)
    assert (RA' : vrange ka va) by (eapply tsim_vrange; eauto).
    assert (RB' : vrange kb vb) by (eapply tsim_vrange; eauto).
    apply tsim_inv_int in TA. apply tsim_inv_int in TB.
    destruct TA as (x' & -> & TA), TB as (y' & -> & TB). cbn [cbin_type cbin bin_shape vrange] in *.
    unfold cbin_int in H.
    assert (KS : ity_sim (kcommon x' y') (c_common x y) = true).
    { eapply ity_sim_trans; [apply kcommon_sim|]. now apply c_common_sim. }
    set (kt := kcommon x' y') in *.
    assert (WK : wide kt = true) by apply wide_kcommon.
    destruct (class_of op) eqn:CL; inversion C; subst t; clear C; cbn [vrange].
    1,2: rewrite <- (c_arith_sim _ _ _ _ _ KS), <- !(cconv_sim _ _ _ KS) in H;
      assert (CL2 : class_of op = CArith \/ class_of op = CBits) by auto;
      (split;
       [ destruct (arith_ok G op kt _ _ _ [] (fun _ => 0) CL2 WK (cconv_range _ _) (cconv_range _ _) H) as (A & _);
         eapply in_range_sim; eauto
       | exists (u64 (cconv kt va)), (u64 (cconv kt vb)); split; [|split]; intros stk m;
         [ apply (kconv_ok G (TInt x') (TInt kt)); auto | apply (kconv_ok G (TInt y') (TInt kt)); auto
         | destruct (arith_ok G op kt _ _ _ stk m CL2 WK (cconv_range _ _) (cconv_range _ _) H) as (A & r & E & R & Q & _);
           rewrite k_signed, exec_seq_app, E; apply norm_result; auto ] ]).
    + (* shift *)
      set (p := c_promote x) in *.
      assert (PS : ity_sim (kpromote x') p = true) by (rewrite kpromote_eq; now apply c_promote_sim).
      assert (WP : wide (kpromote x') = true) by (rewrite kpromote_eq; apply wide_promote).
      set (kp := kpromote x') in *.
      assert (RX : in_range p va).
      { eapply represents_all_range; [|exact RA]. subst p. destruct x; reflexivity. }
      assert (RXK : in_range kp va) by (eapply in_range_sim; [apply ity_sim_sym|]; eauto).
      assert (HK : c_shift op kp va vb = Some z).
      { rewrite <- H. unfold c_shift, in_rangeb, imin, imax. now rewrite (isigned_sim _ _ PS), (iwidth_sim _ _ PS). }
      assert (P1 : op = BShr -> isigned x' = false -> 0 <= va).
      { intros _ D. rewrite (isigned_sim _ _ TA) in D. apply in_range_unsigned in RA; auto. lia. }
      assert (P2 : op = BShr -> isigned x' = true -> va < 2 ^ 63).
      { intros _ D. rewrite (isigned_sim _ _ TA) in D. apply in_range_signed in RA; auto. lia. }
      destruct (shift_ok G op kp (isigned x') va vb z [] (fun _ => 0) CL WP RXK P1 P2 HK) as (A & A2 & _).
      split; [eapply in_range_sim; eauto|].
      exists (u64 (cconv kp va)), (u64 (cconv kp vb)). split; [|split]; intros stk m.
      * apply (kconv_ok G (TInt x') (TInt kp)); auto.
      * apply (kconv_ok G (TInt y') (TInt kp)); auto.
      * rewrite !cconv_id by auto.
        destruct (shift_ok G op kp (isigned x') va vb z stk m CL WP RXK P1 P2 HK) as (_ & _ & r & E & R & Q & _).
        rewrite k_signed, exec_seq_app, E. apply norm_result; auto.
    + (* relational *)
      rewrite <- !(cconv_sim _ _ _ KS) in H.
      assert (RR : if isigned kt then - 2 ^ 63 <= cconv kt va < 2 ^ 63 /\ - 2 ^ 63 <= cconv kt vb < 2 ^ 63
                   else 0 <= cconv kt va < 2 ^ 64 /\ 0 <= cconv kt vb < 2 ^ 64).
      { pose proof (cconv_range kt va). pose proof (cconv_range kt vb).
        destruct (isigned kt) eqn:D; split; eauto using in_range_signed, in_range_unsigned. }
      destruct (rel_ok G op (isigned kt) _ _ _ [] (fun _ => 0) CL RR H) as (A & _).
      split; [auto|].
      exists (u64 (cconv kt va)), (u64 (cconv kt vb)). split; [|split]; intros stk m.
      * apply (kconv_ok G (TInt x') (TInt kt)); auto.
      * apply (kconv_ok G (TInt y') (TInt kt)); auto.
      * rewrite k_signed. apply (rel_ok G op (isigned kt) _ _ _ stk m CL RR H).
  - (* integer + pointer *)
    apply tsim_inv_int in TA. destruct TA as (x' & -> & TA). apply tsim_inv_ptr in TB. subst kb.
    cbn [cbin_type cbin bin_shape] in *. destruct op; try discriminate. inversion C; inversion H; subst.
    cbn [vrange]. split; [apply u64_range|].
    exists (u64 va), (u64 vb). split; [reflexivity|]. split; [reflexivity|]. intros. apply elem_ok.
  - (* pointer +- integer *)
    apply tsim_inv_int in TB. destruct TB as (x' & -> & TB). apply tsim_inv_ptr in TA. subst ka.
    cbn [cbin_type cbin bin_shape] in *. destruct op; try discriminate; inversion C; inversion H; subst; cbn [vrange].
    + split; [apply u64_range|]. exists (u64 va), (u64 vb). split; [reflexivity|]. split; [reflexivity|]. intros. apply elem_ok.
    + split; [apply u64_range|]. exists (u64 va), (u64 vb). split; [reflexivity|]. split; [reflexivity|]. intros.
      erewrite exec_cons by reflexivity. rewrite <- elem_ok.
      replace (u64 (- u64 vb)) with (u64 (- vb)); [reflexivity|]. apply u_compat. apply eqm_opp; [lia|]. apply eqm_sym, u_eqm; lia.
  - (* pointers *)
    apply tsim_inv_ptr in TB. apply tsim_inv_ptr in TA. subst ka kb. cbn [cbin_type cbin bin_shape vrange] in *.
    destruct (cty_eqb p q) eqn:E; [|discriminate]. apply cty_eqb_eq in E. subst q.
    assert (REL : class_of op = CRel -> c_rel op va vb = Some z -> Some (TInt IInt) = Some t ->
       vrange t z /\ exists xa xb, (forall stk m, exec_seq G [] (u64 va :: stk, m) = Some (xa :: stk, m)) /\
         (forall stk m, exec_seq G [] (u64 vb :: stk, m) = Some (xb :: stk, m)) /\
         (forall stk m, exec_seq G (rel_code op false) (xb :: xa :: stk, m) = Some (u64 z :: stk, m))).
    { intros CL HR HT. inversion HT; subst t.
      split; [apply (rel_ok G op false _ _ _ [] (fun _ => 0) CL (conj RA RB) HR)|].
      exists (u64 va), (u64 vb). split; [reflexivity|]. split; [reflexivity|]. intros stk m.
      apply (rel_ok G op false _ _ _ stk m CL (conj RA RB) HR). }
    destruct op; try discriminate; try (apply REL; auto; fail).
    unfold cptr_sub in H. inversion C; subst t. cbn [vrange].
    destruct (_ && _ && _ && _) eqn:B in H; [|discriminate]. inversion H; subst z; clear H.
    rewrite !andb_true_iff, !Z.ltb_lt, Z.eqb_eq in B. destruct B as [[[B1 B2] B3] B4]. apply in_rangeb_spec in B4.
    assert (B5 : - 2 ^ 63 <= va - vb < 2 ^ 63) by (apply (in_range_signed ILong); auto).
    set (d := va - vb) in *. set (sz := csize S p) in *.
    assert (DV : d = sz * (d / sz)) by (apply Z.div_exact; lia).
    assert (QD : Z.quot d sz = d / sz).
    { rewrite DV at 1. rewrite Z.mul_comm. apply Z.quot_mul. lia. }
    assert (QR : - 2 ^ 63 <= d / sz < 2 ^ 63).
    { split; [|apply Z.le_lt_trans with (Z.max d 0); [apply Z.div_le_upper_bound; nia|lia]].
      apply Z.div_le_lower_bound; nia. }
    split.
    { unfold in_range. change (imin ILong) with (- 2 ^ 63). change (imax ILong) with (2 ^ 63 - 1). lia. }
    exists (u64 va), (u64 vb). split; [reflexivity|]. split; [reflexivity|]. intros stk m.
    cbn [exec_seq exec1].
    replace (u64 (u64 va - u64 vb)) with (u64 d) by (apply u_compat, eqm_sym, eqm_sub; [lia|apply u_eqm; lia|apply u_eqm; lia]).
    rewrite idiv64_ok by lia. cbn [option_map fst]. now rewrite QD.
Qed.

(** ** The main induction *)

Definition vr (md : mode) (t : cty) (v : Z) : Prop :=
  match md with RV => vrange (decay t) v | LV => 0 <= v < 2 ^ 64 end.

Definition good (md : mode) (e : expr) (t : cty) : Prop :=
  forall m, ceval S G md e m None \/
    exists v m', ceval S G md e m (Some (v, m')) /\ vr md t v /\
      forall pos stk, run_at pos (compile S md pos e) stk m (u64 v :: stk) m'.

Lemma vr_bound : forall md t v, vr md t v -> - 2 ^ 63 <= v < 2 ^ 64.
Proof. intros [] t v H; cbn [vr] in H; [eapply vrange_bound; eauto|lia]. Qed.

Lemma compile_rv : forall e pos, is_lv e = true ->
  compile S RV pos e = compile S LV pos e ++ load_code (ty S e).
Proof.
  intros e pos H. destruct e; try discriminate H; cbn [compile]; rewrite ?app_nil_r, <- ?app_assoc; reflexivity.
Qed.

Lemma good_load : forall e t, is_lv e = true -> ctype_of S e = Some t -> good LV e t -> good RV e t.
Proof.
  intros e t L T H m. destruct (ty_sim S e t T) as (_ & TE). specialize (TE L).
  destruct (H m) as [U|(a & m' & E & R & K)].
  - left. change (@None (Z * mem)) with (bindo (@None (Z * mem)) (fun x => let '(a, m1) := x in
      bindo (cload t m1 a) (fun v => Some (v, m1)))). eapply ev_load; eauto.
  - assert (X := ev_load S G e t m _ L T E). cbn [bindo] in X.
    destruct (cload t m' a) as [v|] eqn:CL; cbn [bindo] in X; [right|left; exact X].
    exists v, m'. split; [exact X|]. cbn [vr] in R. split; [cbn [vr]; eapply cload_range; eauto|].
    intros pos stk. rewrite compile_rv by auto. eapply run_app_seq; [apply K|].
    rewrite TE, (u64_id a) by auto. now apply load_ok.
Qed.

Lemma two_lr : forall mda mdb a b ta tb, good mda a ta -> good mdb b tb ->
  forall m, seq2 (ceval S G mda a) (ceval S G mdb b) m None \/
  exists va m1 vb m2, seq2 (ceval S G mda a) (ceval S G mdb b) m (Some (va, vb, m2)) /\
    vr mda ta va /\ vr mdb tb vb /\
    (forall pos stk, run_at pos (compile S mda pos a) stk m (u64 va :: stk) m1) /\
    (forall pos stk, run_at pos (compile S mdb pos b) stk m1 (u64 vb :: stk) m2).
Proof.
  intros mda mdb a b ta tb HA HB m. destruct (HA m) as [U|(va & m1 & EA & RA & KA)]; [left; now apply s2_ub_l|].
  destruct (HB m1) as [U|(vb & m2 & EB & RB & KB)]; [left; eapply s2_ub_lr; eauto|].
  right. exists va, m1, vb, m2. split; [eapply s2_lr; eauto|auto].
Qed.

Lemma two_rl : forall mda mdb a b ta tb, good mda a ta -> good mdb b tb ->
  forall m, seq2 (ceval S G mda a) (ceval S G mdb b) m None \/
  exists va m1 vb m2, seq2 (ceval S G mda a) (ceval S G mdb b) m (Some (va, vb, m2)) /\
    vr mda ta va /\ vr mdb tb vb /\
    (forall pos stk, run_at pos (compile S mdb pos b) stk m (u64 vb :: stk) m1) /\
    (forall pos stk, run_at pos (compile S mda pos a) stk m1 (u64 va :: stk) m2).
Proof.
  intros mda mdb a b ta tb HA HB m. destruct (HB m) as [U|(vb & m1 & EB & RB & KB)]; [left; now apply s2_ub_r|].
  destruct (HA m1) as [U|(va & m2 & EA & RA & KA)]; [left; eapply s2_ub_rl; eauto|].
  right. exists va, m1, vb, m2. split; [eapply s2_rl; eauto|auto].
Qed.

Lemma star_branch : forall C pc t v stk m, nth_error C pc = Some (OBranch t) ->
  star G C (pc, v :: stk, m) (if v =? 0 then Datatypes.S pc else t, stk, m).
Proof. intros. apply star_one. unfold step. rewrite H. reflexivity. Qed.

Lemma star_jmp : forall C pc t stk m, nth_error C pc = Some (OJmp t) ->
  star G C (pc, stk, m) (t, stk, m).
Proof. intros. apply star_one. unfold step. rewrite H. reflexivity. Qed.

Lemma star_here : forall C x y (stk : list Z) (m : mem), x = y -> star G C (x, stk, m) (y, stk, m).
Proof. intros. subst. apply star_refl. Qed.

Lemma u64_zero : forall v, - 2 ^ 64 < v < 2 ^ 64 -> (u64 v =? 0) = (v =? 0).
Proof.
  intros v H. destruct (Z.eqb_spec v 0) as [->|N]; [reflexivity|]. apply Z.eqb_neq. intro E. unfold u in E.
  apply Z.mod_divide in E; [|lia]. destruct E as [q E]. nia.
Qed.

Lemma seq2_none : forall (R1 R2 : mem -> option (Z * mem) -> Prop) m (f : Z * Z * mem -> option (Z * mem)),
  seq2 R1 R2 m None -> bindo (@None (Z * Z * mem)) f = None.
Proof. reflexivity. Qed.

Lemma run_eq : forall pos c c' stk m stk' m', c = c' -> run_at pos c stk m stk' m' -> run_at pos c' stk m stk' m'.
Proof. intros; subst; auto. Qed.

Lemma good_un : forall op a ta t, ctype_of S a = Some ta -> cun_type op (decay ta) = Some t ->
  good RV a ta -> good RV (EUn op a) t.
Proof.
  intros op a ta t TA C H m.
  assert (RT : rtype S a (decay ta)) by (exists ta; auto).
  destruct (H m) as [U|(v & m' & E & R & K)].
  - left. exact (ev_un S G op a _ m _ RT U).
  - assert (X := ev_un S G op a _ m _ RT E). cbn [bindo] in X.
    destruct (cun op (decay ta) v) as [w|] eqn:CU; cbn [bindo] in X; [right|left; exact X].
    exists w, m'. split; [exact X|]. cbn [vr] in *.
    assert (Q := fun stk => un_ok op (rt S a) (decay ta) t v w stk m' (rt_sim S a ta TA) C R CU).
    split.
    + assert (decay t = t) by (destruct op; destruct (decay ta); inversion C; reflexivity). rewrite H0. apply (Q []).
    + intros pos stk. cbn [compile]. eapply run_app_seq; [apply K|]. apply Q.
Qed.

Lemma cbin_type_scalar : forall op a b t, cbin_type op a b = Some t -> decay t = t.
Proof.
  intros op a b t H. destruct a; destruct b; try discriminate; cbn [cbin_type] in H.
  - destruct (class_of op); inversion H; reflexivity.
  - destruct op; inversion H; reflexivity.
  - destruct op; inversion H; reflexivity.
  - destruct (cty_eqb a b); [|discriminate]. destruct op; inversion H; reflexivity.
Qed.

Lemma good_bin : forall op a b ta tb t, ctype_of S a = Some ta -> ctype_of S b = Some tb ->
  cbin_type op (decay ta) (decay tb) = Some t ->
  good RV a ta -> good RV b tb -> good RV (EBin op a b) t.
Proof.
  intros op a b ta tb t TA TB C HA HB m.
  assert (RTA : rtype S a (decay ta)) by (exists ta; auto).
  assert (RTB : rtype S b (decay tb)) by (exists tb; auto).
  destruct (bin_shape S op (rt S a) (rt S b)) as [[[swap c1] c2] code] eqn:SH.
  assert (FIN : forall va vb m2, seq2 (ceval S G RV a) (ceval S G RV b) m (Some (va, vb, m2)) ->
    vrange (decay ta) va -> vrange (decay tb) vb ->
    ceval S G RV (EBin op a b) m None \/
    exists z, ceval S G RV (EBin op a b) m (Some (z, m2)) /\ vr RV t z /\
    exists xa xb,
    (forall stk m, exec_seq G c1 (u64 va :: stk, m) = Some (xa :: stk, m)) /\
    (forall stk m, exec_seq G c2 (u64 vb :: stk, m) = Some (xb :: stk, m)) /\
    (forall stk m, exec_seq G code (if swap : bool then xa :: xb :: stk else xb :: xa :: stk, m) = Some (u64 z :: stk, m))).
  { intros va vb m2 SQ RA RB. assert (X := ev_bin S G op a b _ _ m _ RTA RTB SQ). cbn [bindo] in X.
    destruct (cbin S op (decay ta) (decay tb) va vb) as [z|] eqn:CB; cbn [bindo] in X; [right|left; exact X].
    exists z. split; [exact X|].
    pose proof (bin_ok op _ _ _ _ t va vb z (rt_sim S a ta TA) (rt_sim S b tb TB) C RA RB CB) as Q.
    rewrite SH in Q. destruct Q as (Q1 & Q2). split; auto.
    cbn [vr]. rewrite (cbin_type_scalar _ _ _ _ C). auto. }
  destruct swap.
  - destruct (two_rl RV RV a b ta tb HA HB m) as [U|(va & m1 & vb & m2 & SQ & RA & RB & KB & KA)].
    { left. exact (ev_bin S G op a b _ _ m _ RTA RTB U). }
    destruct (FIN va vb m2 SQ RA RB) as [U|(z & E & R & xa & xb & X1 & X2 & X3)]; [left; exact U|].
    right. exists z, m2. split; [exact E|]. split; [exact R|]. intros pos stk. cbn [compile]. rewrite SH.
    eapply run_app.
    { eapply run_app_seq; [apply KB|apply X2]. }
    eapply run_app_seq.
    { eapply run_app_seq; [apply KA|apply X1]. }
    apply X3.
  - destruct (two_lr RV RV a b ta tb HA HB m) as [U|(va & m1 & vb & m2 & SQ & RA & RB & KB & KA)].
    { left. exact (ev_bin S G op a b _ _ m _ RTA RTB U). }
    destruct (FIN va vb m2 SQ RA RB) as [U|(z & E & R & xa & xb & X1 & X2 & X3)]; [left; exact U|].
    right. exists z, m2. split; [exact E|]. split; [exact R|]. intros pos stk. cbn [compile]. rewrite SH.
    eapply run_app.
    { eapply run_app_seq; [apply KB|apply X1]. }
    eapply run_app_seq.
    { eapply run_app_seq; [apply KA|apply X2]. }
    apply X3.
Qed.

(** A straight part, a branch, and a second part ending at the branch target. *)
Lemma run_branch : forall pos ca cb p stk m v stk1 m1 stk2 m2,
  p = (pos + length ca + 1)%nat ->
  run_at pos ca stk m (v :: stk1) m1 ->
  (v = 0 -> run_at p cb stk1 m1 stk2 m2) ->
  (v <> 0 -> stk2 = stk1 /\ m2 = m1) ->
  run_at pos (ca ++ OBranch (p + length cb) :: cb) stk m stk2 m2.
Proof.
  intros pos ca cb p stk m v stk1 m1 stk2 m2 -> H1 H2 H3 C HC.
  apply code_at_app in HC. destruct HC as [HA HB]. apply code_at_cons in HB. destruct HB as [N HB].
  eapply star_trans; [apply H1; auto|].
  eapply star_trans; [apply (star_branch _ _ _ _ _ _ N)|].
  rewrite app_length. cbn [length].
  destruct (Z.eqb_spec v 0) as [E|E].
  - specialize (H2 E C). replace (pos + (length ca + Datatypes.S (length cb)))%nat with (pos + length ca + 1 + length cb)%nat by lia.
    replace (Datatypes.S (pos + length ca)) with (pos + length ca + 1)%nat in * by lia. auto.
  - destruct (H3 E) as [-> ->].
    replace (pos + (length ca + Datatypes.S (length cb)))%nat with (pos + length ca + 1 + length cb)%nat by lia.
    apply star_refl.
Qed.

Lemma scalar_decay : forall t, scalar (decay t) = true -> forall v, vr RV t v -> - 2 ^ 64 < v < 2 ^ 64.
Proof. intros. apply vr_bound in H0. lia. Qed.

Lemma truthy : forall w stk m, - 2 ^ 64 < w < 2 ^ 64 ->
  exec_seq G [OTrunc1] (u64 w :: stk, m) = Some (u64 (b2z (negb (w =? 0))) :: stk, m).
Proof. intros. cbn [exec_seq exec1]. rewrite u64_zero by auto. now rewrite bit_b2z. Qed.

Lemma good_land : forall a b ta tb, good RV a ta -> good RV b tb -> good RV (ELAnd a b) (TInt IInt).
Proof.
  intros a b ta tb HA HB m.
  destruct (HA m) as [U|(va & m1 & EA & RA & KA)]; [left; now apply ev_land_ub|].
  pose proof (vr_bound _ _ _ RA) as BA.
  assert (PRE : forall pos stk, run_at pos (compile S RV pos a ++ [OTrunc1; OPick 0; OBNot]) stk m
     (bit (va =? 0) :: bit (negb (va =? 0)) :: stk) m1).
  { intros. eapply run_app_seq; [apply KA|]. cbn [exec_seq exec1 nth_error]. rewrite u64_zero by lia.
    destruct (va =? 0); reflexivity. }
  destruct (Z.eq_dec va 0) as [->|NZ].
  - right. exists 0, m1. split; [now apply ev_land_0|]. split; [split; vm_compute; congruence|].
    intros pos stk. cbn [compile]. eapply run_branch; [reflexivity|apply PRE| |].
    + discriminate.
    + intros _. split; reflexivity.
  - destruct (HB m1) as [U|(vb & m2 & EB & RB & KB)].
    { left. exact (ev_land_1 S G a b m va m1 _ EA NZ U). }
    pose proof (vr_bound _ _ _ RB) as BB.
    right. eexists _, m2. split; [exact (ev_land_1 S G a b m va m1 _ EA NZ EB)|].
    split; [apply b2z_range|].
    intros pos stk. cbn [compile]. eapply run_branch; [reflexivity|apply PRE| |].
    + intros _. eapply run_app_seq; [apply KB|]. cbn [exec_seq exec1]. rewrite u64_zero by lia.
      rewrite bit_b2z. destruct (Z.eqb_spec va 0); [contradiction|]. destruct (vb =? 0); reflexivity.
    + destruct (Z.eqb_spec va 0); [contradiction|]. cbn. congruence.
Qed.

Lemma good_lor : forall a b ta tb, good RV a ta -> good RV b tb -> good RV (ELOr a b) (TInt IInt).
Proof.
  intros a b ta tb HA HB m.
  destruct (HA m) as [U|(va & m1 & EA & RA & KA)]; [left; now apply ev_lor_ub|].
  pose proof (vr_bound _ _ _ RA) as BA.
  assert (PRE : forall pos stk, run_at pos (compile S RV pos a ++ [OTrunc1; OPick 0]) stk m
     (bit (negb (va =? 0)) :: bit (negb (va =? 0)) :: stk) m1).
  { intros. eapply run_app_seq; [apply KA|]. cbn [exec_seq exec1 nth_error]. rewrite u64_zero by lia.
    destruct (va =? 0); reflexivity. }
  destruct (Z.eq_dec va 0) as [->|NZ].
  - destruct (HB m1) as [U|(vb & m2 & EB & RB & KB)].
    { left. exact (ev_lor_0 S G a b m m1 _ EA U). }
    pose proof (vr_bound _ _ _ RB) as BB.
    right. eexists _, m2. split; [exact (ev_lor_0 S G a b m m1 _ EA EB)|].
    split; [apply b2z_range|].
    intros pos stk. cbn [compile]. eapply run_branch; [reflexivity|apply PRE| |].
    + intros _. eapply run_app_seq; [apply KB|]. cbn [exec_seq exec1]. rewrite u64_zero by lia.
      rewrite bit_b2z. destruct (vb =? 0); reflexivity.
    + cbn. congruence.
  - right. exists 1, m1. split; [eapply ev_lor_1; eauto|]. split; [split; vm_compute; congruence|].
    intros pos stk. cbn [compile]. destruct (Z.eqb_spec va 0); [contradiction|].
    eapply run_branch; [reflexivity|apply PRE| |].
    + discriminate.
    + intros _. split; reflexivity.
Qed.

Lemma cond_branch : forall x t v, branch_ok x t = true -> wide t = true -> in_range x v -> u64 (cconv t v) = u64 v.
Proof.
  intros x t v H W R. unfold branch_ok in H. apply orb_true_iff in H. destruct H as [H|H].
  - now rewrite (cconv_rep x).
  - apply Z.eqb_eq in H. apply u_compat. rewrite <- H. apply cconv_eqm. intro; subst; discriminate.
Qed.

Lemma good_cond : forall c a b tc ta tb t, ctype_of S (ECond c a b) = Some t ->
  ccond_type (decay ta) (decay tb) = Some t -> cond_ok (decay ta) (decay tb) = true ->
  good RV c tc -> good RV a ta -> good RV b tb -> good RV (ECond c a b) t.
Proof.
  intros c a b tc ta tb t T CT OK HC HA HB m.
  assert (CV : (forall v, vrange (decay ta) v -> u64 (cconv_ty t v) = u64 v /\ vr RV t (cconv_ty t v)) /\
               (forall v, vrange (decay tb) v -> u64 (cconv_ty t v) = u64 v /\ vr RV t (cconv_ty t v))).
  { destruct (decay ta) as [x|p| |]; destruct (decay tb) as [y|q| |]; try discriminate; cbn [ccond_type cond_ok] in *.
    - inversion CT; subst. apply andb_true_iff in OK. destruct OK.
      cbn [cconv_ty vrange vr decay].
      split; intros v R; (split; [eapply cond_branch; [|apply wide_common|exact R]; assumption|apply cconv_range]).
    - destruct (cty_eqb p q); inversion CT; subst. cbn [cconv_ty vrange vr decay].
      split; intros; rewrite u64_u64; auto using u64_range. }
  destruct CV as [CA CB].
  destruct (HC m) as [U|(vc & m1 & EC & RC & KC)]; [left; now apply ev_cond_ub|].
  pose proof (vr_bound _ _ _ RC) as BC.
  destruct (Z.eq_dec vc 0) as [->|NZ].
  - destruct (HB m1) as [U|(v & m2 & E & R & K)]; [left; exact (ev_cond_0 S G c a b t m m1 _ EC T U)|].
    right. destruct (CB v R) as [V1 V2].
    eexists _, m2. split; [exact (ev_cond_0 S G c a b t m m1 _ EC T E)|]. split; [exact V2|].
    rewrite V1. intros pos stk C HC0. cbn [compile] in *.
    apply code_at_app in HC0. destruct HC0 as [H1 H2]. apply code_at_cons in H2. destruct H2 as [N1 H2].
    apply code_at_app in H2. destruct H2 as [H2 H3]. apply code_at_cons in H3. destruct H3 as [N2 H3].
    eapply star_trans; [apply KC; exact H1|]. eapply star_trans; [apply (star_branch _ _ _ _ _ _ N1)|].
    cbn. replace (Datatypes.S (pos + length (compile S RV pos c))) with (pos + length (compile S RV pos c) + 1)%nat in * by lia.
    eapply star_trans; [apply K; exact H2|]. eapply star_trans; [apply star_jmp; exact N2|].
    apply star_here.
    rewrite !app_length. cbn [length]. rewrite !app_length. cbn [length]. lia.
  - destruct (HA m1) as [U|(v & m2 & E & R & K)]; [left; exact (ev_cond_1 S G c a b t m vc m1 _ EC NZ T U)|].
    right. destruct (CA v R) as [V1 V2].
    eexists _, m2. split; [exact (ev_cond_1 S G c a b t m vc m1 _ EC NZ T E)|]. split; [exact V2|].
    rewrite V1. intros pos stk C HC0. cbn [compile] in *.
    apply code_at_app in HC0. destruct HC0 as [H1 H2]. apply code_at_cons in H2. destruct H2 as [N1 H2].
    apply code_at_app in H2. destruct H2 as [H2 H3]. apply code_at_cons in H3. destruct H3 as [N2 H3].
    eapply star_trans; [apply KC; exact H1|]. eapply star_trans; [apply (star_branch _ _ _ _ _ _ N1)|].
    rewrite u64_zero by lia. destruct (Z.eqb_spec vc 0); [contradiction|].
    match goal with |- star _ _ (?x, _, _) _ => match type of H3 with code_at _ ?y _ => replace y with x in H3 by lia end end.
    eapply star_trans; [apply K; exact H3|]. apply star_here.
    rewrite !app_length. cbn [length]. rewrite !app_length. cbn [length]. lia.
Qed.

Lemma good_comma : forall a b ta tb, scalar (decay tb) = true ->
  good RV a ta -> good RV b tb -> good RV (EComma a b) (decay tb).
Proof.
  intros a b ta tb SC HA HB m.
  destruct (HA m) as [U|(va & m1 & EA & RA & KA)]; [left; now apply ev_comma_ub|].
  destruct (HB m1) as [U|(vb & m2 & EB & RB & KB)]; [left; eapply ev_comma; eauto|].
  right. exists vb, m2. split; [eapply ev_comma; eauto|]. split.
  - cbn [vr] in *. destruct (decay tb); try discriminate; exact RB.
  - intros pos stk. cbn [compile]. eapply run_app.
    + eapply run_app_seq; [apply KA|]. reflexivity.
    + apply KB.
Qed.

Lemma good_cast : forall t e te, ctype_of S e = Some te -> scalar t = true ->
  good RV e te -> good RV (ECast t e) t.
Proof.
  intros t e te TE SC H m.
  destruct (H m) as [U|(v & m' & E & R & K)]; [left; exact (ev_cast S G t e m _ U)|].
  right. eexists _, m'. split; [exact (ev_cast S G t e m _ E)|]. split.
  - cbn [vr]. destruct t; try discriminate; cbn [decay cconv_ty vrange]; [apply cconv_range|apply u64_range].
  - intros pos stk. cbn [compile]. eapply run_app_seq; [apply K|]. apply kconv_ok; auto.
    eapply tsim_vrange; [apply rt_sim; eauto|exact R].
Qed.

Lemma good_index : forall a i ta ti t, ctype_of S a = Some ta -> ctype_of S i = Some ti ->
  ctype_of S (EIndex a i) = Some t ->
  good RV a ta -> good RV i ti -> good LV (EIndex a i) t.
Proof.
  intros a i ta ti t TA TI T HA HI m.
  assert (RTA : rtype S a (decay ta)) by (exists ta; auto).
  assert (RTI : rtype S i (decay ti)) by (exists ti; auto).
  assert (TY : ty S (EIndex a i) = t) by (apply (ty_sim S _ _ T); reflexivity).
  pose proof (rt_sim S a ta TA) as SA. pose proof (rt_sim S i ti TI) as SI.
  cbn [ctype_of] in T. rewrite TA, TI in T.
  destruct (decay ta) as [x|p| |] eqn:DA; destruct (decay ti) as [y|q| |] eqn:DI; try discriminate;
    injection T as T; rewrite <- T in TY.
  - (* int[ptr] *)
    apply tsim_inv_int in SA. destruct SA as (x' & SA & _).
    destruct (two_rl RV RV a i ta ti HA HI m) as [U|(va & m1 & vb & m2 & SQ & RA & RB & KB & KA)].
    { left. exact (ev_index_swapped S G a i m _ _ _ RTA RTI U). }
    right. eexists _, m2. split; [exact (ev_index_swapped S G a i m _ _ _ RTA RTI SQ)|]. split; [apply u64_range|].
    intros pos stk. cbn [compile]. rewrite SA. eapply run_app; [apply KB|]. eapply run_app_seq; [apply KA|].
    rewrite TY. apply elem_ok.
  - apply tsim_inv_ptr in SA.
    destruct (two_lr RV RV a i ta ti HA HI m) as [U|(va & m1 & vb & m2 & SQ & RA & RB & KB & KA)].
    { left. exact (ev_index S G a i m _ _ _ RTA RTI U). }
    right. eexists _, m2. split; [exact (ev_index S G a i m _ _ _ RTA RTI SQ)|]. split; [apply u64_range|].
    intros pos stk. cbn [compile]. rewrite SA. eapply run_app; [apply KB|]. eapply run_app_seq; [apply KA|].
    rewrite TY. apply elem_ok.
Qed.

Lemma good_member : forall e f id off t, ctype_of S e = Some (TStruct id) -> is_lv e = true ->
  sfield S id f = Some (off, t) -> good LV e (TStruct id) -> good LV (EMember e f) t.
Proof.
  intros e f id off t T L F H m.
  assert (TY : ty S e = TStruct id) by (apply (ty_sim S _ _ T); auto).
  destruct (H m) as [U|(a & m' & E & R & K)]; [left; exact (ev_member S G e f id off t m _ T F U)|].
  right. eexists _, m'. split; [exact (ev_member S G e f id off t m _ T F E)|]. split; [apply u64_range|].
  intros pos stk. cbn [compile]. rewrite compile_rv by auto. rewrite TY. cbn [load_code field_off]. rewrite F, !app_nil_r.
  eapply run_app_seq; [apply K|]. rewrite u64_u64. apply off_ok.
Qed.

Lemma assign_tail_ok : forall t v a stk m, scalar t = true -> 0 <= a < 2 ^ 64 ->
  exec_seq G (assign_tail t) (u64 v :: a :: stk, m) = Some (u64 v :: stk, cstore t m a v).
Proof.
  intros. unfold assign_tail. rewrite exec_seq_app.
  cbn [exec_seq exec1 xchg nth_error replace_nth firstn skipn app]. now apply store_ok.
Qed.

Lemma assignable_scalar : forall a b, assignable a b = true -> scalar b = true.
Proof. intros [[]| | |] [] H; try discriminate; auto. Qed.

Lemma good_assign : forall l r tl tr, ctype_of S l = Some tl -> ctype_of S r = Some tr ->
  is_lv l = true -> scalar tl = true ->
  good LV l tl -> good RV r tr -> good RV (EAssign l r) tl.
Proof.
  intros l r tl tr TL TR L SC HL HR m.
  assert (TY : ty S l = tl) by (apply (ty_sim S _ _ TL); auto).
  destruct (two_rl LV RV l r tl tr HL HR m) as [U|(a & m1 & v & m2 & SQ & RA & RB & KB & KA)].
  { left. exact (ev_assign S G l r tl m _ TL U). }
  right. eexists _, _. split; [exact (ev_assign S G l r tl m _ TL SQ)|]. split.
  - cbn [vr]. destruct tl; try discriminate; cbn [decay cconv_ty vrange]; [apply cconv_range|apply u64_range].
  - intros pos stk. cbn [compile]. eapply run_app.
    + eapply run_app_seq; [apply KB|]. apply kconv_ok; [|now rewrite TY].
      eapply tsim_vrange; [apply rt_sim; eauto|exact RB].
    + eapply run_app; [apply KA|]. rewrite TY. apply run_seq. rewrite exec_seq_app.
      cbn [exec_seq exec1 xchg nth_error replace_nth firstn skipn app]. rewrite (u64_id a) by exact RA.
      now apply assign_tail_ok.
Qed.

Lemma good_opassign : forall op l r tl tr, ctype_of S l = Some tl -> ctype_of S r = Some tr ->
  ctype_of S (EOpAssign op l r) = Some tl -> is_lv l = true ->
  match tl, decay tr with TInt x, TInt y => compound_ok op x y | _, _ => true end = true ->
  good LV l tl -> good RV r tr -> good RV (EOpAssign op l r) tl.
Proof.
  intros op l r tl tr TL TR T L OK HL HR m.
  assert (TY : ty S l = tl) by (apply (ty_sim S _ _ TL); auto).
  assert (RTR : rtype S r (decay tr)) by (exists tr; auto).
  pose proof (rt_sim S r tr TR) as SR.
  destruct (two_rl LV RV l r tl tr HL HR m) as [U|(a & m1 & v & m2 & SQ & RA & RB & KB & KA)].
  { left. exact (ev_opassign S G op l r tl _ m _ TL RTR U). }
  assert (X := ev_opassign S G op l r tl _ m _ TL RTR SQ). cbn [bindo] in X. cbn [vr] in RA, RB.
  destruct (cload tl m2 a) as [old|] eqn:CL; cbn [bindo] in X; [|left; exact X].
  destruct (copassign S op tl (decay tr) old v) as [new|] eqn:CO; cbn [bindo] in X; [right|left; exact X].
  exists new, (cstore tl m2 a new). split; [exact X|].
  unfold copassign in CO. destruct (cbin S op tl (decay tr) old v) as [z|] eqn:CB; cbn [bindo] in CO; [|discriminate].
  inversion CO; subst new; clear CO.
  cbn [ctype_of] in T. rewrite TL, TR, L in T.
  assert (SCL : scalar tl = true) by (destruct tl; try discriminate; reflexivity).
  split.
  { cbn [vr]. destruct tl; try discriminate; cbn [decay cconv_ty vrange]; [apply cconv_range|apply u64_range]. }
  assert (OR := cload_range tl m2 a old RA CL).
  destruct (compound_shape S op (ty S l) (rt S r)) as [[cr cl] code] eqn:SH.
  assert (Q : exists xr, (forall stk m, exec_seq G cr (u64 v :: stk, m) = Some (xr :: stk, m)) /\
    exists xl, (forall stk m, exec_seq G cl (u64 old :: stk, m) = Some (xl :: stk, m)) /\
    forall stk m, exec_seq G code (xl :: a :: xr :: stk, m) = Some (u64 (cconv_ty tl z) :: a :: stk, m)).
  { rewrite TY in SH.
    destruct tl as [x|p| |]; try discriminate; destruct (decay tr) as [y|q| |] eqn:DR; try (exfalso; destruct op; discriminate);
      apply tsim_inv_int in SR; destruct SR as (y' & SR & SIM); rewrite SR in SH; cbn [compound_shape] in SH;
      inversion SH; subst cr cl code; clear SH; cbn [decay vrange] in OR.
    - assert (NR : class_of op <> CRel) by (intro E; rewrite E in T; discriminate).
      exists (u64 (cconv (kcommon x y') v)). split.
      { intros. apply (kconv_ok G (TInt y') (TInt (kcommon x y'))); auto. cbn [vrange].
        eapply in_range_sim; [apply ity_sim_sym; eauto|exact RB]. }
      exists (u64 (cconv (kcommon x y') old)). split.
      { intros. apply (kconv_ok G (TInt x) (TInt (kcommon x y'))); auto. }
      intros stk m0. erewrite exec_cons by reflexivity. erewrite exec_cons by reflexivity.
      cbn [cconv_ty]. apply (compound_sound G op x y y' old v z (a :: stk) m0); auto.
    - exists (u64 (match op with BSub => - v | _ => v end)). split.
      { intros. destruct op; try discriminate T; cbn [exec_seq exec1]; [reflexivity|].
        do 3 f_equal. apply u_compat. apply eqm_opp; [lia|]. apply u_eqm; lia. }
      exists (u64 old). split; [reflexivity|]. intros stk m0.
      erewrite exec_cons by reflexivity. erewrite exec_cons by reflexivity.
      etransitivity; [apply (elem_ok p _ _ (a :: stk))|]. cbn [cconv_ty].
      destruct op; try discriminate T; cbn [cbin] in CB; inversion CB; subst z; unfold cptr_add; rewrite !u64_u64; reflexivity. }
  destruct Q as (xr & Q1 & xl & Q2 & Q3).
  intros pos stk. cbn [compile]. rewrite SH, TY. eapply run_app.
  - eapply run_app_seq; [apply KB|apply Q1].
  - eapply run_app; [apply KA|]. rewrite (u64_id a) by auto. apply run_seq.
    erewrite exec_cons by reflexivity. rewrite exec_seq_app, (load_ok tl m2 a old _ RA CL).
    rewrite exec_seq_app, Q2, exec_seq_app, Q3. now apply assign_tail_ok.
Qed.

Lemma incdec_ok : forall t inc old new z, scalar t = true -> vrange t old ->
  cbin S (if inc : bool then BAdd else BSub) t (TInt IInt) old 1 = Some z -> new = cconv_ty t z ->
  forall stk m, exec_seq G (incdec_code S t inc) (u64 old :: stk, m) = Some (u64 new :: stk, m).
Proof.
  intros t inc old new z SC R CB -> stk m. destruct t as [x|p| |]; try discriminate; cbn [incdec_code cconv_ty vrange] in *.
  - set (d := if inc then 1 else -1).
    assert (CC : wrap (c_common x IInt) (cconv (c_common x IInt) old + d) = Some z).
    { destruct inc; subst d; cbn [cbin] in CB; unfold cbin_int in CB; cbn [class_of c_arith] in CB;
        rewrite (cconv_id (c_common x IInt) 1) in CB by (destruct x; split; vm_compute; congruence); exact CB. }
    set (t := c_common x IInt) in *. assert (W : wide t = true) by apply wide_common.
    assert (K : represents_all x t = true) by (subst t; destruct x; reflexivity).
    rewrite (cconv_rep _ _ _ K R) in CC. destruct (wrap_ok _ _ _ W CC) as (ZR & Q & EX).
    erewrite exec_cons by reflexivity. cbn [knorm_ty]. rewrite knorm_ok by apply u64_range.
    do 4 f_equal.
    replace (u64 (u64 old + d)) with (u64 (old + d)) by (apply u_compat, eqm_sym, eqm_add; [lia|apply u_eqm; lia|apply eqm_refl]).
    destruct (ity_eqb x IBool) eqn:EB.
    + apply ity_eqb_eq in EB. subst x. rewrite EX by reflexivity. apply cconv_u64. pose proof (in_range_64 _ _ ZR). lia.
    + apply cconv_compat; [intro; subst x; discriminate|]. apply (eqm_weaken _ (iwidth t)); auto.
      pose proof (iwidth_pos x). split; [lia|]. subst t. destruct x; vm_compute; congruence.
  - erewrite exec_cons by reflexivity. rewrite elem_ok.
    destruct inc; cbn [cbin] in CB; inversion CB; subst z; unfold cptr_add; rewrite !u64_u64; reflexivity.
Qed.

Lemma good_incdec : forall pre inc e t, ctype_of S e = Some t -> is_lv e = true -> scalar t = true ->
  good LV e t -> good RV (EIncDec pre inc e) t.
Proof.
  intros pre inc e t T L SC H m.
  assert (TY : ty S e = t) by (apply (ty_sim S _ _ T); auto).
  destruct (H m) as [U|(a & m' & E & R & K)]; [left; exact (ev_incdec S G pre inc e t m _ T U)|].
  assert (X := ev_incdec S G pre inc e t m _ T E). cbn [bindo] in X. cbn [vr] in R.
  destruct (cload t m' a) as [old|] eqn:CL; cbn [bindo] in X; [|left; exact X].
  destruct (copassign S (if inc then BAdd else BSub) t (TInt IInt) old 1) as [new|] eqn:CO; cbn [bindo] in X; [right|left; exact X].
  eexists _, _. split; [exact X|].
  unfold copassign in CO. destruct (cbin S _ t (TInt IInt) old 1) as [z|] eqn:CB; cbn [bindo] in CO; [|discriminate].
  assert (NE : new = cconv_ty t z) by congruence.
  assert (OR := cload_range t m' a old R CL). assert (DT : decay t = t) by (destruct t; try discriminate; reflexivity).
  rewrite DT in OR.
  split.
  { cbn [vr]. rewrite DT. destruct pre; auto. subst new.
    destruct t; try discriminate; cbn [cconv_ty vrange]; [apply cconv_range|apply u64_range]. }
  assert (ID := incdec_ok t inc old new z SC OR CB NE).
  intros pos stk. cbn [compile]. eapply run_app; [apply K|]. rewrite (u64_id a) by auto. rewrite TY. apply run_seq.
  erewrite exec_cons by reflexivity. rewrite exec_seq_app, (load_ok t m' a old _ R CL).
  destruct pre.
  - rewrite exec_seq_app, ID, exec_seq_app. cbn [exec_seq exec1 xchg nth_error replace_nth firstn skipn app].
    now apply store_ok.
  - rewrite exec_seq_app. cbn [exec_seq exec1 xchg nth_error replace_nth firstn skipn app].
    rewrite exec_seq_app, ID. now apply store_ok.
Qed.

Theorem compile_correct : forall e t, ctype_of S e = Some t -> expr_ok S e = true ->
  good RV e t /\ (is_lv e = true -> good LV e t).
Proof.
  assert (NL : forall e t, is_lv e = false -> good RV e t -> good RV e t /\ (is_lv e = true -> good LV e t)).
  { intros. split; auto. intro; congruence. }
  assert (LL : forall e t, is_lv e = true -> ctype_of S e = Some t -> good LV e t -> good RV e t /\ (is_lv e = true -> good LV e t)).
  { intros. split; auto. now apply good_load. }
  induction e; intros rt0 T OK; cbn [expr_ok] in OK; rewrite ?andb_true_iff in OK;
    assert (T' := T); cbn [ctype_of] in T'.
  - apply NL; [reflexivity|]. destruct (in_rangeb i v) eqn:B; inversion T'; subst. apply in_rangeb_spec in B.
    intro m. right. exists v, m. split; [constructor|]. split; [exact B|]. intros pos stk. cbn [compile]. apply run_seq. reflexivity.
  - apply LL; auto. intro m. right. eexists _, m. split; [constructor|]. split; [apply u64_range|].
    intros pos stk. cbn [compile]. eapply run_cons; [reflexivity|]. apply run_seq. rewrite app_nil_r. rewrite u64_u64. apply off_ok.
  - apply LL; auto. intro m. right. eexists _, m. split; [constructor|]. split; [apply u64_range|].
    intros pos stk. cbn [compile]. eapply run_cons; [reflexivity|]. apply run_seq. rewrite app_nil_r. rewrite u64_u64. apply off_ok.
  - apply NL; [reflexivity|]. destruct (ctype_of S e) as [te|] eqn:E; [|discriminate].
    destruct (IHe _ eq_refl OK) as [H _]. eapply good_un; eauto.
  - apply NL; [reflexivity|]. destruct (ctype_of S e1) as [t1|] eqn:E1; [|discriminate]. destruct (ctype_of S e2) as [t2|] eqn:E2; [|discriminate].
    destruct (IHe1 _ eq_refl (proj1 OK)) as [H1 _]. destruct (IHe2 _ eq_refl (proj2 OK)) as [H2 _]. eapply good_bin; [exact E1|exact E2|..]; eauto.
  - apply NL; [reflexivity|]. destruct (ctype_of S e1) as [t1|] eqn:E1; [|discriminate]. destruct (ctype_of S e2) as [t2|] eqn:E2; [|discriminate].
    destruct (IHe1 _ eq_refl (proj1 OK)) as [H1 _]. destruct (IHe2 _ eq_refl (proj2 OK)) as [H2 _].
    destruct (_ && _); inversion T'; subst. eapply good_land; eauto.
  - apply NL; [reflexivity|]. destruct (ctype_of S e1) as [t1|] eqn:E1; [|discriminate]. destruct (ctype_of S e2) as [t2|] eqn:E2; [|discriminate].
    destruct (IHe1 _ eq_refl (proj1 OK)) as [H1 _]. destruct (IHe2 _ eq_refl (proj2 OK)) as [H2 _].
    destruct (_ && _); inversion T'; subst. eapply good_lor; eauto.
  - apply NL; [reflexivity|]. destruct OK as [[[O1 O2] O3] O4].
    destruct (ctype_of S e1) as [t1|] eqn:E1; [|discriminate]. destruct (ctype_of S e2) as [t2|] eqn:E2; [|discriminate].
    destruct (ctype_of S e3) as [t3|] eqn:E3; [|discriminate].
    destruct (IHe1 _ eq_refl O1) as [H1 _]. destruct (IHe2 _ eq_refl O2) as [H2 _]. destruct (IHe3 _ eq_refl O3) as [H3 _].
    unfold cty_of in O4. rewrite E2, E3 in O4.
    destruct (scalar (decay t1)); [|discriminate]. eapply good_cond; eauto.
  - apply NL; [reflexivity|]. destruct (ctype_of S e1) as [t1|] eqn:E1; [|discriminate]. destruct (ctype_of S e2) as [t2|] eqn:E2; [|discriminate].
    destruct (IHe1 _ eq_refl (proj1 OK)) as [H1 _]. destruct (IHe2 _ eq_refl (proj2 OK)) as [H2 _].
    destruct (scalar (decay t1) && scalar (decay t2)) eqn:SC; inversion T'; subst. apply andb_true_iff in SC. destruct SC.
    eapply good_comma; eauto.
  - apply NL; [reflexivity|]. destruct (ctype_of S e) as [te|] eqn:E; [|discriminate].
    destruct (IHe _ eq_refl OK) as [H _]. destruct (scalar t && scalar (decay te)) eqn:SC; inversion T'; subst.
    apply andb_true_iff in SC. destruct SC. eapply good_cast; eauto.
  - apply LL; auto. destruct (ctype_of S e) as [te|] eqn:E; [|discriminate].
    destruct (IHe _ eq_refl OK) as [H _]. destruct (decay te) eqn:DE; try discriminate. inversion T'; subst.
    intro m. destruct (H m) as [U|(a & m' & EV & R & K)]; [left; now constructor|].
    right. exists a, m'. split; [now constructor|]. split; [cbn [vr] in *; now rewrite DE in R|].
    intros pos stk. cbn [compile]. rewrite app_nil_r. apply K.
  - apply NL; [reflexivity|]. destruct (ctype_of S e) as [te|] eqn:E; [|discriminate].
    destruct (IHe _ eq_refl OK) as [_ H]. destruct (is_lv e) eqn:L; [|discriminate]. inversion T'; subst. specialize (H eq_refl).
    intro m. destruct (H m) as [U|(a & m' & EV & R & K)]; [left; now constructor|].
    right. exists a, m'. split; [now constructor|]. split; [exact R|]. intros pos stk. apply K.
  - apply LL; auto. destruct (ctype_of S e1) as [t1|] eqn:E1; [|discriminate]. destruct (ctype_of S e2) as [t2|] eqn:E2; [|discriminate].
    destruct (IHe1 _ eq_refl (proj1 OK)) as [H1 _]. destruct (IHe2 _ eq_refl (proj2 OK)) as [H2 _]. eapply good_index; eauto.
  - apply LL; auto. destruct (ctype_of S e) as [te|] eqn:E; [|discriminate].
    destruct (IHe _ eq_refl OK) as [_ H]. destruct te as [| | |id]; try discriminate. destruct (is_lv e) eqn:L; [|discriminate].
    destruct (sfield S id f) as [[off tf]|] eqn:F; inversion T'; subst. eapply good_member; eauto.
  - apply NL; [reflexivity|]. destruct (ctype_of S e1) as [t1|] eqn:E1; [|discriminate]. destruct (ctype_of S e2) as [t2|] eqn:E2; [|discriminate].
    destruct (IHe1 _ eq_refl (proj1 OK)) as [_ H1]. destruct (IHe2 _ eq_refl (proj2 OK)) as [H2 _].
    destruct (is_lv e1 && scalar t1 && assignable t1 (decay t2)) eqn:SC; inversion T'; subst.
    rewrite !andb_true_iff in SC. destruct SC as [[L SC] AS]. eapply good_assign; eauto.
  - apply NL; [reflexivity|]. destruct OK as [[O1 O2] O3]. unfold cty_of in O3.
    destruct (ctype_of S e1) as [t1|] eqn:E1; [|discriminate]. destruct (ctype_of S e2) as [t2|] eqn:E2; [|discriminate].
    destruct (IHe1 _ eq_refl O1) as [_ H1]. destruct (IHe2 _ eq_refl O2) as [H2 _].
    destruct (is_lv e1) eqn:L; [|discriminate].
    assert (rt0 = t1) by (destruct t1; try discriminate; destruct (decay t2); try discriminate; destruct op; cbn in T'; congruence).
    subst rt0. eapply good_opassign; eauto.
  - apply NL; [reflexivity|]. destruct (ctype_of S e) as [te|] eqn:E; [|discriminate].
    destruct (IHe _ eq_refl OK) as [_ H]. destruct (is_lv e && scalar te) eqn:SC; inversion T'; subst.
    apply andb_true_iff in SC. destruct SC as [L SC]. eapply good_incdec; eauto.
Qed.

End Correct.
