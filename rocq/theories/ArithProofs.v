(** Facts relating the 64-bit operations of the machine to C operators on values:
    used by the correctness proof of the expression translation. *)

From Coq Require Import ZArith Lia Bool List.
From Verif Require Import Bits CTypes TypeConvModel Memory CSem IRMachine ExprCompile.
Import ListNotations.
Open Scope Z_scope.

Ltac b64 := change (2 ^ 64) with 18446744073709551616 in *;
            change (2 ^ 63) with 9223372036854775808 in *.

Lemma u64_range : forall z, 0 <= u64 z < 2 ^ 64.
Proof. intros. apply u_range. lia. Qed.

Lemma u64_id : forall z, 0 <= z < 2 ^ 64 -> u64 z = z.
Proof. intros. now apply u_small. Qed.

Lemma u64_u64 : forall z, u64 (u64 z) = u64 z.
Proof. intros. apply u64_id, u64_range. Qed.

Lemma s64_u64 : forall z, - 2 ^ 63 <= z < 2 ^ 63 -> s64 (u64 z) = z.
Proof.
  intros. rewrite (s_compat 64 (u64 z) z); [|lia|apply u_eqm; lia].
  apply s_small; [lia|]. exact H.
Qed.

Lemma u64_s64 : forall z, u64 (s64 z) = u64 z.
Proof. intros. apply u_compat. apply s_eqm. lia. Qed.

(** Range of every integer type. *)
Lemma in_range_64 : forall i v, in_range i v -> - 2 ^ 63 <= v < 2 ^ 64.
Proof.
  intros i v. unfold in_range.
  destruct i; cbv -[Z.le Z.lt]; lia.
Qed.

Lemma in_range_signed : forall i v, isigned i = true -> in_range i v -> - 2 ^ 63 <= v < 2 ^ 63.
Proof. intros i v H. unfold in_range. destruct i; try discriminate; cbv -[Z.le Z.lt]; lia. Qed.

Lemma in_range_unsigned : forall i v, isigned i = false -> in_range i v -> 0 <= v < 2 ^ 64.
Proof. intros i v H. unfold in_range. destruct i; try discriminate; cbv -[Z.le Z.lt]; lia. Qed.

Lemma in_range_sim : forall a b v, ity_sim a b = true -> in_range a v -> in_range b v.
Proof. intros [] [] v H; try discriminate H; auto. Qed.

Lemma isigned_sim : forall a b, ity_sim a b = true -> isigned a = isigned b.
Proof. intros [] [] H; try discriminate H; auto. Qed.

Lemma iwidth_sim : forall a b, ity_sim a b = true -> iwidth a = iwidth b.
Proof. intros [] [] H; try discriminate H; auto. Qed.

Lemma k_signed : forall i, k_is_signed i = isigned i.
Proof. destruct i; reflexivity. Qed.

Lemma kpromote_eq : forall i, kpromote i = c_promote i.
Proof. destruct i; reflexivity. Qed.

Lemma kcommon_sim : forall a b, ity_sim (kcommon a b) (c_common a b) = true.
Proof.
  intros. unfold kcommon. destruct (k_common_total a b) as (t & -> & H). exact H.
Qed.

(** ** Conversions *)

Lemma cconv_u64 : forall i z, - 2 ^ 64 < z < 2 ^ 64 -> cconv i (u64 z) = cconv i z.
Proof.
  intros i z H. destruct (ity_eqb i IBool) eqn:E.
  - apply ity_eqb_eq in E. subst. unfold cconv.
    destruct (Z.eqb_spec z 0) as [->|N]; [reflexivity|].
    destruct (Z.eqb_spec (u64 z) 0) as [X|]; auto. exfalso. unfold u in X.
    apply Z.mod_divide in X; [|lia]. destruct X as [k X]. nia.
  - assert (i <> IBool) by (intro; subst; discriminate).
    assert (Q : eqm (iwidth i) (u64 z) z).
    { apply (eqm_weaken _ 64); [pose proof (iwidth_pos i); lia|]. apply u_eqm; lia. }
    pose proof (iwidth_pos i).
    destruct i; try congruence; unfold cconv; cbn [isigned];
    first [apply s_compat; [lia|exact Q] | apply u_compat; exact Q].
Qed.

Lemma cconv_u64_nb : forall i z, i <> IBool -> cconv i (u64 z) = cconv i z.
Proof.
  intros i z H. pose proof (iwidth_pos i).
  assert (Q : eqm (iwidth i) (u64 z) z).
  { apply (eqm_weaken _ 64); [lia|]. apply u_eqm; lia. }
  destruct i; try congruence; unfold cconv; cbn [isigned];
  first [apply s_compat; [lia|exact Q] | apply u_compat; exact Q].
Qed.

Lemma cconv_compat : forall i a b, i <> IBool -> eqm (iwidth i) a b -> cconv i a = cconv i b.
Proof.
  intros i a b H Q. pose proof (iwidth_pos i).
  destruct i; try congruence; unfold cconv; cbn [isigned];
  first [apply s_compat; [lia|exact Q] | apply u_compat; exact Q].
Qed.

Lemma knorm_ok : forall G i x stk m, 0 <= x < 2 ^ 64 ->
  exec_seq G (knorm i) (x :: stk, m) = Some (u64 (cconv i x) :: stk, m).
Proof.
  intros G i x stk m Hx.
  assert (M : forall w, 0 <= w <= 64 -> u64 (2 ^ w - 1) = 2 ^ w - 1 -> Z.land x (u64 (2 ^ w - 1)) = u64 (u w x)).
  { intros w Hw E. rewrite E.
    replace (2 ^ w - 1) with (Z.ones w) by (rewrite Z.ones_equiv; lia).
    rewrite land_ones_u by lia. symmetry. apply u64_id.
    pose proof (u_range w x ltac:(lia)).
    assert (2 ^ w <= 2 ^ 64) by (apply Z.pow_le_mono_r; lia). lia. }
  destruct i; cbn [knorm exec_seq exec1]; unfold cconv; cbn [isigned]; try reflexivity.
  - destruct (x =? 0); reflexivity.
  - f_equal. f_equal. f_equal. apply (M 8); [lia|reflexivity].
  - f_equal. f_equal. f_equal. apply (M 16); [lia|reflexivity].
  - f_equal. f_equal. f_equal. apply (M 32); [lia|reflexivity].
  - change (iwidth ILong) with 64. rewrite u64_s64, u64_id by lia. reflexivity.
  - change (iwidth IULong) with 64. rewrite u64_u64, u64_id by lia. reflexivity.
  - change (iwidth ILLong) with 64. rewrite u64_s64, u64_id by lia. reflexivity.
  - change (iwidth IULLong) with 64. rewrite u64_u64, u64_id by lia. reflexivity.
Qed.

Lemma vrange_bound : forall t v, vrange t v -> - 2 ^ 63 <= v < 2 ^ 64.
Proof. intros [] v H; cbn [vrange] in H; try lia. eapply in_range_64; eauto. Qed.

(** Typeconv converts the value as C does. *)
Lemma kconv_ok : forall G from to v stk m, vrange from v -> scalar to = true ->
  exec_seq G (kconv from to) (u64 v :: stk, m) = Some (u64 (cconv_ty to v) :: stk, m).
Proof.
  intros G from to v stk m R SC. unfold kconv.
  pose proof (vrange_bound _ _ R) as B.
  destruct (cty_eqb from to) eqn:E.
  - apply cty_eqb_eq in E. subst. cbn [exec_seq].
    destruct to; cbn [cconv_ty vrange] in *; try discriminate.
    + now rewrite cconv_id by auto.
    + now rewrite u64_u64.
  - destruct to; cbn [knorm_ty cconv_ty] in *; try discriminate.
    + rewrite knorm_ok by apply u64_range. rewrite cconv_u64 by lia. reflexivity.
    + cbn [exec_seq]. now rewrite u64_u64.
Qed.

(** ** Operators *)

(** Types arithmetic is carried out in. *)
Definition wide (t : ity) : bool :=
  match t with IInt | IUInt | ILong | IULong | ILLong | IULLong => true | _ => false end.

Lemma wide_promote : forall t, wide (c_promote t) = true.
Proof. destruct t; reflexivity. Qed.
Lemma wide_common : forall a b, wide (c_common a b) = true.
Proof. intros [] []; reflexivity. Qed.
Lemma wide_kcommon : forall a b, wide (kcommon a b) = true.
Proof. intros [] []; reflexivity. Qed.

(** The machine result of an operator before normalization: congruent to the C
    value modulo the width, and equal to it unless it is an unsigned 32-bit
    operation that can leave the range. *)
Definition exact_op (op : binop) (t : ity) : bool :=
  match op with
  | BAdd | BSub | BMul | BShl => isigned t || (iwidth t =? 64)
  | _ => true
  end.

Lemma land_u64 : forall x y, Z.land (u64 x) (u64 y) = u64 (Z.land x y).
Proof.
  intros. rewrite <- (u64_id (Z.land (u64 x) (u64 y))).
  - apply u_compat. apply eqm_land; try lia; apply u_eqm; lia.
  - pose proof (u64_range x). pose proof (u64_range y). apply land_u_range; lia.
Qed.
Lemma lor_u64 : forall x y, Z.lor (u64 x) (u64 y) = u64 (Z.lor x y).
Proof.
  intros. rewrite <- (u64_id (Z.lor (u64 x) (u64 y))).
  - apply u_compat. apply eqm_lor; try lia; apply u_eqm; lia.
  - apply lor_u_range; try lia; apply u64_range.
Qed.
Lemma lxor_u64 : forall x y, Z.lxor (u64 x) (u64 y) = u64 (Z.lxor x y).
Proof.
  intros. rewrite <- (u64_id (Z.lxor (u64 x) (u64 y))).
  - apply u_compat. apply eqm_lxor; try lia; apply u_eqm; lia.
  - apply lxor_u_range; try lia; apply u64_range.
Qed.

Lemma bits_range : forall t x y, wide t = true -> in_range t x -> in_range t y ->
  in_range t (Z.land x y) /\ in_range t (Z.lor x y) /\ in_range t (Z.lxor x y).
Proof.
  assert (SG : forall w x y, 0 < w -> - 2 ^ (w - 1) <= x <= 2 ^ (w - 1) - 1 -> - 2 ^ (w - 1) <= y <= 2 ^ (w - 1) - 1 ->
    (- 2 ^ (w - 1) <= Z.land x y <= 2 ^ (w - 1) - 1) /\ (- 2 ^ (w - 1) <= Z.lor x y <= 2 ^ (w - 1) - 1) /\
    (- 2 ^ (w - 1) <= Z.lxor x y <= 2 ^ (w - 1) - 1)).
  { intros w x y W X Y.
    pose proof (land_s_range w x y W ltac:(lia) ltac:(lia)).
    pose proof (lor_s_range w x y W ltac:(lia) ltac:(lia)).
    pose proof (lxor_s_range w x y W ltac:(lia) ltac:(lia)). lia. }
  assert (UG : forall w x y, 0 <= w -> 0 <= x <= 2 ^ w - 1 -> 0 <= y <= 2 ^ w - 1 ->
    (0 <= Z.land x y <= 2 ^ w - 1) /\ (0 <= Z.lor x y <= 2 ^ w - 1) /\ (0 <= Z.lxor x y <= 2 ^ w - 1)).
  { intros w x y W X Y.
    pose proof (land_u_range w x y W ltac:(lia) ltac:(lia)).
    pose proof (lor_u_range w x y W ltac:(lia) ltac:(lia)).
    pose proof (lxor_u_range w x y W ltac:(lia) ltac:(lia)). lia. }
  intros t x y W X Y. unfold in_range, imin, imax in *.
  destruct t; try discriminate W; cbn [isigned] in *.
  1,3,5: apply SG; auto; unfold iwidth; cbn [isize]; lia.
  all: apply UG; auto; unfold iwidth; cbn [isize]; lia.
Qed.

Lemma wide_signed_width : forall t, wide t = true -> isigned t = false -> iwidth t = 32 \/ iwidth t = 64.
Proof. destruct t; try discriminate; cbn; auto. Qed.

Lemma in_range_mod : forall t z, wide t = true -> isigned t = false -> in_range t (z mod 2 ^ iwidth t).
Proof.
  intros t z W S. unfold in_range, imin, imax. rewrite S.
  pose proof (iwidth_pos t). pose proof (pow2_pos (iwidth t) ltac:(lia)).
  pose proof (Z.mod_pos_bound z (2 ^ iwidth t) ltac:(lia)). lia.
Qed.

Lemma wrap_ok : forall t z r, wide t = true -> wrap t z = Some r ->
  in_range t r /\ eqm (iwidth t) (u64 z) r /\ (isigned t || (iwidth t =? 64) = true -> u64 z = u64 r).
Proof.
  intros t z r W H. unfold wrap in H. pose proof (iwidth_pos t).
  destruct (isigned t) eqn:S.
  - destruct (in_rangeb t z) eqn:B; inversion H; subst. apply in_rangeb_spec in B.
    split; [auto|split; auto]. apply (eqm_weaken _ 64); [lia|]. apply u_eqm; lia.
  - inversion H; subst. split; [now apply in_range_mod|].
    assert (E : eqm (iwidth t) (u64 z) (z mod 2 ^ iwidth t)).
    { apply eqm_trans with z.
      - apply (eqm_weaken _ 64); [lia|]. apply u_eqm; lia.
      - apply eqm_sym. apply (u_eqm (iwidth t)). lia. }
    split; auto. simpl. intros E64. apply Z.eqb_eq in E64. rewrite E64 in *.
    change (z mod 2 ^ 64) with (u64 z). now rewrite u64_u64.
Qed.

Lemma quot_range : forall t x y, wide t = true -> isigned t = false -> in_range t x -> in_range t y -> y <> 0 ->
  Z.quot x y = x / y /\ Z.rem x y = x mod y /\ in_range t (x / y) /\ in_range t (x mod y).
Proof.
  intros t x y W S X Y N. pose proof (in_range_unsigned t x S X). pose proof (in_range_unsigned t y S Y).
  rewrite Z.quot_div_nonneg, Z.rem_mod_nonneg by lia.
  split; [auto|split; [auto|]]. unfold in_range, imin, imax in *. rewrite S in *.
  assert (0 <= x / y <= x) by (split; [apply Z.div_pos; lia|apply Z.div_le_upper_bound; nia]).
  pose proof (Z.mod_pos_bound x y ltac:(lia)). lia.
Qed.

Lemma rem_range_s : forall t x y, wide t = true -> isigned t = true -> in_range t x -> in_range t y -> y <> 0 ->
  in_range t (Z.rem x y).
Proof.
  intros t x y W S X Y N. unfold in_range, imin, imax in *. rewrite S in *.
  pose proof (iwidth_pos t). pose proof (pow2_pos (iwidth t - 1) ltac:(lia)).
  destruct (Z.le_gt_cases 0 x).
  - pose proof (Z.rem_nonneg x y N H1). 
    destruct (Z.le_gt_cases 0 y).
    + pose proof (Z.rem_bound_pos x y ltac:(lia) ltac:(lia)). pose proof (Z.rem_le x y ltac:(lia) ltac:(lia)). lia.
    + rewrite <- Z.rem_opp_r in * by lia.
      pose proof (Z.rem_le x (-y) ltac:(lia) ltac:(lia)). lia.
  - replace x with (- (- x)) by lia. rewrite Z.rem_opp_l by auto.
    assert (0 <= Z.rem (- x) y <= - x).
    { split; [apply Z.rem_nonneg; lia|]. destruct (Z.le_gt_cases 0 y).
      - apply Z.rem_le; lia.
      - rewrite <- Z.rem_opp_r by lia. apply Z.rem_le; lia. }
    lia.
Qed.

Lemma idiv64_ok : forall x y, - 2 ^ 63 <= x < 2 ^ 63 -> - 2 ^ 63 <= y < 2 ^ 63 -> y <> 0 ->
  - 2 ^ 63 <= Z.quot x y < 2 ^ 63 ->
  idiv64 (u64 x) (u64 y) = Some (u64 (Z.quot x y), u64 (Z.rem x y)).
Proof.
  intros x y X Y N Q. unfold idiv64. rewrite !s64_u64 by auto.
  destruct (Z.eqb_spec y 0); [contradiction|].
  replace ((- 2 ^ 63 <=? Z.quot x y) && (Z.quot x y <? 2 ^ 63)) with true; [reflexivity|].
  symmetry. apply andb_true_iff. rewrite Z.leb_le, Z.ltb_lt. lia.
Qed.

Lemma udiv64_ok : forall x y, 0 <= x < 2 ^ 64 -> 0 <= y < 2 ^ 64 -> y <> 0 ->
  udiv64 (u64 x) (u64 y) = Some (x / y, x mod y).
Proof.
  intros. unfold udiv64. rewrite !u64_id by auto. destruct (Z.eqb_spec y 0); [contradiction|reflexivity].
Qed.

Lemma arith_ok : forall G op t x y z stk m,
  (class_of op = CArith \/ class_of op = CBits) -> wide t = true -> in_range t x -> in_range t y ->
  c_arith op t x y = Some z ->
  in_range t z /\
  exists r, exec_seq G (op_code op (isigned t)) (u64 y :: u64 x :: stk, m) = Some (r :: stk, m) /\
            0 <= r < 2 ^ 64 /\ eqm (iwidth t) r z /\ (exact_op op t = true -> r = u64 z).
Proof.
  intros G op t x y z stk m C W X Y H.
  pose proof (iwidth_pos t) as WP.
  assert (EX : forall z, in_range t z -> 0 <= u64 z < 2 ^ 64 /\ eqm (iwidth t) (u64 z) z).
  { intros. split; [apply u64_range|]. apply (eqm_weaken _ 64); [lia|]. apply u_eqm; lia. }
  assert (AD : forall f : Z, wrap t f = Some z -> forall r, r = u64 f ->
     in_range t z /\ (0 <= r < 2 ^ 64 /\ eqm (iwidth t) r z /\ (isigned t || (iwidth t =? 64) = true -> r = u64 z))).
  { intros f Hf r ->. destruct (wrap_ok t f z W Hf) as (A & B & D). split; [auto|].
    split; [apply u64_range|]. split; auto. }
  destruct op; cbn [class_of] in C; try (destruct C; discriminate); cbn [c_arith op_code exact_op exec_seq exec1] in *.
  - destruct (AD _ H (u64 (u64 x + u64 y))) as (A & B).
    { apply u_compat. apply eqm_add; [lia|apply u_eqm; lia|apply u_eqm; lia]. }
    split; [auto|]. eexists; split; [reflexivity|auto].
  - destruct (AD _ H (u64 (u64 x - u64 y))) as (A & B).
    { apply u_compat. apply eqm_sub; [lia|apply u_eqm; lia|apply u_eqm; lia]. }
    split; [auto|]. eexists; split; [reflexivity|auto].
  - destruct (AD _ H (u64 (u64 x * u64 y))) as (A & B).
    { apply u_compat. apply eqm_mul; [lia|apply u_eqm; lia|apply u_eqm; lia]. }
    split; [auto|]. eexists; split; [reflexivity|auto].
  - destruct (Z.eqb_spec y 0) as [|N]; [discriminate|].
    destruct (isigned t) eqn:S.
    + unfold wrap in H. rewrite S in H. destruct (in_rangeb t (Z.quot x y)) eqn:B; inversion H; subst.
      apply in_rangeb_spec in B. split; [auto|].
      cbn [exec_seq exec1]. rewrite idiv64_ok; try eapply in_range_signed; eauto. cbn [option_map fst].
      eexists; split; [reflexivity|]. destruct (EX _ B). auto.
    + unfold wrap in H. rewrite S in H. inversion H; subst; clear H.
      destruct (quot_range t x y W S X Y N) as (Q1 & Q2 & Q3 & Q4). rewrite Q1.
      assert (QQ := in_range_unsigned t _ S Q3).

      replace ((x / y) mod 2 ^ iwidth t) with (x / y).
      2:{ symmetry. apply Z.mod_small. unfold in_range, imin, imax in Q3; rewrite S in Q3; lia. }
      split; [auto|]. cbn [exec_seq exec1].
      rewrite udiv64_ok; try eapply in_range_unsigned; eauto. cbn [option_map fst].
      eexists; split; [reflexivity|]. split; [auto|]. split; [apply eqm_refl|]. intros _. symmetry. now apply u64_id.
  - destruct (Z.eqb_spec y 0) as [|N]; [discriminate|].
    destruct (in_rangeb t (Z.quot x y)) eqn:B; inversion H; subst. apply in_rangeb_spec in B.
    destruct (isigned t) eqn:S.
    + assert (R := rem_range_s t x y W S X Y N). split; [auto|].
      cbn [exec_seq exec1]. rewrite idiv64_ok; try eapply in_range_signed; eauto. cbn [option_map snd].
      eexists; split; [reflexivity|]. destruct (EX _ R). auto.
    + destruct (quot_range t x y W S X Y N) as (Q1 & Q2 & Q3 & Q4). rewrite Q2. split; [auto|].
      assert (QQ := in_range_unsigned t _ S Q4).
      cbn [exec_seq exec1]. rewrite udiv64_ok; try eapply in_range_unsigned; eauto. cbn [option_map snd].
      eexists; split; [reflexivity|]. split; [auto|]. split; [apply eqm_refl|]. intros _. symmetry. now apply u64_id.
  - destruct (bits_range t x y W X Y) as (A & B & D). inversion H; subst. split; [auto|].
    rewrite land_u64. eexists; split; [reflexivity|]. destruct (EX _ A). auto.
  - destruct (bits_range t x y W X Y) as (A & B & D). inversion H; subst. split; [auto|].
    rewrite lor_u64. eexists; split; [reflexivity|]. destruct (EX _ B). auto.
  - destruct (bits_range t x y W X Y) as (A & B & D). inversion H; subst. split; [auto|].
    rewrite lxor_u64. eexists; split; [reflexivity|]. destruct (EX _ D). auto.
Qed.

(** Normalizing a result congruent to the C value gives the C value. *)
Lemma norm_result : forall G t r z stk m, wide t = true -> in_range t z ->
  0 <= r < 2 ^ 64 -> eqm (iwidth t) r z ->
  exec_seq G (knorm t) (r :: stk, m) = Some (u64 z :: stk, m).
Proof.
  intros. rewrite knorm_ok by auto. rewrite (cconv_compat t r z); auto.
  - now rewrite cconv_id by auto.
  - intro; subst; discriminate.
Qed.

(** Shifts; [t] is the type the operands were converted to. *)
Lemma shl_mod : forall x c, 0 <= c < 64 -> shl64 (u64 x) (u64 c) = u64 (x * 2 ^ c).
Proof.
  intros. unfold shl64. rewrite (u64_id c) by lia. rewrite Z.mod_small by lia.
  apply u_compat. apply eqm_mul; [lia|apply u_eqm; lia|apply eqm_refl].
Qed.

Lemma div_pow_range : forall t x c, wide t = true -> 0 <= c -> in_range t x -> in_range t (x / 2 ^ c).
Proof.
  intros t x c W C X. unfold in_range in *.
  pose proof (pow2_pos c C).
  assert (imin t <= 0 /\ 0 <= imax t) by (destruct t; vm_compute; split; congruence).
  split.
  - destruct (Z.le_gt_cases 0 x).
    + assert (0 <= x / 2 ^ c) by (apply Z.div_pos; lia). lia.
    + assert (x <= x / 2 ^ c) by (apply Z.div_le_lower_bound; nia). lia.
  - destruct (Z.le_gt_cases 0 x).
    + assert (x / 2 ^ c <= x) by (apply Z.div_le_upper_bound; nia). lia.
    + assert (x / 2 ^ c <= 0) by (apply Z.div_le_upper_bound; nia). lia.
Qed.

Lemma shift_ok : forall G op t sg x c z stk m,
  class_of op = CShift -> wide t = true -> in_range t x ->
  (op = BShr -> sg = false -> 0 <= x) -> (op = BShr -> sg = true -> x < 2 ^ 63) ->
  c_shift op t x c = Some z ->
  in_range t z /\ in_range t c /\
  exists r, exec_seq G (op_code op sg) (u64 c :: u64 x :: stk, m) = Some (r :: stk, m) /\
            0 <= r < 2 ^ 64 /\ eqm (iwidth t) r z /\ (exact_op op t = true -> r = u64 z).
Proof.
  intros G op t sg x c z stk m C W X P1 P2 H.
  pose proof (iwidth_pos t) as WP. unfold c_shift in H.
  destruct ((0 <=? c) && (c <? iwidth t)) eqn:E; [|discriminate].
  apply andb_true_iff in E. rewrite Z.leb_le, Z.ltb_lt in E.
  assert (CR : in_range t c).
  { unfold in_range. destruct t; try discriminate; cbn in E |- *; lia. }
  destruct op; try discriminate; cbn [op_code exec_seq].
  - cbn [exec1]. rewrite shl_mod by lia. destruct (isigned t) eqn:S.
    + destruct ((0 <=? x) && in_rangeb t (x * 2 ^ c)) eqn:B; inversion H; subst.
      apply andb_true_iff in B. destruct B as [B1 B2]. apply in_rangeb_spec in B2.
      split; [auto|]. split; [auto|]. eexists; split; [reflexivity|]. split; [apply u64_range|].
      split; auto. apply (eqm_weaken _ 64); [lia|]. apply u_eqm; lia.
    + inversion H; subst. split; [now apply in_range_mod|]. split; [auto|].
      eexists; split; [reflexivity|]. split; [apply u64_range|].
      assert (Q : eqm (iwidth t) (u64 (x * 2 ^ c)) ((x * 2 ^ c) mod 2 ^ iwidth t)).
      { apply eqm_trans with (x * 2 ^ c).
        - apply (eqm_weaken _ 64); [lia|]. apply u_eqm; lia.
        - apply eqm_sym, (u_eqm (iwidth t)). lia. }
      split; auto. cbn [exact_op]. rewrite S. simpl. intros E64. apply Z.eqb_eq in E64. rewrite E64.
      change ((x * 2 ^ c) mod 2 ^ 64) with (u64 (x * 2 ^ c)). now rewrite u64_u64.
  - inversion H; subst. assert (R := div_pow_range t x c W ltac:(lia) X).
    split; [auto|]. split; [auto|].
    assert (XB := in_range_64 _ _ X).
    assert (Y : exec1 G (if sg then OSar else OShr) (u64 c :: u64 x :: stk, m) = Some (u64 (x / 2 ^ c) :: stk, m)).
    { destruct sg; cbn [exec1]; f_equal; f_equal; f_equal.
      - unfold sar64. rewrite (u64_id c) by lia. rewrite Z.mod_small by lia.
        rewrite s64_u64; [reflexivity|]. specialize (P2 eq_refl eq_refl). lia.
      - unfold shr64. rewrite (u64_id c) by lia. rewrite Z.mod_small by lia.
        specialize (P1 eq_refl eq_refl). rewrite (u64_id x) by lia. symmetry. apply u64_id.
        assert (0 < 2 ^ c) by (apply pow2_pos; lia).
        assert (0 <= x / 2 ^ c <= x) by (split; [apply Z.div_pos; lia|apply Z.div_le_upper_bound; nia]). lia. }
    rewrite Y; eexists; (split; [reflexivity|]); (split; [apply u64_range|]); split; auto;
      (apply (eqm_weaken _ 64); [lia|]); apply u_eqm; lia.
Qed.

Lemma bit_b2z : forall b, u64 (b2z b) = bit b.
Proof. destruct b; reflexivity. Qed.

Lemma b2z_range : forall b, in_range IInt (b2z b).
Proof. destruct b; split; vm_compute; congruence. Qed.

Lemma u64_eqb : forall x y, (- 2 ^ 63 <= x < 2 ^ 63 /\ - 2 ^ 63 <= y < 2 ^ 63) \/ (0 <= x < 2 ^ 64 /\ 0 <= y < 2 ^ 64) ->
  (u64 x =? u64 y) = (x =? y).
Proof.
  intros x y [[X Y]|[X Y]].
  - destruct (Z.eqb_spec x y) as [->|N]; [apply Z.eqb_refl|]. apply Z.eqb_neq. intro E.
    apply N. rewrite <- (s64_u64 x X), <- (s64_u64 y Y). congruence.
  - now rewrite !u64_id.
Qed.

Lemma exec_cons : forall G i l st st', exec1 G i st = Some st' -> exec_seq G (i :: l) st = exec_seq G l st'.
Proof. intros. cbn [exec_seq]. now rewrite H. Qed.

Lemma rel_ok : forall (G : renv) op (sg : bool) (x y z : Z) (stk : list Z) (m : mem), class_of op = CRel ->
  (if sg then - 2 ^ 63 <= x < 2 ^ 63 /\ - 2 ^ 63 <= y < 2 ^ 63 else 0 <= x < 2 ^ 64 /\ 0 <= y < 2 ^ 64) ->
  c_rel op x y = Some z ->
  in_range IInt z /\
  exec_seq G (rel_code op sg) (u64 y :: u64 x :: stk, m) = Some (u64 z :: stk, m).
Proof.
  intros G op sg x y z stk m C R H.
  assert (EQ : (u64 x =? u64 y) = (x =? y)).
  { apply u64_eqb. destruct sg; auto. }
  assert (LT : exec1 G (if sg then OLt else OBelow) (u64 y :: u64 x :: stk, m) = Some (bit (x <? y) :: stk, m)).
  { destruct sg; cbn [exec1]; destruct R; [rewrite !s64_u64 by auto|rewrite !u64_id by auto]; reflexivity. }
  assert (GT : exec1 G (if sg then OGt else OAbove) (u64 y :: u64 x :: stk, m) = Some (bit (y <? x) :: stk, m)).
  { destruct sg; cbn [exec1]; destruct R; [rewrite !s64_u64 by auto|rewrite !u64_id by auto]; reflexivity. }
  assert (LT2 : exec1 G (if sg then OLt else OBelow) (u64 y :: u64 x :: u64 y :: u64 x :: stk, m) =
                Some (bit (x <? y) :: u64 y :: u64 x :: stk, m)).
  { destruct sg; cbn [exec1]; destruct R; [rewrite !s64_u64 by auto|rewrite !u64_id by auto]; reflexivity. }
  assert (GT2 : exec1 G (if sg then OGt else OAbove) (u64 y :: u64 x :: u64 y :: u64 x :: stk, m) =
                Some (bit (y <? x) :: u64 y :: u64 x :: stk, m)).
  { destruct sg; cbn [exec1]; destruct R; [rewrite !s64_u64 by auto|rewrite !u64_id by auto]; reflexivity. }
  destruct op; try discriminate; cbn [c_rel] in H; inversion H; subst; clear H; (split; [apply b2z_range|]);
    unfold rel_code.
  - rewrite (exec_cons _ _ _ _ _ LT). now rewrite bit_b2z.
  - rewrite (exec_cons _ _ _ _ _ GT). now rewrite bit_b2z.
  - erewrite exec_cons by reflexivity. erewrite exec_cons by reflexivity. rewrite (exec_cons _ _ _ _ _ LT2).
    cbn [exec_seq exec1 xchg nth_error replace_nth firstn skipn app].
    f_equal. f_equal. f_equal. rewrite bit_b2z.
    rewrite (Z.eqb_sym (u64 y)), EQ. rewrite (Z.leb_compare x y), (Z.ltb_compare x y), (Z.eqb_compare x y).
    destruct (x ?= y); reflexivity.
  - erewrite exec_cons by reflexivity. erewrite exec_cons by reflexivity. rewrite (exec_cons _ _ _ _ _ GT2).
    cbn [exec_seq exec1 xchg nth_error replace_nth firstn skipn app].
    f_equal. f_equal. f_equal. rewrite bit_b2z.
    rewrite (Z.eqb_sym (u64 y)), EQ. rewrite (Z.leb_compare y x), (Z.ltb_compare y x), (Z.eqb_sym x y), (Z.eqb_compare y x).
    destruct (y ?= x); reflexivity.
  - cbn [exec_seq exec1]. now rewrite EQ, bit_b2z.
  - cbn [exec_seq exec1]. rewrite EQ, bit_b2z. destruct (x =? y); reflexivity.
Qed.
