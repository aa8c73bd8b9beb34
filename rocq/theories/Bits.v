(** Fixed-width integers as integers modulo a power of two, and the few
    facts about them that the rest of the development uses. *)

From Coq Require Import ZArith Lia Bool.
Open Scope Z_scope.

(** [u w z] is [z] reduced to an unsigned [w]-bit number, [s w z] is the
    two's complement reading of the low [w] bits of [z]. *)
Definition u (w z : Z) : Z := z mod 2 ^ w.
Definition s (w z : Z) : Z := (z + 2 ^ (w - 1)) mod 2 ^ w - 2 ^ (w - 1).

Notation u64 := (u 64).
Notation s64 := (s 64).

Lemma pow2_pos : forall w, 0 <= w -> 0 < 2 ^ w.
Proof. intros. apply Z.pow_pos_nonneg; lia. Qed.

Lemma pow2_half : forall w, 0 < w -> 2 ^ w = 2 * 2 ^ (w - 1).
Proof.
  intros. replace w with (1 + (w - 1)) at 1 by lia.
  rewrite Z.pow_add_r by lia. reflexivity.
Qed.

Lemma u_range : forall w z, 0 <= w -> 0 <= u w z < 2 ^ w.
Proof. intros. unfold u. apply Z.mod_pos_bound. now apply pow2_pos. Qed.

Lemma s_range : forall w z, 0 < w -> - 2 ^ (w - 1) <= s w z < 2 ^ (w - 1).
Proof.
  intros. unfold s. pose proof (pow2_half w H).
  pose proof (pow2_pos (w - 1)).
  pose proof (Z.mod_pos_bound (z + 2 ^ (w - 1)) (2 ^ w) ltac:(lia)). lia.
Qed.

Lemma u_small : forall w z, 0 <= z < 2 ^ w -> u w z = z.
Proof. intros. unfold u. now apply Z.mod_small. Qed.

Lemma s_small : forall w z, 0 < w -> - 2 ^ (w - 1) <= z < 2 ^ (w - 1) -> s w z = z.
Proof.
  intros. unfold s. pose proof (pow2_half w H).
  rewrite Z.mod_small by lia. lia.
Qed.

(** Equality modulo [2^w]. *)
Definition eqm (w a b : Z) : Prop := a mod 2 ^ w = b mod 2 ^ w.

Lemma eqm_refl : forall w a, eqm w a a.
Proof. reflexivity. Qed.

Lemma eqm_sym : forall w a b, eqm w a b -> eqm w b a.
Proof. unfold eqm; auto. Qed.

Lemma eqm_trans : forall w a b c, eqm w a b -> eqm w b c -> eqm w a c.
Proof. unfold eqm; intros; congruence. Qed.

Lemma eqm_exists : forall w a b, 0 <= w -> (eqm w a b <-> exists k, a = b + k * 2 ^ w).
Proof.
  intros w a b Hw. pose proof (pow2_pos w Hw). unfold eqm. split.
  - intros E. exists (a / 2 ^ w - b / 2 ^ w).
    pose proof (Z.div_mod a (2 ^ w) ltac:(lia)).
    pose proof (Z.div_mod b (2 ^ w) ltac:(lia)). nia.
  - intros [k ->]. apply Z.mod_add. lia.
Qed.

Lemma u_eqm : forall w z, 0 <= w -> eqm w (u w z) z.
Proof. intros. unfold eqm, u. apply Z.mod_mod. pose proof (pow2_pos w H); lia. Qed.

Lemma s_eqm : forall w z, 0 < w -> eqm w (s w z) z.
Proof.
  intros. apply eqm_exists; [lia|]. unfold s.
  exists (- ((z + 2 ^ (w - 1)) / 2 ^ w)).
  pose proof (Z.div_mod (z + 2 ^ (w - 1)) (2 ^ w)
                        ltac:(pose proof (pow2_pos w); lia)). nia.
Qed.

Lemma u_compat : forall w a b, eqm w a b -> u w a = u w b.
Proof. unfold eqm, u; auto. Qed.

Lemma s_compat : forall w a b, 0 < w -> eqm w a b -> s w a = s w b.
Proof.
  intros w a b Hw E. unfold s. f_equal.
  apply eqm_exists in E; [|lia]. destruct E as [k ->].
  replace (b + k * 2 ^ w + 2 ^ (w - 1)) with (b + 2 ^ (w - 1) + k * 2 ^ w) by lia.
  apply Z.mod_add. pose proof (pow2_pos w); lia.
Qed.

Lemma eqm_weaken : forall w w' a b, 0 <= w <= w' -> eqm w' a b -> eqm w a b.
Proof.
  intros w w' a b H E. apply eqm_exists in E; [|lia]. destruct E as [k ->].
  apply eqm_exists; [lia|]. exists (k * 2 ^ (w' - w)).
  replace w' with ((w' - w) + w) at 1 by lia.
  rewrite Z.pow_add_r by lia. lia.
Qed.

Lemma eqm_add : forall w a b c d, 0 <= w -> eqm w a b -> eqm w c d -> eqm w (a + c) (b + d).
Proof.
  intros. apply eqm_exists in H0; auto. apply eqm_exists in H1; auto.
  destruct H0 as [k ->]. destruct H1 as [j ->].
  apply eqm_exists; auto. exists (k + j). lia.
Qed.

Lemma eqm_opp : forall w a b, 0 <= w -> eqm w a b -> eqm w (- a) (- b).
Proof.
  intros. apply eqm_exists in H0; auto. destruct H0 as [k ->].
  apply eqm_exists; auto. exists (- k). lia.
Qed.

Lemma eqm_sub : forall w a b c d, 0 <= w -> eqm w a b -> eqm w c d -> eqm w (a - c) (b - d).
Proof. intros. unfold Z.sub. apply eqm_add; auto using eqm_opp. Qed.

Lemma eqm_mul : forall w a b c d, 0 <= w -> eqm w a b -> eqm w c d -> eqm w (a * c) (b * d).
Proof.
  intros. apply eqm_exists in H0; auto. apply eqm_exists in H1; auto.
  destruct H0 as [k ->]. destruct H1 as [j ->].
  apply eqm_exists; auto. exists (b * j + d * k + k * j * 2 ^ w). lia.
Qed.

(** Bitwise operations. *)
Lemma testbit_u : forall w z i, 0 <= w -> 0 <= i ->
  Z.testbit (u w z) i = (i <? w) && Z.testbit z i.
Proof.
  intros. unfold u. destruct (Z.ltb_spec i w); simpl.
  - apply Z.mod_pow2_bits_low. lia.
  - apply Z.mod_pow2_bits_high. lia.
Qed.

Lemma eqm_testbit : forall w a b, 0 <= w ->
  (eqm w a b <-> forall i, 0 <= i < w -> Z.testbit a i = Z.testbit b i).
Proof.
  intros w a b Hw. split.
  - intros E i Hi. assert (Z.testbit (u w a) i = Z.testbit (u w b) i)
      by (unfold u; rewrite E; reflexivity).
    rewrite !testbit_u in H by lia.
    destruct (Z.ltb_spec i w); simpl in H; [assumption|lia].
  - intros H. change (u w a = u w b). apply Z.bits_inj'. intros i Hi.
    rewrite !testbit_u by lia.
    destruct (Z.ltb_spec i w); simpl; [apply H; lia|reflexivity].
Qed.

Lemma eqm_land : forall w a b c d, 0 <= w -> eqm w a b -> eqm w c d ->
  eqm w (Z.land a c) (Z.land b d).
Proof.
  intros w a b c d Hw H1 H2. rewrite eqm_testbit in * by lia. intros i Hi.
  rewrite !Z.land_spec, H1, H2 by lia. reflexivity.
Qed.

Lemma eqm_lor : forall w a b c d, 0 <= w -> eqm w a b -> eqm w c d ->
  eqm w (Z.lor a c) (Z.lor b d).
Proof.
  intros w a b c d Hw H1 H2. rewrite eqm_testbit in * by lia. intros i Hi.
  rewrite !Z.lor_spec, H1, H2 by lia. reflexivity.
Qed.

Lemma eqm_lxor : forall w a b c d, 0 <= w -> eqm w a b -> eqm w c d ->
  eqm w (Z.lxor a c) (Z.lxor b d).
Proof.
  intros w a b c d Hw H1 H2. rewrite eqm_testbit in * by lia. intros i Hi.
  rewrite !Z.lxor_spec, H1, H2 by lia. reflexivity.
Qed.

Lemma eqm_lnot : forall w a b, 0 <= w -> eqm w a b -> eqm w (Z.lnot a) (Z.lnot b).
Proof.
  intros. unfold Z.lnot. rewrite <- !Z.sub_1_r. apply eqm_sub; auto using eqm_refl, eqm_opp.
Qed.

Lemma land_ones_u : forall w z, 0 <= w -> Z.land z (Z.ones w) = u w z.
Proof. intros. unfold u. now apply Z.land_ones. Qed.

(** Bounds on bitwise operations of bounded operands. *)
Lemma testbit_high_u : forall w z, 0 <= w ->
  (0 <= z < 2 ^ w <-> (0 <= z /\ forall i, w <= i -> Z.testbit z i = false)).
Proof.
  intros w z Hw. split.
  - intros H. split; [lia|]. intros i Hi.
    rewrite <- (u_small w z H). rewrite testbit_u by lia.
    destruct (Z.ltb_spec i w); [lia|reflexivity].
  - intros [H0 H]. assert (z = u w z).
    { apply Z.bits_inj'. intros i Hi. rewrite testbit_u by lia.
      destruct (Z.ltb_spec i w); simpl; auto. }
    rewrite H1. apply u_range. lia.
Qed.

Lemma land_u_range : forall w a b, 0 <= w -> 0 <= a < 2 ^ w -> 0 <= b ->
  0 <= Z.land a b < 2 ^ w.
Proof.
  intros. apply testbit_high_u in H0; [|lia]. apply testbit_high_u; [lia|].
  split. { apply Z.land_nonneg. left; lia. }
  intros i Hi. rewrite Z.land_spec. destruct H0 as [_ H0]. rewrite H0 by lia. reflexivity.
Qed.

Lemma lor_u_range : forall w a b, 0 <= w -> 0 <= a < 2 ^ w -> 0 <= b < 2 ^ w ->
  0 <= Z.lor a b < 2 ^ w.
Proof.
  intros. apply testbit_high_u in H0; [|lia]. apply testbit_high_u in H1; [|lia].
  apply testbit_high_u; [lia|].
  split. { apply Z.lor_nonneg. lia. }
  intros i Hi. rewrite Z.lor_spec. destruct H0 as [_ H0], H1 as [_ H1].
  rewrite H0, H1 by lia. reflexivity.
Qed.

Lemma lxor_u_range : forall w a b, 0 <= w -> 0 <= a < 2 ^ w -> 0 <= b < 2 ^ w ->
  0 <= Z.lxor a b < 2 ^ w.
Proof.
  intros. apply testbit_high_u in H0; [|lia]. apply testbit_high_u in H1; [|lia].
  apply testbit_high_u; [lia|].
  split. { apply Z.lxor_nonneg. lia. }
  intros i Hi. rewrite Z.lxor_spec. destruct H0 as [_ H0], H1 as [_ H1].
  rewrite H0, H1 by lia. reflexivity.
Qed.

(** Signed ranges: bit [i >= w-1] equals the sign. *)
Lemma signed_bits : forall w z, 0 < w ->
  (- 2 ^ (w - 1) <= z < 2 ^ (w - 1) <->
   (forall i, w - 1 <= i -> Z.testbit z i = (z <? 0))).
Proof.
  intros w z Hw. split.
  - intros H i Hi. destruct (Z.ltb_spec z 0).
    + assert (0 <= Z.lnot z < 2 ^ (w - 1)) by (unfold Z.lnot; lia).
      apply testbit_high_u in H1; [|lia]. destruct H1 as [_ H1].
      specialize (H1 i Hi). rewrite Z.lnot_spec in H1 by lia.
      now apply negb_false_iff in H1.
    + assert (0 <= z < 2 ^ (w - 1)) by lia.
      apply testbit_high_u in H1; [|lia]. apply H1; lia.
  - intros H. destruct (Z.ltb_spec z 0).
    + assert (0 <= Z.lnot z < 2 ^ (w - 1)).
      { apply testbit_high_u; [lia|]. split; [unfold Z.lnot; lia|].
        intros i Hi. rewrite Z.lnot_spec by lia. rewrite H by lia. reflexivity. }
      unfold Z.lnot in H1. lia.
    + assert (0 <= z < 2 ^ (w - 1)).
      { apply testbit_high_u; [lia|]. split; [lia|]. intros i Hi. now rewrite H by lia. }
      lia.
Qed.

Lemma land_s_range : forall w a b, 0 < w ->
  - 2 ^ (w - 1) <= a < 2 ^ (w - 1) -> - 2 ^ (w - 1) <= b < 2 ^ (w - 1) ->
  - 2 ^ (w - 1) <= Z.land a b < 2 ^ (w - 1).
Proof.
  intros w a b Hw Ha Hb. rewrite signed_bits in * by lia. intros i Hi.
  rewrite Z.land_spec, Ha, Hb by lia.
  pose proof (Z.land_neg a b).
  destruct (Z.ltb_spec a 0), (Z.ltb_spec b 0), (Z.ltb_spec (Z.land a b) 0); simpl; auto; lia.
Qed.

Lemma lor_s_range : forall w a b, 0 < w ->
  - 2 ^ (w - 1) <= a < 2 ^ (w - 1) -> - 2 ^ (w - 1) <= b < 2 ^ (w - 1) ->
  - 2 ^ (w - 1) <= Z.lor a b < 2 ^ (w - 1).
Proof.
  intros w a b Hw Ha Hb. rewrite signed_bits in * by lia. intros i Hi.
  rewrite Z.lor_spec, Ha, Hb by lia.
  pose proof (Z.lor_neg a b).
  destruct (Z.ltb_spec a 0), (Z.ltb_spec b 0), (Z.ltb_spec (Z.lor a b) 0); simpl; auto; lia.
Qed.

Lemma lxor_s_range : forall w a b, 0 < w ->
  - 2 ^ (w - 1) <= a < 2 ^ (w - 1) -> - 2 ^ (w - 1) <= b < 2 ^ (w - 1) ->
  - 2 ^ (w - 1) <= Z.lxor a b < 2 ^ (w - 1).
Proof.
  intros w a b Hw Ha Hb. rewrite signed_bits in * by lia. intros i Hi.
  rewrite Z.lxor_spec, Ha, Hb by lia.
  pose proof (Z.lxor_nonneg a b).
  destruct (Z.ltb_spec a 0), (Z.ltb_spec b 0), (Z.ltb_spec (Z.lxor a b) 0); simpl; auto; lia.
Qed.
