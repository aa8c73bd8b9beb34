From Coq Require Import ZArith Bool List Lia.
From Verif Require Import AlignModel AlignSpec.
Import ListNotations.
Open Scope Z_scope.

Lemma natural_fun : forall t n, natural t n <-> type_alignment t = Some n.
Proof.
  induction t; cbn; intros n; split; intros H; try (inversion H; subst; auto; fail); try discriminate H.
  - injection H as <-. constructor.
  - injection H as <-. constructor.
  - inversion H; subst. now apply IHt.
  - constructor. now apply IHt.
Qed.

Lemma natural_det : forall t n m, natural t n -> natural t m -> n = m.
Proof. intros * A B. apply natural_fun in A, B. congruence. Qed.

Lemma asks_det : forall x n m, asks x n -> asks x m -> n = m.
Proof. intros * A B. inversion A; subst; inversion B; subst; auto. eapply natural_det; eauto. Qed.

(** A specifier the code treats as the standard does: a small value, zero or a power of two *)
Definition small (x : alignas) : Prop := exists n, asks x n /\ valid n /\ 0 <= n <= 128.

Lemma evaluate_small : forall x n a, asks x n -> 0 <= n <= 128 -> evaluate_alignment x a = Some (Z.max a n).
Proof.
  intros * A R. inversion A; subst; cbn [evaluate_alignment].
  - apply natural_fun in H. now rewrite H.
  - rewrite Z.mod_small; [auto|]. change (2 ^ 64) with 18446744073709551616. lia.
Qed.

Lemma evaluate_all : forall l a, (forall x, In x l -> small x) -> 0 <= a <= 128 ->
  exists m, evaluate_alignments l a = Some (Z.max a m) /\ strictest l m /\ m <= 128.
Proof.
  induction l as [|x l]; intros a S R; cbn [evaluate_alignments].
  - exists 0. rewrite Z.max_l by lia. split; [auto|]. split; [|lia]. repeat split; [auto|lia|intros ? ? []].
  - destruct (S x (or_introl eq_refl)) as (n & A & V & N). rewrite (evaluate_small x n a A N).
    destruct (IHl (Z.max a n)) as (m & E & (M1 & M2 & M3) & M4); [intros; apply S; now right|lia|].
    exists (Z.max n m). rewrite E. split; [f_equal; lia|]. split; [|lia]. split; [|split; [lia|]].
    + destruct (Z.max_spec n m) as [[L ->]|[L ->]].
      * destruct M1 as [M1|(y & Y & AY)]; [lia|]. right. exists y. split; [now right|auto].
      * right. exists x. split; [now left|auto].
    + intros y k [<-|Y] AK; [rewrite (asks_det _ _ _ AK A); lia|specialize (M3 y k Y AK); lia].
Qed.

Lemma strictest_det : forall l m k, strictest l m -> strictest l k -> m = k.
Proof.
  intros l m k (A1 & A2 & A3) (B1 & B2 & B3). apply Z.le_antisymm.
  - destruct A1 as [->|(x & X & AX)]; [auto|eauto].
  - destruct B1 as [->|(x & X & AX)]; [auto|eauto].
Qed.

Lemma strictest_app : forall l k m n, strictest l m -> strictest k n -> strictest (l ++ k) (Z.max m n).
Proof.
  intros * (A1 & A2 & A3) (B1 & B2 & B3). split; [|split; [lia|]].
  - destruct (Z.max_spec m n) as [[L ->]|[L ->]].
    + destruct B1 as [->|(x & X & AX)]; [auto|]. right. exists x. split; [apply in_or_app; auto|auto].
    + destruct A1 as [->|(x & X & AX)]; [auto|]. right. exists x. split; [apply in_or_app; auto|auto].
  - intros x j X AJ. apply in_app_or in X as [X|X]; [specialize (A3 x j X AJ)|specialize (B3 x j X AJ)]; lia.
Qed.

(** Declarations of an object or member of alignment [n] in the proved part *)
Definition tame (n : Z) (d : declaration) : Prop :=
  bearing d /\ natural (d_base d) n /\ natural (declared_type d) n /\ forall x, In x (d_alignas d) -> small x.

Lemma declare_tame : forall n d, 0 < n -> tame n d ->
  (exists m, declare d = Some m /\ strictest (d_alignas d) m /\ m <= 128 /\ permitted d) \/ (declare d = None /\ ~ permitted d).
Proof.
  intros n d N ((K & F) & B & T & S).
  destruct (evaluate_all (d_alignas d) 0 S ltac:(lia)) as (m & E & M & M128).
  pose proof M as (M1 & M2 & M3). rewrite Z.max_r in E by lia.
  assert (P : m = 0 \/ n <= m -> permitted d).
  { intros C. right. split; [split; auto|]. split.
    - intros x X. destruct (S x X) as (k & A & V & _). eauto.
    - intros m' n' SM SN. rewrite (strictest_det _ _ _ SM M), (natural_det _ _ _ SN T). auto. }
  assert (IF : is_function (declared_type d) = false).
  { destruct (declared_type d) eqn:DT; auto. exfalso. exact (F _ eq_refl). }
  unfold declare, specifier_alignment. rewrite E. apply natural_fun in B. rewrite B.
  destruct (Z.ltb_spec 0 m) as [L|L].
  - destruct (Z.leb_spec n m) as [L2|L2].
    + left. exists m. destruct (Z.eqb_spec m 0); [lia|]. rewrite ?IF. destruct K as [-> | ->]; auto 8.
    + right. split; [auto|]. intros [Q|(_ & _ & Q)].
      * rewrite Q in M1. destruct M1 as [M1|(x & [] & _)]; lia.
      * destruct (Q m n M T); lia.
  - left. exists 0. assert (m = 0) by lia. subst m. rewrite Z.eqb_refl. auto 8.
Qed.

Lemma declare_all_tame : forall n ds a l, 0 < n -> strictest l a -> a <= 128 -> (forall d, In d ds -> tame n d) ->
  (exists m, declare_all a ds = Some m /\ strictest (l ++ flat_map d_alignas ds) m /\ m <= 128 /\ forall d, In d ds -> permitted d)
  \/ (declare_all a ds = None /\ exists d, In d ds /\ ~ permitted d).
Proof.
  induction ds as [|d ds]; intros a l N A R T; cbn [declare_all flat_map].
  - left. exists a. rewrite app_nil_r. repeat split; auto; try apply A. intros ? [].
  - destruct (declare_tame n d N (T d (or_introl eq_refl))) as [(m & -> & M & R2 & P)|(-> & P)].
    + assert (MA : merge_alignment a m = Z.max a m).
      { pose proof M as (_ & ? & _). pose proof A as (_ & ? & _). unfold merge_alignment.
        destruct (Z.eqb_spec m 0); destruct (Z.ltb_spec a m); lia. }
      rewrite MA. destruct (IHds (Z.max a m) (l ++ d_alignas d) N (strictest_app _ _ _ _ A M) ltac:(lia) (fun x X => T x (or_intror X)))
        as [(k & E & K & R3 & PK)|(E & x & X & PX)].
      * left. exists k. rewrite app_assoc. repeat split; auto; try apply K. intros x [<-|X]; auto.
      * right. split; [auto|]. exists x. split; [now right|auto].
    + right. split; [auto|]. exists d. split; [now left|auto].
Qed.

Lemma pow2_divides : forall j k, 0 <= j -> 0 <= k -> 2 ^ j <= 2 ^ k -> (2 ^ j | 2 ^ k).
Proof.
  intros j k J K L. apply (Z.pow_le_mono_r_iff 2 j k) in L; [|lia|lia].
  exists (2 ^ (k - j)). rewrite <- Z.pow_add_r by lia. f_equal. lia.
Qed.
