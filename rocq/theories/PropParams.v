(** C35: the registers and stack areas assigned to parameters are disjoint, in order,
    within the register sets, aligned, and chosen as the ABI says. *)

From Coq Require Import ZArith Lia Bool List ZifyBool ZifyNat.
From Verif Require Import IrType LayoutModel PropLayout ClassModel ClassSpec ClassProofs PropClass.
Import ListNotations.
Open Scope Z_scope.

(** ** Reading a location *)

(** Registers of a parameter, with the class of the eightbyte in each. *)
Definition regs (x : ploc) : list (klass * nat) :=
  match x with
  | LInt r => [(Integer, r)]
  | LSse r => [(Sse, r)]
  | LQwords l => l
  | LStack _ _ | LNone => []
  end.
Definition regs_of (k : klass) (x : ploc) : list nat :=
  map snd (filter (fun p => klass_eqb (fst p) k) (regs x)).
Definition int_regs := regs_of Integer.
Definition sse_regs := regs_of Sse.

(** Parameters as the translator produces them: scalars without explicit alignment
    (C17 6.7.5p2 forbids alignment specifiers on parameters), or aggregates. *)
Definition parameter (T : tree) : bool :=
  conforming T && negb (is_bits T) && (is_aggregate T || (talign (root T) =? 0)).

Lemma allocate_all_app : forall l1 s T l2 s' xs, allocate_all s (l1 ++ T :: l2) = Some (s', xs) ->
  exists s1 xs1 k s2 x xs2, allocate_all s l1 = Some (s1, xs1) /\ classify T = Some k /\
    allocate s1 k = Some (s2, x) /\ allocate_all s2 l2 = Some (s', xs2) /\ xs = xs1 ++ x :: xs2 /\
    length xs1 = length l1.
Proof.
  induction l1 as [|A l1 IH]; intros s T l2 s' xs H; cbn [app allocate_all] in *.
  - destruct (classify T) as [k|] eqn:E1; [|discriminate].
    destruct (allocate s k) as [[s2 x]|] eqn:E2; [|discriminate].
    destruct (allocate_all s2 l2) as [[s3 xs2]|] eqn:E3; [|discriminate]. injection H as <- <-.
    exists s, [], k, s2, x, xs2. repeat split; auto.
  - destruct (classify A) as [k|] eqn:E1; [|discriminate].
    destruct (allocate s k) as [[s2 x]|] eqn:E2; [|discriminate].
    destruct (allocate_all s2 (l1 ++ T :: l2)) as [[s3 xs2]|] eqn:E3; [|discriminate].
    injection H as <- <-. destruct (IH _ _ _ _ _ E3) as (s1 & xs1 & k' & s4 & y & ys & H1 & H2 & H3 & H4 & -> & H6).
    exists s1, (x :: xs1), k', s4, y, ys. rewrite H1. cbn [length]. repeat split; auto; congruence.
Qed.

Lemma all_app : forall l1 l2 s s' xs, allocate_all s (l1 ++ l2) = Some (s', xs) ->
  exists s1 xs1 xs2, allocate_all s l1 = Some (s1, xs1) /\ allocate_all s1 l2 = Some (s', xs2) /\
    xs = xs1 ++ xs2 /\ length xs1 = length l1.
Proof.
  intros l1 [|T l2] s s' xs H.
  - rewrite app_nil_r in H. exists s', xs, []. rewrite app_nil_r. repeat split; auto.
    clear -H. revert s s' xs H. induction l1 as [|A l1 IH]; intros s s' xs H; cbn [allocate_all] in H.
    + now injection H as _ <-.
    + destruct (classify A) as [k|]; [|discriminate]. destruct (allocate s k) as [[s2 x]|]; [|discriminate].
      destruct (allocate_all s2 l1) as [[s3 xs2]|] eqn:E3; [|discriminate]. injection H as _ <-.
      cbn [length]. f_equal. eauto.
  - destruct (allocate_all_app _ _ _ _ _ _ H) as (s1 & xs1 & k & s2 & x & xs2 & H1 & H2 & H3 & H4 & -> & H6).
    exists s1, xs1, (x :: xs2). split; [exact H1|]. split; [|auto]. cbn [allocate_all].
    now rewrite H2, H3, H4.
Qed.

(** ** Registers *)

Definition count (k : klass) (l : list klass) : nat := length (filter (klass_eqb k) l).

Lemma qword_requirements_count : forall l r r', qword_requirements l r = Some r' ->
  (r_int r' = r_int r + count Integer l)%nat /\ (r_sse r' = r_sse r + count Sse l)%nat /\
  r_msize r <= r_msize r' /\
  (r_msize r' = r_msize r -> Forall (fun k => k = Integer \/ k = Sse \/ k = SseUp \/ k = NoClass) l).
Proof.
  intros l. remember (length l) as n eqn:En. assert (Hn : (length l <= n)%nat) by lia. clear En.
  revert l Hn. induction n as [|n IH]; intros l Hn r r' H.
  - destruct l; [|cbn in Hn; lia]. injection H as <-. cbn. repeat split; try lia. constructor.
  - destruct l as [|k l]; [injection H as <-; cbn; repeat split; try lia; constructor|].
    cbn [length] in Hn.
    destruct k; cbn [qword_requirements] in H; try discriminate H;
      try (apply IH in H; [|lia]; cbn [r_int r_sse r_msize] in H; destruct H as (H1 & H2 & H3 & H4);
           unfold count in *; cbn [filter klass_eqb length]; repeat split; try lia;
           intros Q; constructor; auto).
    destruct l as [|[] l]; try discriminate H. cbn [length] in Hn.
    apply IH in H; [|lia]. cbn [r_int r_sse r_msize] in H. destruct H as (H1 & H2 & H3 & H4).
    unfold count in *. cbn [filter klass_eqb length]. repeat split; try lia.
Qed.

Lemma assign_qwords_regs : forall l i s q, assign_qwords l i s = Some q ->
  map fst q = l /\
  map snd (filter (fun p => klass_eqb (fst p) Integer) q) = seq i (count Integer l) /\
  map snd (filter (fun p => klass_eqb (fst p) Sse) q) = seq s (count Sse l).
Proof.
  induction l as [|k l IH]; intros i s q H; cbn [assign_qwords] in H.
  - injection H as <-. auto.
  - destruct k; try discriminate H;
      match type of H with context [assign_qwords l ?a ?b] =>
        destruct (assign_qwords l a b) as [r|] eqn:E; [|discriminate H] end;
      injection H as <-; destruct (IH _ _ _ E) as (H1 & H2 & H3);
      unfold count in *; cbn [map fst snd filter klass_eqb length seq]; rewrite ?H1, ?H2, ?H3; auto.
Qed.

Lemma allocate_regs : forall T k s s' x, classify T = Some k -> allocate s k = Some (s', x) ->
  (p_int s <= 6)%nat -> (p_sse s <= 8)%nat ->
  (p_int s <= p_int s' <= 6)%nat /\ (p_sse s <= p_sse s' <= 8)%nat /\
  int_regs x = seq (p_int s) (p_int s' - p_int s) /\ sse_regs x = seq (p_sse s) (p_sse s' - p_sse s).
Proof.
  intros T k s s' x EK H Hi Hs.
  assert (ST : forall al z, allocate s k = Some (stack_allocate s al z) ->
    (p_int s <= p_int s' <= 6)%nat /\ (p_sse s <= p_sse s' <= 8)%nat /\
    int_regs x = seq (p_int s) (p_int s' - p_int s) /\ sse_regs x = seq (p_sse s) (p_sse s' - p_sse s)).
  { intros al z E. rewrite E in H. unfold stack_allocate in H. injection H as <- <-.
    cbn [p_int p_sse]. rewrite !Nat.sub_diag. cbn. repeat split; lia. }
  destruct k as [| | |z al| |c r z al]; cbn [allocate] in H, ST.
  - destruct (p_int s + 1 <=? 6)%nat eqn:E; [|eapply ST; reflexivity]. injection H as <- <-.
    cbn [with_int p_int p_sse]. replace (p_int s + 1 - p_int s)%nat with 1%nat by lia.
    rewrite Nat.sub_diag. cbn. repeat split; lia.
  - destruct (p_sse s + 1 <=? 8)%nat eqn:E; [|eapply ST; reflexivity]. injection H as <- <-.
    cbn [with_sse p_int p_sse]. replace (p_sse s + 1 - p_sse s)%nat with 1%nat by lia.
    rewrite Nat.sub_diag. cbn. repeat split; lia.
  - eapply ST; reflexivity.
  - destruct (0 <? z); [eapply ST; reflexivity|discriminate H].
  - injection H as <- <-. rewrite !Nat.sub_diag. cbn. repeat split; lia.
  - destruct c as [|l]; [eapply ST; reflexivity|].
    destruct ((p_int s + r_int r <=? 6)%nat && (p_sse s + r_sse r <=? 8)%nat && (r_msize r =? 0)) eqn:E;
      [|eapply ST; reflexivity].
    destruct (assign_qwords l (p_int s) (p_sse s)) as [q|] eqn:Q; [|discriminate H]. injection H as <- <-.
    destruct (assign_qwords_regs _ _ _ _ Q) as (_ & Q1 & Q2).
    assert (R : qword_requirements l req0 = Some r).
    { destruct T as [c a p|un a ms|a n e]; cbn [classify] in EK.
      - destruct c; try discriminate EK. destruct (p =? 0); discriminate EK.
      - destruct (classify_agg _) as [[|l']|]; try discriminate EK.
        destruct (qword_requirements l' req0) eqn:F; [|discriminate EK]. injection EK as <- <- _ _. exact F.
      - destruct (classify_agg _) as [[|l']|]; try discriminate EK.
        destruct (qword_requirements l' req0) eqn:F; [|discriminate EK]. injection EK as <- <- _ _. exact F. }
    destruct (qword_requirements_count _ _ _ R) as (R1 & R2 & _). cbn [req0 r_int r_sse] in R1, R2.
    cbn [with_int with_sse p_int p_sse]. unfold int_regs, sse_regs, regs_of. cbn [regs].
    rewrite Q1, Q2. repeat split; try lia; f_equal; lia.
Qed.

(** The integer registers handed out are exactly those following the ones already in
    use, one after the other in parameter order, and never more than six; the same for
    the eight SSE registers.  So no register is given out twice. *)
Theorem c35_registers :
  forall ts s s' xs, allocate_all s ts = Some (s', xs) -> (p_int s <= 6)%nat -> (p_sse s <= 8)%nat ->
  (p_int s <= p_int s' <= 6)%nat /\ (p_sse s <= p_sse s' <= 8)%nat /\
  flat_map int_regs xs = seq (p_int s) (p_int s' - p_int s) /\
  flat_map sse_regs xs = seq (p_sse s) (p_sse s' - p_sse s).
Proof.
  induction ts as [|T ts IH]; intros s s' xs H Hi Hs; cbn [allocate_all] in H.
  - injection H as <- <-. rewrite !Nat.sub_diag. cbn. repeat split; lia.
  - destruct (classify T) as [k|] eqn:E1; [|discriminate].
    destruct (allocate s k) as [[s2 x]|] eqn:E2; [|discriminate].
    destruct (allocate_all s2 ts) as [[s3 xs2]|] eqn:E3; [|discriminate]. injection H as <- <-.
    destruct (allocate_regs _ _ _ _ _ E1 E2 Hi Hs) as (A1 & A2 & A3 & A4).
    destruct (IH _ _ _ E3 ltac:(lia) ltac:(lia)) as (B1 & B2 & B3 & B4).
    cbn [flat_map]. rewrite A3, A4, B3, B4.
    split; [lia|]. split; [lia|]. split.
    + replace (p_int s3 - p_int s)%nat with (p_int s2 - p_int s + (p_int s3 - p_int s2))%nat by lia.
      rewrite seq_app. f_equal. f_equal. lia.
    + replace (p_sse s3 - p_sse s)%nat with (p_sse s2 - p_sse s + (p_sse s3 - p_sse s2))%nat by lia.
      rewrite seq_app. f_equal. f_equal. lia.
Qed.

Corollary c35_registers_disjoint :
  forall ts s s' xs, allocate_all s ts = Some (s', xs) -> (p_int s <= 6)%nat -> (p_sse s <= 8)%nat ->
  NoDup (flat_map int_regs xs) /\ NoDup (flat_map sse_regs xs) /\
  (forall r, In r (flat_map int_regs xs) -> (p_int s <= r < 6)%nat) /\
  (forall r, In r (flat_map sse_regs xs) -> (p_sse s <= r < 8)%nat).
Proof.
  intros ts s s' xs H Hi Hs. destruct (c35_registers _ _ _ _ H Hi Hs) as (H1 & H2 & -> & ->).
  split; [apply seq_NoDup|]. split; [apply seq_NoDup|].
  split; intros r I; apply in_seq in I; lia.
Qed.

(** ** Stack areas *)

Lemma pow2_max8 : forall a, is_pow2 a -> is_pow2 (Z.max a 8).
Proof. intros a H. destruct (Z.max_spec a 8) as [[_ ->]|[_ ->]]; [exact pow2_8|exact H]. Qed.

(** What is passed: the object, except that a va_list (an array type) is passed as the
    address of its first element. *)
Definition passed (T : tree) : tree := match T with TLeaf CBuiltin _ _ => TLeaf CWord 0 0 | _ => T end.

Definition on_stack (s : pstate) (T : tree) (s' : pstate) (x : ploc) : Prop :=
  match x with
  | LStack o z => p_stack s <= o /\ o + z = p_stack s' /\ (8 | o) /\ (abi_align (passed T) | o) /\
                  z = Z.max (abi_size (passed T)) (if is_aggregate T then 0 else 8)
  | _ => p_stack s' = p_stack s
  end.

Lemma allocate_stack : forall T k s s' x, parameter T = true -> classify T = Some k ->
  allocate s k = Some (s', x) -> on_stack s T s' x.
Proof.
  intros T k s s' x P EK H. unfold parameter in P. apply andb_true_iff in P as [P0 P].
  apply andb_true_iff in P0 as [C B].
  destruct (conforming_parts T C) as (V & _). destruct (own_abi T V) as (LS & _).
  pose proof (lalign_abi T V) as LA. destruct (conf_align T C) as (P2 & _ & _ & A1 & _ & S0).
  assert (ST0 : forall al z, (8 | al) -> 1 <= al -> (abi_align T | al) -> z = Z.max (abi_size T) (if is_aggregate T then 0 else 8) -> passed T = T ->
     Some (stack_allocate s al z) = Some (s', x) -> on_stack s T s' x).
  { clear H. intros al z D8 H1 DT Hz PT H. unfold stack_allocate in H. injection H as <- <-.
    cbn [on_stack p_stack]. rewrite PT. rewrite pad_roundup by exact H1.
    split; [apply roundup_ge0; exact H1|]. split; [reflexivity|].
    split; [eapply Z.divide_trans; [exact D8|apply roundup_mult]|].
    split; [eapply Z.divide_trans; [exact DT|apply roundup_mult]|exact Hz]. }
  assert (ST : forall al z, (8 | al) -> 1 <= al -> (abi_align T | al) -> z = Z.max (abi_size T) (if is_aggregate T then 0 else 8) -> passed T = T ->
     allocate s k = Some (stack_allocate s al z) -> on_stack s T s' x)
    by (intros al z H1 H2 H3 H4 H5 E; apply (ST0 al z H1 H2 H3 H4 H5); congruence).
  assert (AGG : is_aggregate T = true -> Some (stack_allocate s (Z.max (abi_align T) 8) (abi_size T)) = Some (s', x) -> on_stack s T s' x).
  { intros IA. apply ST0; [|lia| |rewrite IA; lia|destruct T; [discriminate IA|reflexivity|reflexivity]];
      apply pow2_div; try exact pow2_8; try exact P2; try (now apply pow2_max8); lia. }
  assert (DIV8 : is_pow2 (abi_align T) -> abi_align T <= 8 -> (abi_align T | 8))
    by (intros; apply pow2_div; auto; exact pow2_8).
  destruct T as [c a p|un a ms|a n e]; cbn [classify is_aggregate orb] in EK, P.
  - cbn [root talign] in P.
    assert (AL : abi_align (TLeaf c a p) = snd (abi_leaf c p))
      by (unfold abi_align, eff_align; cbn [root talign abi snd]; now rewrite P).
    destruct c; cbn [abi_leaf snd] in AL; try discriminate EK; try discriminate B;
      try (injection EK as <-; cbn [allocate] in H, ST;
           match type of H with context [if ?b then _ else _] =>
             destruct b; [injection H as <- <-; reflexivity|] end;
           apply (ST 8 8); [apply Z.divide_refl|lia|apply DIV8; [exact P2|lia]|reflexivity|reflexivity|reflexivity]).
    + injection EK as <-. cbn [allocate] in H. injection H as <- <-. reflexivity.
    + exfalso. unfold conforming in C. cbn [usable] in C. rewrite andb_false_r in C. discriminate C.
    + injection EK as <-. apply (ST 16 16); [exists 2; reflexivity|lia|rewrite AL; apply Z.divide_refl|reflexivity|reflexivity|reflexivity].
    + destruct (p =? 0); [|discriminate EK]. injection EK as <-. cbn [allocate] in H.
      destruct (p_int s + 1 <=? 6)%nat; [injection H as <- <-; reflexivity|].
      unfold stack_allocate in H. injection H as <- <-. cbn [on_stack p_stack].
      rewrite pad_roundup by lia. split; [apply roundup_ge0; lia|]. split; [reflexivity|].
      split; [apply roundup_mult|]. split; [apply roundup_mult|]. reflexivity.
  - set (T := TAgg un a ms) in *. rewrite LS, LA in EK.
    destruct (classify_agg T) as [[|l]|]; try discriminate EK.
    + injection EK as <-. cbn [allocate] in H, ST. apply AGG; [reflexivity|exact H].
    + destruct (qword_requirements l req0) as [r|]; [|discriminate EK]. injection EK as <-.
      cbn [allocate] in H, ST.
      destruct ((p_int s + r_int r <=? 6)%nat && (p_sse s + r_sse r <=? 8)%nat && (r_msize r =? 0));
        [|apply AGG; [reflexivity|exact H]].
      destruct (assign_qwords l (p_int s) (p_sse s)); [|discriminate H]. now injection H as <- <-.
  - set (T := TArr a n e) in *. rewrite LS, LA in EK.
    destruct (classify_agg T) as [[|l]|]; try discriminate EK.
    + injection EK as <-. cbn [allocate] in H, ST. apply AGG; [reflexivity|exact H].
    + destruct (qword_requirements l req0) as [r|]; [|discriminate EK]. injection EK as <-.
      cbn [allocate] in H, ST.
      destruct ((p_int s + r_int r <=? 6)%nat && (p_sse s + r_sse r <=? 8)%nat && (r_msize r =? 0));
        [|apply AGG; [reflexivity|exact H]].
      destruct (assign_qwords l (p_int s) (p_sse s)); [|discriminate H]. now injection H as <- <-.
Qed.

Lemma all_length : forall ts s s' xs, allocate_all s ts = Some (s', xs) -> length xs = length ts.
Proof.
  intros ts s s' xs H. rewrite <- (app_nil_r ts) in H.
  destruct (all_app _ _ _ _ _ H) as (s1 & xs1 & xs2 & H1 & H2 & -> & H4).
  cbn in H2. injection H2 as _ <-. now rewrite app_nil_r.
Qed.

Lemma all_stack : forall ts s s' xs, forallb parameter ts = true ->
  allocate_all s ts = Some (s', xs) -> p_stack s <= p_stack s'.
Proof.
  induction ts as [|T ts IH]; intros s s' xs P H; cbn [allocate_all forallb] in *.
  - injection H as <- _. lia.
  - apply andb_true_iff in P as [P1 P2]. destruct (classify T) as [k|] eqn:E1; [|discriminate].
    destruct (allocate s k) as [[s2 x]|] eqn:E2; [|discriminate].
    destruct (allocate_all s2 ts) as [[s3 xs2]|] eqn:E3; [|discriminate]. injection H as <- _.
    pose proof (IH _ _ _ P2 E3). pose proof (allocate_stack _ _ _ _ _ P1 E1 E2) as O.
    assert (p_stack s <= p_stack s2); [|lia].
    destruct x; cbn [on_stack] in O; try lia. destruct O as (O1 & O2 & _ & _ & O5).
    assert (0 <= size); [|lia]. destruct (is_aggregate T) eqn:IA; [|lia].
    unfold parameter in P1. apply andb_true_iff in P1 as [P1 _]. apply andb_true_iff in P1 as [C _].
    destruct (conf_align T C) as (_ & _ & _ & _ & _ & S0). destruct T; [discriminate IA| |]; cbn [passed] in O5; lia.
Qed.

(** Every parameter on the stack has its own area, after those of the earlier
    parameters, large enough, 8-aligned and aligned for its type. *)
Theorem c35_stack_areas :
  forall ts s s' xs, forallb parameter ts = true -> allocate_all s ts = Some (s', xs) ->
  (forall i T o z, nth_error ts i = Some T -> nth_error xs i = Some (LStack o z) ->
     p_stack s <= o /\ o + z <= p_stack s' /\ (8 | o) /\ (abi_align (passed T) | o) /\
     abi_size (passed T) <= z) /\
  (forall i j o1 z1 o2 z2, (i < j)%nat -> nth_error xs i = Some (LStack o1 z1) ->
     nth_error xs j = Some (LStack o2 z2) -> o1 + z1 <= o2).
Proof.
  assert (SPLIT : forall ts s s' xs i x, forallb parameter ts = true -> allocate_all s ts = Some (s', xs) ->
    nth_error xs i = Some x -> exists T s1 s2, nth_error ts i = Some T /\ on_stack s1 T s2 x /\
      p_stack s <= p_stack s1 /\ p_stack s2 <= p_stack s' /\
      (forall j o z, (i < j)%nat -> nth_error xs j = Some (LStack o z) -> p_stack s2 <= o)).
  { induction ts as [|T ts IH]; intros s s' xs i x P H E; cbn [allocate_all forallb] in *.
    - injection H as _ <-. destruct i; discriminate E.
    - apply andb_true_iff in P as [P1 P2]. destruct (classify T) as [k|] eqn:E1; [|discriminate].
      destruct (allocate s k) as [[s2 y]|] eqn:E2; [|discriminate].
      destruct (allocate_all s2 ts) as [[s3 ys]|] eqn:E3; [|discriminate]. injection H as <- <-.
      pose proof (allocate_stack _ _ _ _ _ P1 E1 E2) as O.
      destruct i as [|i]; cbn [nth_error] in E.
      + injection E as <-. exists T, s, s2. split; [reflexivity|]. split; [exact O|]. split; [lia|].
        split; [eapply all_stack; eauto|]. intros [|j] o z Hj Ej; [lia|]. cbn [nth_error] in Ej.
        destruct (IH _ _ _ _ _ P2 E3 Ej) as (T' & sa & sb & _ & O' & L1 & _). cbn [on_stack] in O'. lia.
      + destruct (IH _ _ _ _ _ P2 E3 E) as (T' & sa & sb & H1 & O' & L1 & L2 & L3).
        exists T', sa, sb. split; [exact H1|]. split; [exact O'|]. split; [|split; [exact L2|]].
        * enough (p_stack s <= p_stack s2) by lia.
          apply (all_stack [T] s s2 [y]); cbn [forallb]; [now rewrite P1|]. cbn [allocate_all]. now rewrite E1, E2.
        * intros [|j] o z Hj Ej; [lia|]. cbn [nth_error] in Ej. eapply L3; [|exact Ej]. lia. }
  intros ts s s' xs P H. split.
  - intros i T o z E1 E2. destruct (SPLIT _ _ _ _ _ _ P H E2) as (T' & s1 & s2 & H1 & O & L1 & L2 & _).
    rewrite E1 in H1. injection H1 as <-. cbn [on_stack] in O. destruct O as (O1 & O2 & O3 & O4 & O5).
    repeat split; auto; lia.
  - intros i j o1 z1 o2 z2 Hij E1 E2. destruct (SPLIT _ _ _ _ _ _ P H E1) as (T' & s1 & s2 & H1 & O & L1 & L2 & L3).
    cbn [on_stack] in O. specialize (L3 j o2 z2 Hij E2). lia.
Qed.

(** ** Which parameters are passed in registers *)

(** Classes of a parameter by the ABI; [None]: passed in memory (classes MEMORY and
    X87). *)
Definition passed_class (T : tree) : option (list klass) :=
  match T with
  | TLeaf c _ _ =>
    match c with
    | CFloat32 | CFloat64 => Some [Sse]
    | CLongDouble => None
    | _ => Some [Integer]
    end
  | _ => match abi_class T with
         | InMemory => None
         | InQwords l => if existsb (klass_eqb X87) l then None else Some l
         end
  end.

(** Parameters for which C34 is proved and that have no eightbyte without a class. *)
Definition classified (T : tree) : bool :=
  parameter T && (0 <? abi_size T) &&
  match T with
  | TLeaf CBuiltin _ p => p =? 0     (* va_list, the only builtin type *)
  | TLeaf _ _ _ => true
  | _ => members_tight T &&
         match abi_class T with
         | InMemory => true
         | InQwords l => forallb (fun k => klass_eqb k Integer || klass_eqb k Sse) l ||
                         match l with [X87; X87Up] => true | _ => false end
         end
  end.

Lemma classes_requirements : forall l r, forallb (fun k => klass_eqb k Integer || klass_eqb k Sse) l = true ->
  exists r', qword_requirements l r = Some r' /\ r_msize r' = r_msize r.
Proof.
  induction l as [|k l IH]; intros r H; cbn [forallb] in H; [exists r; auto|].
  apply andb_true_iff in H as [H1 H2].
  destruct k; try discriminate H1; cbn [qword_requirements]; destruct (IH {| r_int := S (r_int r); r_sse := r_sse r;
     r_sseup := r_sseup r; r_msize := r_msize r; r_malign := r_malign r |} H2) as (r1 & E1 & M1);
     destruct (IH {| r_int := r_int r; r_sse := S (r_sse r); r_sseup := r_sseup r; r_msize := r_msize r;
     r_malign := r_malign r |} H2) as (r2 & E2 & M2); cbn [r_msize] in *; eauto.
Qed.

Lemma assign_some : forall l i s, forallb (fun k => klass_eqb k Integer || klass_eqb k Sse) l = true ->
  exists q, assign_qwords l i s = Some q.
Proof.
  induction l as [|k l IH]; intros i s H; cbn [forallb] in H; [exists []; auto|].
  apply andb_true_iff in H as [H1 H2].
  destruct (IH (S i) s H2) as (q1 & E1). destruct (IH i (S s) H2) as (q2 & E2).
  destruct k; try discriminate H1; cbn [assign_qwords]; [rewrite E1|rewrite E2]; eauto.
Qed.

(** One parameter in the state [s]. *)
Definition chosen (s : pstate) (T : tree) (x : ploc) : Prop :=
  match passed_class T with
  | Some l =>
    if (p_int s + count Integer l <=? 6)%nat && (p_sse s + count Sse l <=? 8)%nat
    then map fst (regs x) = l
    else exists o z, x = LStack o z
  | None => exists o z, x = LStack o z
  end.

Lemma chosen_one : forall T s, (p_int s <= 6)%nat -> (p_sse s <= 8)%nat -> classified T = true ->
  exists k s' x, classify T = Some k /\ allocate s k = Some (s', x) /\ chosen s T x.
Proof.
  intros T s I6 S8 H. unfold classified in H. apply andb_true_iff in H as [H HT].
  apply andb_true_iff in H as [HP HS]. apply Z.ltb_lt in HS.
  unfold parameter in HP. apply andb_true_iff in HP as [HP0 HP]. apply andb_true_iff in HP0 as [C B].
  destruct (conforming_parts T C) as (V & _ & _ & _ & U).
  assert (AGG : is_aggregate T = true ->
    match classify_agg T with
    | None => None
    | Some InMemory =>
      Some (PAgg InMemory {| r_int := 0; r_sse := 0; r_sseup := 0;
                             r_msize := l_size (own T); r_malign := lalign T |}
                 (l_size (own T)) (lalign T))
    | Some (InQwords l) =>
      match qword_requirements l req0 with
      | Some r => Some (PAgg (InQwords l) r (l_size (own T)) (lalign T))
      | None => None
      end
    end = classify T ->
    passed_class T = match abi_class T with
         | InMemory => None
         | InQwords l => if existsb (klass_eqb X87) l then None else Some l
         end ->
    members_tight T &&
         match abi_class T with
         | InMemory => true
         | InQwords l => forallb (fun k => klass_eqb k Integer || klass_eqb k Sse) l ||
                         match l with [X87; X87Up] => true | _ => false end
         end = true ->
    exists k s' x, classify T = Some k /\ allocate s k = Some (s', x) /\ chosen s T x).
  { intros IA EC EP HA. apply andb_true_iff in HA as [HA1 HA2].
    rewrite (c34_classes_partial T C IA HS HA1) in EC. unfold chosen. rewrite EP. clear EP HT.
    destruct (abi_class T) as [|l].
    - rewrite <- EC. do 3 eexists. split; [reflexivity|]. split; [reflexivity|]. eauto.
    - apply orb_true_iff in HA2 as [HA2|HA2].
      + assert (NX : existsb (klass_eqb X87) l = false).
        { clear -HA2. induction l as [|k l IH]; cbn [existsb forallb] in *; [reflexivity|].
          apply andb_true_iff in HA2 as [H1 H2]. rewrite IH by exact H2. destruct k; try discriminate H1; reflexivity. }
        rewrite NX. destruct (classes_requirements l req0 HA2) as (r & Er & Em). rewrite Er in EC.
        destruct (qword_requirements_count _ _ _ Er) as (R1 & R2 & _). cbn [req0 r_int r_sse r_msize Nat.add] in *.
        rewrite <- EC.
        assert (EA : allocate s (PAgg (InQwords l) r (l_size (own T)) (lalign T)) =
          if (p_int s + count Integer l <=? 6)%nat && (p_sse s + count Sse l <=? 8)%nat then
            match assign_qwords l (p_int s) (p_sse s) with
            | Some q => Some (with_sse (with_int s (r_int r)) (r_sse r), LQwords q)
            | None => None
            end
          else Some (stack_allocate s (Z.max (lalign T) 8) (l_size (own T)))).
        { cbn [allocate]. rewrite R1, R2, Em. change (0 =? 0) with true. now rewrite andb_true_r. }
        destruct ((p_int s + count Integer l <=? 6)%nat && (p_sse s + count Sse l <=? 8)%nat).
        * destruct (assign_some l (p_int s) (p_sse s) HA2) as (q & Eq). rewrite Eq in EA.
          do 3 eexists. split; [reflexivity|]. split; [exact EA|]. cbn [regs].
          now destruct (assign_qwords_regs _ _ _ _ Eq).
        * do 3 eexists. split; [reflexivity|]. split; [exact EA|]. eauto.
      + destruct l as [|[] [|[] [|]]]; try discriminate HA2. cbn [existsb klass_eqb orb].
        cbn [qword_requirements] in EC. rewrite <- EC. unfold req0.
        eexists. enough (X : exists s' x, Some (stack_allocate s (Z.max (lalign T) 8) (l_size (own T))) = Some (s', x) /\
           exists o z, x = LStack o z).
        { destruct X as (s' & x & X1 & X2). exists s', x. split; [reflexivity|]. split; [|exact X2].
          rewrite <- X1. cbn [allocate r_msize]. change (0 + 16 =? 0) with false. now rewrite andb_false_r. }
        do 2 eexists. split; [reflexivity|]. eauto. }
  destruct T as [c a p|un a ms|a n e].
  - clear AGG. unfold chosen.
    assert (PI : exists k s' x, Some PInt = Some k /\ allocate s k = Some (s', x) /\
      if (p_int s + count Integer [Integer] <=? 6)%nat && (p_sse s + count Sse [Integer] <=? 8)%nat
      then map fst (regs x) = [Integer] else exists o z, x = LStack o z).
    { change (count Integer [Integer]) with 1%nat. change (count Sse [Integer]) with 0%nat.
      replace (p_sse s + 0 <=? 8)%nat with true by lia. rewrite andb_true_r. eexists.
      destruct (p_int s + 1 <=? 6)%nat eqn:E.
      - do 2 eexists. split; [reflexivity|]. cbn [allocate]. rewrite E. split; reflexivity.
      - do 2 eexists. split; [reflexivity|]. cbn [allocate]. rewrite E. split; [reflexivity|]. eauto. }
    assert (PS : exists k s' x, Some PSse = Some k /\ allocate s k = Some (s', x) /\
      if (p_int s + count Integer [Sse] <=? 6)%nat && (p_sse s + count Sse [Sse] <=? 8)%nat
      then map fst (regs x) = [Sse] else exists o z, x = LStack o z).
    { change (count Integer [Sse]) with 0%nat. change (count Sse [Sse]) with 1%nat.
      replace (p_int s + 0 <=? 6)%nat with true by lia. cbn [andb]. eexists.
      destruct (p_sse s + 1 <=? 8)%nat eqn:E.
      - do 2 eexists. split; [reflexivity|]. cbn [allocate]. rewrite E. split; reflexivity.
      - do 2 eexists. split; [reflexivity|]. cbn [allocate]. rewrite E. split; [reflexivity|]. eauto. }
    destruct c; try discriminate B; try (cbn [usable] in U; discriminate U);
      try (exfalso; cbn in V; discriminate V); cbn [classify passed_class];
      try exact PI; try exact PS;
      try (do 3 eexists; split; [reflexivity|]; split; [reflexivity|]; eauto; fail).
    rewrite HT. exact PI.
  - apply AGG; auto.
  - apply AGG; auto.
Qed.

(** Assignment succeeds; every parameter whose classes fit in the registers left over
    by the earlier ones is passed in registers of those classes (by
    [c35_registers] the next ones), every other parameter on the stack. *)
Theorem c35_assignment :
  forall ts s, (p_int s <= 6)%nat -> (p_sse s <= 8)%nat -> forallb classified ts = true ->
  exists s' xs, allocate_all s ts = Some (s', xs) /\
    forall i T x, nth_error ts i = Some T -> nth_error xs i = Some x ->
    let ints := (p_int s + length (flat_map int_regs (firstn i xs)))%nat in
    let sses := (p_sse s + length (flat_map sse_regs (firstn i xs)))%nat in
    match passed_class T with
    | Some l => if (ints + count Integer l <=? 6)%nat && (sses + count Sse l <=? 8)%nat
                then map fst (regs x) = l
                else exists o z, x = LStack o z
    | None => exists o z, x = LStack o z
    end.
Proof.
  induction ts as [|T ts IH]; intros s I6 S8 H.
  - exists s, []. split; [reflexivity|]. intros [|i] T x E; discriminate E.
  - cbn [forallb] in H. apply andb_true_iff in H as [H1 H2].
    destruct (chosen_one T s I6 S8 H1) as (k & s1 & x & E1 & E2 & E3).
    destruct (allocate_regs _ _ _ _ _ E1 E2 I6 S8) as (A1 & A2 & A3 & A4).
    destruct (IH s1 ltac:(lia) ltac:(lia) H2) as (s2 & xs & E4 & E5).
    exists s2, (x :: xs). split; [cbn [allocate_all]; now rewrite E1, E2, E4|].
    intros [|i] T' x' N1 N2; cbn [nth_error] in N1, N2.
    + injection N1 as <-. injection N2 as <-. cbn [firstn flat_map length]. rewrite !Nat.add_0_r. exact E3.
    + specialize (E5 i T' x' N1 N2). cbn [firstn flat_map]. rewrite !app_length, A3, A4, !seq_length.
      replace (p_int s + (p_int s1 - p_int s + length (flat_map int_regs (firstn i xs))))%nat
        with (p_int s1 + length (flat_map int_regs (firstn i xs)))%nat by lia.
      replace (p_sse s + (p_sse s1 - p_sse s + length (flat_map sse_regs (firstn i xs))))%nat
        with (p_sse s1 + length (flat_map sse_regs (firstn i xs)))%nat by lia.
      exact E5.
Qed.

(** int, struct {long; double}, double, long double, struct {long[3]}, four longs and
    struct {long; long}: the last needs two integer registers and one is left, so it
    goes to the stack; the int after it takes that register. *)
Definition ex_params : list tree :=
  [TLeaf CInt 0 0; TAgg false 0 [TLeaf CLong 0 0; TLeaf CFloat64 0 0]; TLeaf CFloat64 0 0;
   TLeaf CLongDouble 0 0; TAgg false 0 [TArr 0 3 (TLeaf CLong 0 0)];
   TLeaf CLong 0 0; TLeaf CLong 0 0; TLeaf CLong 0 0;
   TAgg false 0 [TLeaf CLong 0 0; TLeaf CLong 0 0]; TLeaf CInt 0 0; TLeaf CBuiltin 0 0].
Definition pstate0 : pstate := {| p_int := 0; p_sse := 0; p_stack := 0 |}.

Example c35_example :
  forallb parameter ex_params = true /\ forallb classified ex_params = true /\
  allocate_all pstate0 ex_params =
  Some ({| p_int := 6; p_sse := 2; p_stack := 64 |},
        [LInt 0; LQwords [(Integer, 1%nat); (Sse, 0%nat)]; LSse 1; LStack 0 16; LStack 16 24;
         LInt 2; LInt 3; LInt 4; LStack 40 16; LInt 5; LStack 56 8]).
Proof. vm_compute. auto. Qed.

(** A structure with a whole eightbyte of padding (struct { _Alignas(16) int x; }): the
    classifier gives the second eightbyte NO_CLASS, for which the assignment has no
    case, so a function with such a parameter cannot be compiled. *)
Theorem c35_padding_eightbyte_refuted :
  exists T, parameter T = true /\ is_aggregate T = true /\ members_tight T = true /\ abi_size T = 16 /\
  abi_class T = InQwords [Integer; NoClass] /\ allocate_all pstate0 [T] = None.
Proof. exists (TAgg false 0 [TLeaf CInt 16 0]). vm_compute. repeat split. Qed.

Print Assumptions c35_registers.
Print Assumptions c35_registers_disjoint.
Print Assumptions c35_stack_areas.
Print Assumptions c35_assignment.
Print Assumptions c35_padding_eightbyte_refuted.
