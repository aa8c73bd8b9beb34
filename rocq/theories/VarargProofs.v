(** Lemmas for C41: memory, placement of the arguments, fetching one argument. *)

From Coq Require Import ZArith Lia Bool List ZifyBool ZifyNat.
From Verif Require Import IrType LayoutModel PropLayout ClassModel ClassSpec ClassProofs PropClass PropParams
  VarargModel.
Import ListNotations.
Open Scope Z_scope.

(** ** Memory *)

Lemma load_length : forall m a n, length (load m a n) = n.
Proof. intros. unfold load. now rewrite map_length, seq_length. Qed.

Lemma load_ext : forall m m' a n, (forall x, a <= x < a + Z.of_nat n -> m x = m' x) -> load m a n = load m' a n.
Proof.
  intros m m' a n H. unfold load. apply map_ext_in. intros i I. apply in_seq in I. apply H. lia.
Qed.

Lemma store_out : forall m a l x, x < a \/ a + Z.of_nat (length l) <= x -> store m a l x = m x.
Proof. intros m a l x H. unfold store. replace ((a <=? x) && (x <? a + Z.of_nat (length l))) with false by lia. reflexivity. Qed.

Lemma store_in : forall m a l i, (i < length l)%nat -> store m a l (a + Z.of_nat i) = nth i l 0.
Proof.
  intros m a l i H. unfold store.
  replace ((a <=? a + Z.of_nat i) && (a + Z.of_nat i <? a + Z.of_nat (length l))) with true by lia.
  f_equal. lia.
Qed.

Lemma load_store_prefix : forall m a l n, (n <= length l)%nat -> load (store m a l) a n = firstn n l.
Proof.
  intros m a l n H. unfold load.
  apply (nth_ext _ _ 0 0).
  - now rewrite map_length, seq_length, firstn_length_le.
  - rewrite map_length, seq_length. intros i Hi.
    rewrite (nth_indep _ 0 ((fun j => store m a l (a + Z.of_nat j)) 0%nat)) by (rewrite map_length, seq_length; lia).
    rewrite (map_nth (fun j => store m a l (a + Z.of_nat j))), seq_nth by lia. rewrite store_in by lia.
    rewrite <- (firstn_skipn n l) at 1. rewrite app_nth1 by (rewrite firstn_length_le; lia). reflexivity.
Qed.

Lemma load_store_same : forall m a l, load (store m a l) a (length l) = l.
Proof. intros. rewrite load_store_prefix by lia. apply firstn_all. Qed.

Lemma load_store_same_n : forall m a l n, length l = n -> load (store m a l) a n = l.
Proof. intros m a l n <-. apply load_store_same. Qed.

Lemma load_store_out : forall m a l b n, b + Z.of_nat n <= a \/ a + Z.of_nat (length l) <= b ->
  load (store m a l) b n = load m b n.
Proof. intros m a l b n H. apply load_ext. intros x Hx. apply store_out. lia. Qed.

Lemma load_app : forall m a n k, load m a (n + k) = load m a n ++ load m (a + Z.of_nat n) k.
Proof.
  intros. unfold load. rewrite seq_app, map_app. f_equal. cbn [Nat.add].
  rewrite <- (Nat.add_0_r n) at 1. generalize 0%nat as b. induction k as [|k IH]; intros b; cbn [seq map]; [reflexivity|].
  f_equal; [f_equal; lia|]. rewrite plus_n_Sm. apply IH.
Qed.

Lemma load_firstn : forall m a n k, (k <= n)%nat -> firstn k (load m a n) = load m a k.
Proof.
  intros m a n k H. replace n with (k + (n - k))%nat by lia. rewrite load_app.
  rewrite firstn_app, load_length, Nat.sub_diag, firstn_O, app_nil_r.
  rewrite firstn_all2; [reflexivity|]. now rewrite load_length.
Qed.

(** ** Alignment *)

Lemma land_16 : forall x, Z.land x (-16) = x / 16 * 16.
Proof.
  intros x. change (-16) with (Z.lnot (Z.ones 4)). rewrite <- Z.ldiff_land, Z.ldiff_ones_r by lia.
  rewrite Z.shiftl_mul_pow2, Z.shiftr_div_pow2 by lia. reflexivity.
Qed.

Lemma align_16 : forall b p, (16 | b) -> Z.land (b + roundup p 8 + (16 - 1)) (-16) = b + roundup p 16.
Proof.
  intros b p [q ->]. rewrite land_16. unfold roundup. Z.to_euclidean_division_equations. lia.
Qed.

Lemma roundup_16_8 : forall p, (16 | roundup p 8) -> roundup p 16 = roundup p 8.
Proof.
  intros p [q E]. unfold roundup in *. Z.to_euclidean_division_equations. lia.
Qed.

Lemma roundup_id : forall p, (8 | p) -> roundup p 8 = p.
Proof. intros p [q ->]. unfold roundup. Z.to_euclidean_division_equations. lia. Qed.

Lemma roundup_next : forall o z, (8 | o) -> roundup (o + z) 8 = o + roundup z 8.
Proof. intros o z [q ->]. unfold roundup. Z.to_euclidean_division_equations. lia. Qed.

Lemma div8_roundup16 : forall p, (8 | roundup p 16).
Proof. intros p. unfold roundup. exists (2 * ((p + 16 - 1) / 16)). lia. Qed.

(** ** Placing the arguments *)

(** Registers of the right width. *)
Definition wide (c : machine) : Prop :=
  (forall r, length (gpr c r) = 8%nat) /\ (forall r, length (xmm c r) = 16%nat).

(** Argument values of the right kind for a type. *)
Definition arg_for (T : tree) (a : arg) : Prop :=
  match a with
  | AWord w => length w = 8%nat /\
               match T with TLeaf c _ _ => c <> CLongDouble /\ c <> CPad | _ => False end
  | ALong lo hi => length lo = 8%nat /\ length hi = 8%nat /\
                   match T with TLeaf CLongDouble _ _ => True | _ => False end
  | AAddr _ => is_aggregate T = true
  end.

(** An aggregate argument (up to the end of its last eightbyte) lies outside the stack
    area of the call, [hi] bytes from [rsp], and the three words below it. *)
Definition apart (rsp hi : Z) (T : tree) (a : arg) : Prop :=
  match a with
  | AAddr src => src + roundup (abi_size T) 8 <= rsp - 24 \/ rsp + hi <= src
  | _ => True
  end.

(** What holds of an argument that has been placed; [m0] is memory before the call. *)
Fixpoint holds_qwords (m0 : mem) (c : machine) (src : Z) (l : list (klass * nat)) (i : Z) : Prop :=
  match l with
  | [] => True
  | (Integer, r) :: l => gpr c r = load m0 (src + i * 8) 8 /\ holds_qwords m0 c src l (i + 1)
  | (Sse, r) :: l => firstn 8 (xmm c r) = load m0 (src + i * 8) 8 /\ holds_qwords m0 c src l (i + 1)
  | _ => False
  end.
Definition holds (rsp : Z) (m0 : mem) (c : machine) (x : ploc) (a : arg) : Prop :=
  match x, a with
  | LInt r, AWord w => gpr c r = w
  | LSse r, AWord w => firstn 8 (xmm c r) = w
  | LStack o _, AWord w => load (mm c) (rsp + o) 8 = w
  | LStack o _, ALong lo hi => load (mm c) (rsp + o) 8 = lo /\ load (mm c) (rsp + o + 8) 8 = hi
  | LStack o z, AAddr src => load (mm c) (rsp + o) (Z.to_nat z) = load m0 src (Z.to_nat z)
  | LQwords l, AAddr src => holds_qwords m0 c src l 0
  | _, _ => False
  end.

(** Only what belongs to parameters allocated between [s] and [s'] has changed. *)
Definition frame (rsp : Z) (s s' : pstate) (c c' : machine) : Prop :=
  (forall r, (r < p_int s)%nat -> gpr c' r = gpr c r) /\
  (forall r, (r < p_sse s)%nat -> xmm c' r = xmm c r) /\
  (forall x, rsp <= x < rsp + p_stack s \/ rsp + p_stack s' <= x \/ x < rsp - 24 -> mm c' x = mm c x).

Definition within (s' : pstate) (x : ploc) : Prop :=
  (forall r, In (Integer, r) (regs x) -> (r < p_int s')%nat) /\
  (forall r, In (Sse, r) (regs x) -> (r < p_sse s')%nat) /\
  match x with LStack o z => 0 <= o /\ o + z <= p_stack s' | _ => True end.

Lemma wide_gpr : forall c r w, wide c -> length w = 8%nat -> wide (set_gpr c r w).
Proof.
  intros c r w [H1 H2] H. split; [|exact H2]. intros i. cbn [set_gpr gpr]. unfold upd.
  destruct (Nat.eqb i r); auto.
Qed.
Lemma wide_xmm : forall c r w, wide c -> length w = 8%nat -> wide (set_xmm c r w).
Proof.
  intros c r w [H1 H2] H. split; [exact H1|]. intros i. cbn [set_xmm xmm]. unfold upd.
  destruct (Nat.eqb i r); [|apply H2]. rewrite app_length, skipn_length, H, H2. reflexivity.
Qed.
Lemma wide_mem : forall c m, wide c -> wide (set_mem c m).
Proof. intros c m H. exact H. Qed.

Lemma upd_same : forall A (f : nat -> A) r x, upd f r x r = x.
Proof. intros. unfold upd. now rewrite Nat.eqb_refl. Qed.
Lemma upd_other : forall A (f : nat -> A) r x i, i <> r -> upd f r x i = f i.
Proof. intros. unfold upd. destruct (Nat.eqb_spec i r); [contradiction|reflexivity]. Qed.

Lemma low_xmm : forall c r w, length w = 8%nat -> firstn 8 (xmm (set_xmm c r w) r) = w.
Proof.
  intros c r w H. cbn [set_xmm xmm]. rewrite upd_same, firstn_app, H, Nat.sub_diag, firstn_O, app_nil_r.
  rewrite <- H. apply firstn_all.
Qed.

Lemma place_qwords_ok : forall l i s q c src k c' m0,
  assign_qwords l i s = Some q -> place_qwords c src q k = Some c' -> wide c -> 0 <= k ->
  (forall x, src <= x < src + (k + Z.of_nat (length l)) * 8 -> mm c x = m0 x) ->
  wide c' /\ mm c' = mm c /\
  (forall r, (r < i)%nat -> gpr c' r = gpr c r) /\ (forall r, (r < s)%nat -> xmm c' r = xmm c r) /\
  holds_qwords m0 c' src q k /\ aggregate_requirements l = Some (count Integer l, count Sse l).
Proof.
  induction l as [|e l IH]; intros i s q c src k c' m0 A P W K M.
  - injection A as <-. injection P as <-. repeat split; auto; apply W.
  - cbn [length] in M.
    destruct e; try discriminate A; cbn [assign_qwords] in A.
    + destruct (assign_qwords l (S i) s) as [q'|] eqn:A'; [|discriminate A]. injection A as <-.
      cbn [place_qwords] in P.
      assert (W1 : wide (set_gpr c i (load (mm c) (src + k * 8) 8))) by (apply wide_gpr; [exact W|apply load_length]).
      destruct (IH _ _ _ _ _ _ _ m0 A' P W1 ltac:(lia) ltac:(intros x Hx; apply M; lia)) as (H1 & H2 & H3 & H4 & H5 & H6).
      split; [exact H1|]. split; [exact H2|]. split.
      { intros r Hr. rewrite H3 by lia. cbn [set_gpr gpr]. apply upd_other. lia. }
      split; [intros r Hr; now rewrite H4|].
      split; [|cbn [aggregate_requirements]; rewrite H6; reflexivity].
      cbn [holds_qwords]. split; [|exact H5]. rewrite H3 by lia. cbn [set_gpr gpr]. rewrite upd_same.
      apply load_ext. intros x Hx. apply M. lia.
    + destruct (assign_qwords l i (S s)) as [q'|] eqn:A'; [|discriminate A]. injection A as <-.
      cbn [place_qwords] in P.
      assert (W1 : wide (set_xmm c s (load (mm c) (src + k * 8) 8))) by (apply wide_xmm; [exact W|apply load_length]).
      destruct (IH _ _ _ _ _ _ _ m0 A' P W1 ltac:(lia) ltac:(intros x Hx; apply M; lia)) as (H1 & H2 & H3 & H4 & H5 & H6).
      split; [exact H1|]. split; [exact H2|]. split; [intros r Hr; now rewrite H3|].
      split.
      { intros r Hr. rewrite H4 by lia. cbn [set_xmm xmm]. apply upd_other. lia. }
      split; [|cbn [aggregate_requirements]; rewrite H6; reflexivity].
      cbn [holds_qwords]. split; [|exact H5]. rewrite H4 by lia. rewrite low_xmm by apply load_length.
      apply load_ext. intros x Hx. apply M. lia.
    + destruct (assign_qwords l i s) as [q'|] eqn:A'; [|discriminate A]. injection A as <-. discriminate P.
Qed.

(** Class of an argument, with the size and alignment of its type. *)
Lemma sseup_fix_length : forall l p, length (sseup_fix p l) = length l.
Proof. induction l as [|k l IH]; intros p; cbn [sseup_fix length]; [reflexivity|]. now rewrite IH. Qed.

Definition argument (T : tree) : bool := parameter T && (0 <? abi_size T).

Lemma argument_parts : forall T, argument T = true ->
  parameter T = true /\ conforming T = true /\ valid T = true /\ 0 < abi_size T /\
  l_size (own T) = abi_size T /\ lalign T = abi_align T.
Proof.
  intros T H. unfold argument in H. apply andb_true_iff in H as [H1 H2]. apply Z.ltb_lt in H2.
  pose proof H1 as P. unfold parameter in H1. apply andb_true_iff in H1 as [H1 _]. apply andb_true_iff in H1 as [C _].
  destruct (conforming_parts T C) as (V & _). destruct (own_abi T V) as (LS & _).
  repeat split; auto. now apply lalign_abi.
Qed.

Lemma classify_aggregate : forall T k, argument T = true -> is_aggregate T = true -> classify T = Some k ->
  exists a r, k = PAgg a r (abi_size T) (abi_align T) /\
    match a with
    | InMemory => True
    | InQwords l => qword_requirements l req0 = Some r /\ Z.of_nat (length l) * 8 = roundup (abi_size T) 8 /\
                    (length l <= 2)%nat
    end.
Proof.
  intros T k H IA E. destruct (argument_parts T H) as (_ & C & V & P & LS & LA).
  destruct (classify_agg_eq T C P) as (E1 & B).
  assert (E2 : match classify_agg T with
    | None => None
    | Some InMemory =>
      Some (PAgg InMemory {| r_int := 0; r_sse := 0; r_sseup := 0;
                             r_msize := l_size (own T); r_malign := lalign T |}
                 (l_size (own T)) (lalign T))
    | Some (InQwords l) =>
      match qword_requirements l req0 with
      | Some r => Some (PAgg (InQwords l) r (l_size (own T)) (lalign T))
      | None => None
      end
    end = Some k) by (destruct T; [discriminate IA|exact E|exact E]).
  rewrite E1, LS, LA in E2.
  assert (NN : Z.of_nat (Z.to_nat (roundup (abi_size T) 8 / 8)) * 8 = roundup (abi_size T) 8)
    by (unfold roundup in *; Z.to_euclidean_division_equations; lia).
  destruct (64 <? abi_size T); [injection E2 as E2; subst k; exists InMemory; eexists; split; [reflexivity|exact I]|].
  set (l0 := map (eightbyte (fst (pack T 0))) (seq 0 (Z.to_nat (roundup (abi_size T) 8 / 8)))) in *.
  assert (L0 : length l0 = Z.to_nat (roundup (abi_size T) 8 / 8)) by (unfold l0; now rewrite map_length, seq_length).
  assert (SM : (2 < length l0)%nat -> cleanup l0 = InMemory).
  { intros HL. apply large_in_memory; [apply eightbytes_plain, pack_plain|lia]. }
  destruct (Nat.le_gt_cases (length l0) 2) as [HL|HL].
  2:{ rewrite (SM HL) in E2. injection E2 as E2. subst k. exists InMemory; eexists; split; [reflexivity|exact I]. }
  destruct (cleanup l0) as [|l] eqn:EC; [injection E2 as E2; subst k; exists InMemory; eexists; split; [reflexivity|exact I]|].
  destruct (qword_requirements l req0) as [r|] eqn:ER; [|discriminate E2]. injection E2 as E2. subst k.
  exists (InQwords l), r. split; [reflexivity|]. split; [exact ER|].
  assert (EL : length l = length l0).
  { unfold cleanup in EC. repeat match type of EC with (if ?b then _ else _) = _ => destruct b; try discriminate EC end.
    injection EC as <-. apply sseup_fix_length. }
  rewrite EL, L0. split; [exact NN|lia].
Qed.

Lemma allocate_qwords : forall T k s s' q, classify T = Some k -> allocate s k = Some (s', LQwords q) ->
  exists l r z al, k = PAgg (InQwords l) r z al /\ assign_qwords l (p_int s) (p_sse s) = Some q /\
    is_aggregate T = true /\ s' = with_sse (with_int s (r_int r)) (r_sse r) /\
    (p_int s + r_int r <= 6)%nat /\ (p_sse s + r_sse r <= 8)%nat /\ r_msize r = 0.
Proof.
  intros T k s s' q EK H. unfold stack_allocate in H.
  destruct k as [| | |z al| |[|l] r z al]; cbn [allocate] in H.
  - destruct (p_int s + 1 <=? 6)%nat; discriminate H.
  - destruct (p_sse s + 1 <=? 8)%nat; discriminate H.
  - discriminate H.
  - destruct (0 <? z); discriminate H.
  - discriminate H.
  - discriminate H.
  - destruct ((p_int s + r_int r <=? 6)%nat && (p_sse s + r_sse r <=? 8)%nat && (r_msize r =? 0)) eqn:B; [|discriminate H].
    destruct (assign_qwords l (p_int s) (p_sse s)) as [q'|] eqn:A; [|discriminate H]. injection H as <- <-.
    apply andb_true_iff in B as [B B3]. apply andb_true_iff in B as [B1 B2].
    exists l, r, z, al. repeat split; auto; try lia.
    destruct T as [c a p|un a ms|a n e]; [|reflexivity|reflexivity]. exfalso. cbn [classify] in EK.
    destruct c; try discriminate EK. destruct (p =? 0); discriminate EK.
Qed.

Lemma regs_within : forall T k s s' x, classify T = Some k -> allocate s k = Some (s', x) ->
  (p_int s <= 6)%nat -> (p_sse s <= 8)%nat ->
  (forall r, In (Integer, r) (regs x) -> (p_int s <= r < p_int s')%nat) /\
  (forall r, In (Sse, r) (regs x) -> (p_sse s <= r < p_sse s')%nat).
Proof.
  intros T k s s' x E1 E2 I6 S8. destruct (allocate_regs _ _ _ _ _ E1 E2 I6 S8) as (A1 & A2 & A3 & A4).
  unfold int_regs, sse_regs, regs_of in A3, A4.
  split; intros r I.
  - assert (J : In r (seq (p_int s) (p_int s' - p_int s))).
    { rewrite <- A3. apply in_map_iff. exists (Integer, r). split; [reflexivity|]. apply filter_In. auto. }
    apply in_seq in J. lia.
  - assert (J : In r (seq (p_sse s) (p_sse s' - p_sse s))).
    { rewrite <- A4. apply in_map_iff. exists (Sse, r). split; [reflexivity|]. apply filter_In. auto. }
    apply in_seq in J. lia.
Qed.

Lemma place_one : forall T k s s' x a rsp hi c c' m0,
  argument T = true -> classify T = Some k -> allocate s k = Some (s', x) ->
  (p_int s <= 6)%nat -> (p_sse s <= 8)%nat -> 0 <= p_stack s -> p_stack s' <= hi ->
  arg_for T a -> apart rsp hi T a -> wide c ->
  (forall y, rsp + hi <= y \/ y < rsp - 24 -> mm c y = m0 y) ->
  place rsp c x a = Some c' ->
  wide c' /\ frame rsp s s' c c' /\ holds rsp m0 c' x a /\ within s' x /\ p_stack s <= p_stack s'.
Proof.
  intros T k s s' x a rsp hi c c' m0 HA E1 E2 I6 S8 P0 PH AF AP W M P.
  destruct (argument_parts T HA) as (HP & C & V & PS & _).
  destruct (regs_within _ _ _ _ _ E1 E2 I6 S8) as (R1 & R2).
  pose proof (allocate_stack _ _ _ _ _ HP E1 E2) as O.
  assert (WI : match x with LStack o z => 0 <= o /\ o + z <= p_stack s' | _ => True end -> within s' x).
  { intros H. split; [intros r I; apply R1 in I; lia|]. split; [intros r I; apply R2 in I; lia|exact H]. }
  destruct x as [r|r|q|o z|]; cbn [place] in P.
  - destruct a as [w| |]; try discriminate P. injection P as <-. cbn [arg_for] in AF. destruct AF as [LW _].
    cbn [on_stack] in O. destruct (R1 r (or_introl eq_refl)) as [R _].
    split; [now apply wide_gpr|]. split; [|split; [|split; [auto|lia]]].
    + split; [|split]; auto. intros i Hi. cbn [set_gpr gpr]. apply upd_other. lia.
    + cbn [holds set_gpr gpr]. apply upd_same.
  - destruct a as [w| |]; try discriminate P. injection P as <-. cbn [arg_for] in AF. destruct AF as [LW _].
    cbn [on_stack] in O. destruct (R2 r (or_introl eq_refl)) as [R _].
    split; [now apply wide_xmm|]. split; [|split; [|split; [auto|lia]]].
    + split; [|split]; auto. intros i Hi. cbn [set_xmm xmm]. apply upd_other. lia.
    + cbn [holds]. now apply low_xmm.
  - destruct a as [| |src]; try discriminate P. cbn [on_stack] in O. cbn [apart] in AP.
    destruct (allocate_qwords _ _ _ _ _ E1 E2) as (l & r & z & al & -> & A & IA & ES & _).
    destruct (classify_aggregate T _ HA IA E1) as (a & r' & EQ & H). injection EQ as <- <- -> ->. destruct H as (H1 & H2 & H3).
    destruct (place_qwords_ok _ _ _ _ _ _ _ _ m0 A P W ltac:(lia)) as (Q1 & Q2 & Q3 & Q4 & Q5 & _).
    { intros y Hy. apply M. lia. }
    split; [exact Q1|]. split; [|split; [exact Q5|split; [auto|lia]]].
    split; [exact Q3|]. split; [exact Q4|]. intros y _. now rewrite Q2.
  - cbn [on_stack] in O. destruct O as (O1 & O2 & O3 & O4 & O5).
    assert (Z0 : 0 <= z) by (destruct (is_aggregate T) eqn:IA; [destruct T; [discriminate IA| |]; cbn [passed] in O5|]; lia).
    specialize (WI ltac:(lia)).
    destruct a as [w|lo hi'|src]; injection P as <-; cbn [arg_for] in AF.
    + destruct AF as [LW KT].
      assert (8 <= z) by (destruct T; [cbn [is_aggregate] in O5; lia|destruct KT|destruct KT]).
      split; [now apply wide_mem|]. split; [|split; [|split; [auto|lia]]].
      * split; [reflexivity|]. split; [reflexivity|]. intros y Hy. cbn [set_mem mm]. apply store_out. rewrite LW. lia.
      * cbn [holds set_mem mm]. now apply load_store_same_n.
    + destruct AF as (L1 & L2 & KT).
      assert (z = 16).
      { destruct T as [[] a p| |]; try destruct KT. cbn [passed is_aggregate] in O5. unfold abi_size in O5. cbn in O5. exact O5. }
      split; [now apply wide_mem|]. split; [|split; [|split; [auto|lia]]].
      * split; [reflexivity|]. split; [reflexivity|]. intros y Hy. cbn [set_mem mm].
        rewrite !store_out by lia. reflexivity.
      * cbn [holds set_mem mm]. split; [|now apply load_store_same_n].
        rewrite load_store_out by lia. now apply load_store_same_n.
    + cbn [apart] in AP. unfold place_bytes. destruct W as [W1 W2].
      assert (EZ : z = abi_size T) by (rewrite AF in O5; destruct T; [discriminate AF| |]; cbn [passed] in O5; lia).
      replace (0 <? z) with true by lia. split; [now split|]. cbn [set_mem mm].
      pose proof (roundup_ge (abi_size T) 8 ltac:(lia)) as RG.
      split; [|split; [|split; [auto|lia]]].
      * split; [reflexivity|]. split; [reflexivity|]. intros y Hy. cbn [set_mem mm].
        rewrite !store_out; rewrite ?load_length, ?W1; lia.
      * cbn [holds set_mem mm]. rewrite load_store_same_n by apply load_length.
        rewrite !load_store_out; rewrite ?W1; try lia. apply load_ext. intros y Hy. apply M. lia.
  - discriminate P.
Qed.

Lemma holds_qwords_frame : forall m0 c c' src l k, holds_qwords m0 c src l k ->
  (forall r, In (Integer, r) l -> gpr c' r = gpr c r) -> (forall r, In (Sse, r) l -> xmm c' r = xmm c r) ->
  holds_qwords m0 c' src l k.
Proof.
  induction l as [|[e r] l IH]; intros k H G X; cbn [holds_qwords] in *; [exact I|].
  destruct e; try contradiction; destruct H as [H1 H2]; (split; [|apply IH; auto; intros; [apply G|apply X]; now right]).
  - rewrite G by now left. exact H1.
  - rewrite X by now left. exact H1.
Qed.

Lemma holds_frame : forall T rsp m0 s s' c c' x a, argument T = true -> arg_for T a ->
  (forall o z, x = LStack o z -> z = Z.max (abi_size (passed T)) (if is_aggregate T then 0 else 8)) ->
  within s x -> frame rsp s s' c c' -> holds rsp m0 c x a -> holds rsp m0 c' x a.
Proof.
  intros T rsp m0 s s' c c' x a HA AF Z (W1 & W2 & W3) (F1 & F2 & F3) H.
  destruct x as [r|r|q|o z|]; destruct a as [w|lo hi|src]; cbn [holds] in *; try contradiction.
  - rewrite F1; [exact H|]. apply W1. now left.
  - rewrite F2; [exact H|]. apply W2. now left.
  - eapply holds_qwords_frame; [exact H| |]; cbn [regs] in *; auto.
  - cbn [arg_for] in AF. specialize (Z o z eq_refl).
    assert (8 <= z) by (destruct T; [cbn [is_aggregate] in Z; lia|destruct AF as [_ []]|destruct AF as [_ []]]).
    rewrite <- H. apply load_ext. intros y Hy. apply F3. lia.
  - cbn [arg_for] in AF. specialize (Z o z eq_refl). destruct AF as (_ & _ & KT).
    assert (z = 16).
    { destruct T as [[] a p| |]; try destruct KT. cbn [passed is_aggregate] in Z. unfold abi_size in Z. cbn in Z. exact Z. }
    destruct H as [<- <-]. split; apply load_ext; intros y Hy; apply F3; lia.
  - rewrite <- H. apply load_ext. intros y Hy. apply F3. lia.
Qed.

Lemma frame_trans : forall rsp s1 s2 s3 c1 c2 c3, frame rsp s1 s2 c1 c2 -> frame rsp s2 s3 c2 c3 ->
  (p_int s1 <= p_int s2)%nat -> (p_sse s1 <= p_sse s2)%nat -> p_stack s1 <= p_stack s2 -> p_stack s2 <= p_stack s3 ->
  frame rsp s1 s3 c1 c3.
Proof.
  intros rsp s1 s2 s3 c1 c2 c3 (A1 & A2 & A3) (B1 & B2 & B3) H1 H2 H3 H4.
  split; [|split].
  - intros r Hr. rewrite B1 by lia. apply A1. exact Hr.
  - intros r Hr. rewrite B2 by lia. apply A2. exact Hr.
  - intros x Hx. rewrite B3 by lia. apply A3. lia.
Qed.

Lemma place_all_ok : forall ts s s' xs l rsp hi c c' m0,
  forallb argument ts = true -> allocate_all s ts = Some (s', xs) ->
  (p_int s <= 6)%nat -> (p_sse s <= 8)%nat -> 0 <= p_stack s -> p_stack s' <= hi ->
  Forall2 arg_for ts l -> Forall2 (apart rsp hi) ts l -> wide c ->
  (forall y, rsp + hi <= y \/ y < rsp - 24 -> mm c y = m0 y) ->
  place_all rsp c xs l = Some c' ->
  wide c' /\ frame rsp s s' c c' /\ Forall2 (holds rsp m0 c') xs l /\
  (p_int s <= p_int s' <= 6)%nat /\ (p_sse s <= p_sse s' <= 8)%nat /\ p_stack s <= p_stack s'.
Proof.
  induction ts as [|T ts IH]; intros s s' xs l rsp hi c c' m0 HA H I6 S8 P0 PH AF AP W M P; cbn [allocate_all forallb] in *.
  - injection H as <- <-. inversion AF; subst. cbn [place_all] in P. injection P as <-.
    split; [exact W|]. split; [split; [|split]; auto|]. split; [constructor|lia].
  - apply andb_true_iff in HA as [HA1 HA2].
    destruct (classify T) as [k|] eqn:E1; [|discriminate].
    destruct (allocate s k) as [[s2 x]|] eqn:E2; [|discriminate].
    destruct (allocate_all s2 ts) as [[s3 ys]|] eqn:E3; [|discriminate]. injection H as <- <-.
    inversion AF as [|? a ? l' AF1 AF2]; subst. inversion AP as [|? ? ? ? AP1 AP2]; subst.
    cbn [place_all] in P. destruct (place rsp c x a) as [c1|] eqn:P1; [|discriminate P].
    destruct (allocate_regs _ _ _ _ _ E1 E2 I6 S8) as (A1 & A2 & _).
    assert (HP : forallb parameter ts = true).
    { clear -HA2. induction ts as [|T ts IH]; cbn [forallb] in *; [reflexivity|].
      apply andb_true_iff in HA2 as [H1 H2]. rewrite IH by exact H2.
      destruct (argument_parts T H1) as (-> & _). reflexivity. }
    pose proof (all_stack _ _ _ _ HP E3) as ST.
    destruct (place_one _ _ _ _ _ _ _ hi _ _ _ HA1 E1 E2 I6 S8 P0 ltac:(lia) AF1 AP1 W M P1) as (Q1 & Q2 & Q3 & Q4 & Q5).
    destruct (IH _ _ _ _ _ hi _ c' m0 HA2 E3 ltac:(lia) ltac:(lia) ltac:(lia) PH AF2 AP2 Q1) as (R1 & R2 & R3 & R4 & R5 & R6).
    { intros y Hy. rewrite <- M by exact Hy. destruct Q2 as (_ & _ & F). apply F. lia. }
    { exact P. }
    split; [exact R1|]. split; [eapply frame_trans; eauto; lia|]. split; [|lia].
    constructor; [|exact R3].
    destruct (argument_parts T HA1) as (HPT & _). pose proof (allocate_stack _ _ _ _ _ HPT E1 E2) as O.
    eapply (holds_frame T); eauto. intros o z ->. cbn [on_stack] in O. tauto.
Qed.

(** ** The register save area *)

Lemma fold_store : forall (f : nat -> list Z) base stride w n b m,
  (forall r, length (f r) = w) -> Z.of_nat w <= stride ->
  let m' := fold_left (fun m r => store m (base + stride * Z.of_nat r) (f r)) (seq b n) m in
  (forall r k, (b <= r < b + n)%nat -> (k <= w)%nat -> load m' (base + stride * Z.of_nat r) k = firstn k (f r)) /\
  (forall x, x < base + stride * Z.of_nat b \/ base + stride * Z.of_nat (b + n) <= x -> m' x = m x).
Proof.
  intros f base stride w n. induction n as [|n IH]; intros b m L S; cbn [seq fold_left].
  - split; [lia|reflexivity].
  - destruct (IH (Datatypes.S b) (store m (base + stride * Z.of_nat b) (f b)) L S) as (H1 & H2).
    split.
    + intros r k Hr Hk. destruct (Nat.eq_dec r b) as [->|N]; [|apply H1; lia].
      rewrite <- (load_store_prefix m (base + stride * Z.of_nat b) (f b) k) by (rewrite L; lia).
      apply load_ext. intros x Hx. apply H2. left. nia.
    + intros x Hx. rewrite H2 by nia. apply store_out. rewrite L. nia.
Qed.

Definition saved (m : mem) (area : Z) (c : machine) (base hi : Z) (sse : Prop) : Prop :=
  (forall r, (r < 6)%nat -> load m (area + 8 * Z.of_nat r) 8 = gpr c r) /\
  (sse -> forall r, (r < 8)%nat -> load m (area + 48 + 16 * Z.of_nat r) 8 = firstn 8 (xmm c r)) /\
  (forall x, base <= x < base + hi -> m x = mm c x).

Lemma save_registers_ok : forall al c area base hi, wide c -> area + 176 <= base ->
  saved (save_registers al c area) area c base hi (al <> 0).
Proof.
  intros al c area base hi [W1 W2] H. unfold save_registers.
  set (m := if al =? 0 then mm c else _).
  destruct (fold_store (gpr c) area 8 8 6 0 m W1 ltac:(lia)) as (G1 & G2).
  destruct (fold_store (xmm c) (area + 48) 16 16 8 0 (mm c) W2 ltac:(lia)) as (X1 & X2).
  split; [|split].
  - intros r Hr. rewrite G1 by lia. rewrite <- (W1 r). apply firstn_all.
  - intros Hal r Hr. rewrite <- (X1 r 8%nat) by lia. apply load_ext. intros x Hx. rewrite G2 by lia.
    unfold m. replace (al =? 0) with false by lia. reflexivity.
  - intros x Hx. rewrite G2 by lia. unfold m. destruct (al =? 0); [reflexivity|]. rewrite X2 by lia. reflexivity.
Qed.

(** ** Fetching *)

(** The va_list that continues after the parameters allocated up to [s]. *)
Definition follows (base area : Z) (s : pstate) (v : va_list) : Prop :=
  gp v = 8 * Z.of_nat (p_int s) /\ fp v = 48 + 16 * Z.of_nat (p_sse s) /\
  overflow v = base + roundup (p_stack s) 8 /\ save v = area.

Definition value_size (T : tree) : nat := Z.to_nat (abi_size (passed T)).
(** The object representation of an argument and of a fetched value. *)
Definition arg_value (m : mem) (T : tree) (a : arg) : list Z :=
  match a with
  | AWord w => firstn (value_size T) w
  | ALong lo hi => lo ++ hi
  | AAddr src => load m src (value_size T)
  end.
Definition contents (m : mem) (T : tree) (f : fetched) : list Z :=
  match f with
  | FWords w => firstn (value_size T) w
  | FAt a => load m a (value_size T)
  end.

(** The fetch goes to the place where the caller put the argument: long doubles at a
    multiple of 16, no alignment beyond 16. *)
Definition in_step (s : pstate) (T : tree) : Prop :=
  match T with
  | TLeaf CLongDouble _ _ => (16 | roundup (p_stack s) 8)
  | TLeaf _ _ _ => True
  | _ => abi_align T <= 16
  end.

Lemma requirements_count : forall l i s, aggregate_requirements l = Some (i, s) ->
  i = count Integer l /\ s = count Sse l.
Proof.
  induction l as [|k l IH]; intros i s H; cbn [aggregate_requirements] in H.
  - injection H as <- <-. auto.
  - destruct k; try discriminate H; destruct (aggregate_requirements l) as [[i' s']|]; try discriminate H;
      injection H as <- <-; destruct (IH _ _ eq_refl) as [-> ->]; auto.
Qed.

Lemma copy_qwords_ok : forall l ii ss q M m c area base hi dst src i m0,
  assign_qwords l ii ss = Some q -> holds_qwords m0 c src q i -> aggregate_requirements l <> None ->
  saved M area c base hi (0 < count Sse l)%nat -> 0 <= i -> dst + (i + Z.of_nat (length l)) * 8 <= area ->
  (ii + count Integer l <= 6)%nat -> (ss + count Sse l <= 8)%nat ->
  (forall y, area <= y -> m y = M y) ->
  let m' := copy_qwords m dst (area + 8 * Z.of_nat ii) (area + 48 + 16 * Z.of_nat ss) l i in
  (forall y, y < dst + i * 8 \/ dst + (i + Z.of_nat (length l)) * 8 <= y -> m' y = m y) /\
  load m' (dst + i * 8) (length l * 8) = load m0 (src + i * 8) (length l * 8).
Proof.
  induction l as [|k l IH]; intros ii ss q M m c area base hi dst src i m0 A H R SV I0 D B1 B2 MM.
  - split; reflexivity.
  - cbn [aggregate_requirements assign_qwords] in *.
    assert (R' : aggregate_requirements l <> None) by (destruct k; destruct (aggregate_requirements l); congruence).
    destruct SV as (S1 & S2 & S3). change (length (k :: l)) with (S (length l)) in *.
    replace (S (length l) * 8)%nat with (8 + length l * 8)%nat by lia.
    unfold count in *.
    assert (STEP : forall w ip sp ii' ss' q',
      w = load m0 (src + i * 8) 8 -> length w = 8%nat ->
      assign_qwords l ii' ss' = Some q' -> holds_qwords m0 c src q' (i + 1) ->
      saved M area c base hi (0 < count Sse l)%nat ->
      (ii' + count Integer l <= 6)%nat -> (ss' + count Sse l <= 8)%nat ->
      ip = area + 8 * Z.of_nat ii' -> sp = area + 48 + 16 * Z.of_nat ss' ->
      let m' := copy_qwords (store m (dst + i * 8) w) dst ip sp l (i + 1) in
      (forall y, y < dst + i * 8 \/ dst + (i + Z.of_nat (S (length l))) * 8 <= y -> m' y = m y) /\
      load m' (dst + i * 8) (8 + length l * 8) = load m0 (src + i * 8) (8 + length l * 8)).
    { intros w ip sp ii' ss' q' Ew Lw A' H' SV' C1 C2 -> ->.
      destruct (IH _ _ _ M (store m (dst + i * 8) w) c area base hi dst src (i + 1) m0 A' H' R' SV' ltac:(lia) ltac:(lia) C1 C2) as (J1 & J2).
      { intros y Hy. rewrite store_out by (rewrite Lw; lia). auto. }
      split.
      - intros y Hy. rewrite J1 by lia. apply store_out. rewrite Lw. lia.
      - rewrite !load_app. f_equal.
        + rewrite <- Ew. transitivity (load (store m (dst + i * 8) w) (dst + i * 8) 8).
          * apply load_ext. intros y Hy. apply J1. lia.
          * now apply load_store_same_n.
        + replace (dst + i * 8 + Z.of_nat 8) with (dst + (i + 1) * 8) by lia. rewrite J2. f_equal. lia. }
    destruct k; try congruence.
    + destruct (assign_qwords l (S ii) ss) as [q'|] eqn:A'; [|discriminate A]. injection A as <-.
      cbn [holds_qwords] in H. destruct H as [H1 H2]. cbn [filter klass_eqb length] in B1, B2.
      cbn [copy_qwords]. apply (STEP _ _ _ (S ii) ss q'); auto; unfold count; try lia.
      * rewrite <- H1, <- S1 by lia. apply load_ext. intros y Hy. apply MM. lia.
      * split; [exact S1|]. split; [|exact S3]. intros P. apply S2. cbn [filter klass_eqb length]. exact P.
    + destruct (assign_qwords l ii (S ss)) as [q'|] eqn:A'; [|discriminate A]. injection A as <-.
      cbn [holds_qwords] in H. destruct H as [H1 H2]. cbn [filter klass_eqb length] in B1, B2.
      cbn [copy_qwords]. apply (STEP _ _ _ ii (S ss) q'); auto; unfold count; try lia.
      * rewrite <- H1, <- S2; [|cbn [filter klass_eqb length]; lia|lia]. apply load_ext. intros y Hy. apply MM. lia.
      * split; [exact S1|]. split; [|exact S3]. intros P. apply S2. cbn [filter klass_eqb length]. lia.
Qed.

Lemma some3 : forall (A B C : Type) (a a' : A) (b b' : B) (c c' : C),
  Some (a, b, c) = Some (a', b', c') -> a = a' /\ b = b' /\ c = c'.
Proof. intros. split; [congruence|split; congruence]. Qed.
Lemma pair2 : forall (A B : Type) (a a' : A) (b b' : B), (a, b) = (a', b') -> a = a' /\ b = b'.
Proof. intros. split; congruence. Qed.

Lemma count_le : forall k l, (count k l <= length l)%nat.
Proof.
  intros k l. unfold count. induction l as [|x l IH]; [reflexivity|]. cbn [filter length]. destruct (klass_eqb k x); cbn [length]; lia.
Qed.

Lemma memory_aggregate_ok : forall base area s v T v' f o,
  argument T = true -> is_aggregate T = true -> abi_align T <= 16 -> (16 | base) ->
  follows base area s v -> o = roundup (p_stack s) (Z.max (abi_align T) 8) ->
  load_memory_aggregate v (abi_size T) (abi_align T) = (v', f) ->
  f = FAt (base + o) /\
  follows base area {| p_int := p_int s; p_sse := p_sse s; p_stack := o + abi_size T |} v'.
Proof.
  intros base area s v T v' f o HA IA AL B (F1 & F2 & F3 & F4) EO H.
  destruct (argument_parts T HA) as (_ & C & _). destruct (conf_align T C) as (P2 & _ & _ & A1 & _).
  assert (EA : (if 8 <? abi_align T then Z.land (overflow v + (abi_align T - 1)) (- abi_align T) else overflow v) = base + o).
  { rewrite F3. destruct (8 <? abi_align T) eqn:E8.
    - assert (E16 : abi_align T = 16).
      { destruct P2 as (k & Hk & E). rewrite E in E8, AL |- *.
        assert (3 < k) by (apply (Z.pow_lt_mono_r_iff 2); lia).
        assert (k <= 4) by (apply (Z.pow_le_mono_r_iff 2); lia). replace k with 4 by lia. reflexivity. }
      rewrite E16 in *. rewrite align_16 by exact B. rewrite EO. reflexivity.
    - rewrite EO. replace (Z.max (abi_align T) 8) with 8 by lia. reflexivity. }
  unfold load_memory_aggregate in H. rewrite EA in H. injection H as <- <-.
  split; [reflexivity|]. unfold follows. cbn [gp fp overflow save p_int p_sse p_stack].
  rewrite pad_roundup by lia. rewrite roundup_next; [lia|].
  rewrite EO. destruct (Z.max_spec (abi_align T) 8) as [[L ->]|[L ->]]; [apply roundup_mult|].
  apply Z.divide_trans with (abi_align T); [|apply roundup_mult].
  apply pow2_div; [exact pow2_8|exact P2|lia].
Qed.

Lemma mask_value : forall c a p w w', mask c w = Some w' -> length w = 8%nat ->
  firstn (value_size (TLeaf c a p)) w' = firstn (value_size (TLeaf c a p)) w.
Proof.
  intros c a p w w' H L. unfold mask in H. destruct (mask_size c) as [n|] eqn:E; [|discriminate H]. injection H as <-.
  assert (EV : value_size (TLeaf c a p) = n) by (destruct c; cbn in E; try discriminate E; injection E as <-; reflexivity).
  assert (N8 : (n <= 8)%nat) by (destruct c; cbn in E; try discriminate E; injection E as <-; lia).
  rewrite EV, firstn_app, firstn_firstn, Nat.min_id, firstn_length_le, Nat.sub_diag, firstn_O, app_nil_r by lia.
  reflexivity.
Qed.

Lemma fetch_one : forall T k s s' x a rsp hi area tmp c m0 M v v' M' f,
  argument T = true -> classify T = Some k -> allocate s k = Some (s', x) ->
  (p_int s <= 6)%nat -> (p_sse s <= 8)%nat -> 0 <= p_stack s -> p_stack s' <= hi ->
  arg_for T a -> in_step s T -> wide c -> holds rsp m0 c x a ->
  (16 | rsp) -> tmp + 16 <= area -> saved M area c rsp hi (0 < p_sse s')%nat ->
  follows rsp area s v -> fetch M tmp v T = Some (v', M', f) ->
  follows rsp area s' v' /\ contents M' T f = arg_value m0 T a /\
  (forall y, y < tmp \/ tmp + 16 <= y -> M' y = M y).
Proof.
  intros T k s s' x a rsp hi area tmp c m0 M v v' M' f HA E1 E2 I6 S8 P0 PH AF ST W H B16 TA SV FO F.
  destruct (argument_parts T HA) as (HP & C & V & PS & LS & LA).
  destruct SV as (SV1 & SV2 & SV3).
  pose proof FO as (F1 & F2 & F3 & F4).
  assert (MEMORY : forall o, is_aggregate T = true -> o = roundup (p_stack s) (Z.max (abi_align T) 8) ->
    s' = {| p_int := p_int s; p_sse := p_sse s; p_stack := o + abi_size T |} -> x = LStack o (abi_size T) ->
    (let (v, f) := load_memory_aggregate v (abi_size T) (abi_align T) in Some (v, M, f)) = Some (v', M', f) ->
    follows rsp area s' v' /\ contents M' T f = arg_value m0 T a /\ (forall y, y < tmp \/ tmp + 16 <= y -> M' y = M y)).
  { intros o IA EO -> -> HM. destruct (load_memory_aggregate v (abi_size T) (abi_align T)) as [v1 f1] eqn:LM.
    injection HM as <- <- <-.
    assert (AL : abi_align T <= 16) by (destruct T; [discriminate IA|exact ST|exact ST]).
    destruct (memory_aggregate_ok rsp area s v T v1 f1 o HA IA AL B16 FO EO LM) as (-> & FO').
    split; [exact FO'|]. split; [|reflexivity]. cbn [p_stack] in PH.
    destruct a as [w|lo hi'|src]; cbn [arg_for] in AF; [destruct T; [discriminate IA| |]; destruct AF as [_ []]|
      destruct T as [[]| |]; try discriminate IA; destruct AF as (_ & _ & [])|].
    cbn [holds] in H. unfold contents, arg_value, value_size.
    assert (EP : passed T = T) by (destruct T; [discriminate IA|reflexivity|reflexivity]). rewrite EP, <- H.
    apply load_ext. intros y Hy. apply SV3. assert (0 <= o) by (rewrite EO; apply Z.le_trans with (p_stack s); [lia|apply roundup_ge; lia]). lia. }
  assert (AGG : is_aggregate T = true ->
    match classify T with
    | Some (PAgg k r size al) =>
      match allocate (entry_state false) (PAgg k r size al) with
      | Some (_, LQwords q) => load_register_aggregate M tmp v (map fst q) size al
      | Some (_, LStack _ _) => let (v, f) := load_memory_aggregate v size al in Some (v, M, f)
      | _ => None
      end
    | _ => None
    end = Some (v', M', f) ->
    follows rsp area s' v' /\ contents M' T f = arg_value m0 T a /\ (forall y, y < tmp \/ tmp + 16 <= y -> M' y = M y)).
  { clear F. intros IA F. destruct (classify_aggregate T _ HA IA E1) as (ac & r & -> & HQ). rewrite E1 in F.
    assert (MAX : 1 <= Z.max (abi_align T) 8) by lia.
    destruct ac as [|l].
    - cbn [allocate] in E2, F. unfold stack_allocate in E2, F. injection E2 as <- <-.
      apply (MEMORY _ IA eq_refl); [now rewrite pad_roundup by lia|now rewrite pad_roundup by lia|exact F].
    - destruct HQ as (HR & HL & H2). destruct (qword_requirements_count _ _ _ HR) as (R1 & R2 & _).
      cbn [req0 r_int r_sse Nat.add] in R1, R2.
      assert (C2 : (count Integer l <= 2 /\ count Sse l <= 2)%nat)
        by (split; (eapply Nat.le_trans; [apply count_le|exact H2])).
      cbn [allocate entry_state p_int p_sse] in E2, F. rewrite R1, R2 in F.
      replace (0 + count Integer l <=? 6)%nat with true in F by lia.
      replace (0 + count Sse l <=? 8)%nat with true in F by lia. cbn [andb] in F.
      destruct (r_msize r =? 0) eqn:EM.
      2:{ rewrite andb_false_r in E2. unfold stack_allocate in E2, F. injection E2 as <- <-.
          apply (MEMORY _ IA eq_refl); [now rewrite pad_roundup by lia|now rewrite pad_roundup by lia|exact F]. }
      destruct (assign_qwords l 0 0) as [q0|] eqn:A0; [|discriminate F].
      destruct (assign_qwords_regs _ _ _ _ A0) as (A01 & _). rewrite A01 in F.
      unfold load_register_aggregate in F.
      destruct (aggregate_requirements l) as [[ni ns]|] eqn:RQ; [|discriminate F].
      destruct (requirements_count _ _ _ RQ) as [-> ->]. rewrite F1, F2 in F. rewrite R1, R2, andb_true_r in E2.
      destruct ((p_int s + count Integer l <=? 6)%nat && (p_sse s + count Sse l <=? 8)%nat) eqn:FIT.
      + replace ((48 <? 8 * Z.of_nat (p_int s) + 8 * Z.of_nat (count Integer l)) ||
                 (176 <? 48 + 16 * Z.of_nat (p_sse s) + 16 * Z.of_nat (count Sse l))) with false in F by lia.
        destruct (assign_qwords l (p_int s) (p_sse s)) as [q|] eqn:A; [|discriminate E2]. injection E2 as <- <-.
        apply some3 in F as (<- & <- & <-). split.
        { unfold follows. cbn [gp fp overflow save with_int with_sse p_int p_sse p_stack]. lia. }
        destruct a as [| |src]; try contradiction. cbn [holds] in H.
        replace (save v + 8 * Z.of_nat (p_int s)) with (area + 8 * Z.of_nat (p_int s)) by lia.
        replace (save v + (48 + 16 * Z.of_nat (p_sse s))) with (area + 48 + 16 * Z.of_nat (p_sse s)) by lia.
        destruct (copy_qwords_ok l (p_int s) (p_sse s) q M M c area rsp hi tmp src 0 m0 A H ltac:(congruence)) as (Q1 & Q2);
          try lia; auto.
        { split; [exact SV1|]. split; [|exact SV3]. intros Hs. apply SV2. cbn [with_sse with_int p_sse]. lia. }
        split; [|intros y Hy; apply Q1; lia].
        unfold contents, arg_value, value_size.
        assert (EP : passed T = T) by (destruct T; [discriminate IA|reflexivity|reflexivity]). rewrite EP.
        pose proof (roundup_ge (abi_size T) 8 ltac:(lia)) as RG.
        replace tmp with (tmp + 0 * 8) at 2 by lia. replace src with (src + 0 * 8) by lia.
        rewrite <- (load_firstn _ _ (length l * 8)) by lia. rewrite Q2. apply load_firstn. lia.
      + replace ((48 <? 8 * Z.of_nat (p_int s) + 8 * Z.of_nat (count Integer l)) ||
                 (176 <? 48 + 16 * Z.of_nat (p_sse s) + 16 * Z.of_nat (count Sse l))) with true in F by lia.
        unfold stack_allocate in E2. injection E2 as <- <-.
        apply (MEMORY _ IA eq_refl); [now rewrite pad_roundup by lia|now rewrite pad_roundup by lia|exact F]. }
  assert (INT : forall w, k = PInt -> (match T with TLeaf c _ _ => c <> CLongDouble | _ => False end) ->
    load_integer_vararg M v = (v', w) -> follows rsp area s' v' /\ exists w0, a = AWord w0 /\ w = w0).
  { clear F. intros w -> LT F. cbn [allocate] in E2. unfold load_integer_vararg in F. rewrite F1 in F.
    destruct a as [w0|lo hi'|src]; cbn [arg_for] in AF;
      [|destruct T as [[]| |]; try destruct LT; try (destruct AF as (_ & _ & []); fail); congruence|destruct T; [discriminate AF|destruct LT|destruct LT]].
    destruct AF as [LW _].
    destruct (p_int s + 1 <=? 6)%nat eqn:E.
    - injection E2 as <- <-. replace (48 <=? 8 * Z.of_nat (p_int s)) with false in F by lia. apply pair2 in F as (<- & <-).
      split; [unfold follows; cbn [gp fp overflow save with_int p_int p_sse p_stack]; lia|].
      exists w0. split; [reflexivity|]. cbn [holds] in H. rewrite <- H, F4. apply SV1. lia.
    - unfold stack_allocate in E2. injection E2 as <- <-.
      replace (48 <=? 8 * Z.of_nat (p_int s)) with true in F by lia. apply pair2 in F as (<- & <-).
      rewrite pad_roundup in * by lia. pose proof (roundup_ge (p_stack s) 8 ltac:(lia)) as RG. cbn [p_stack] in PH.
      split; [unfold follows; cbn [gp fp overflow save p_int p_sse p_stack]; rewrite roundup_next by apply roundup_mult;
              change (roundup 8 8) with 8; lia|].
      exists w0. split; [reflexivity|]. cbn [holds] in H. rewrite <- H, F3. apply load_ext. intros y Hy. apply SV3. lia. }
  assert (SSE : forall w, k = PSse -> (match T with TLeaf c _ _ => c <> CLongDouble | _ => False end) ->
    load_sse_vararg M v = (v', w) -> follows rsp area s' v' /\ exists w0, a = AWord w0 /\ w = w0).
  { clear F. intros w -> LT F. cbn [allocate] in E2. unfold load_sse_vararg in F. rewrite F2 in F.
    destruct a as [w0|lo hi'|src]; cbn [arg_for] in AF;
      [|destruct T as [[]| |]; try destruct LT; try (destruct AF as (_ & _ & []); fail); congruence|destruct T; [discriminate AF|destruct LT|destruct LT]].
    destruct AF as [LW _].
    destruct (p_sse s + 1 <=? 8)%nat eqn:E.
    - injection E2 as <- <-. replace (176 <=? 48 + 16 * Z.of_nat (p_sse s)) with false in F by lia. apply pair2 in F as (<- & <-).
      split; [unfold follows; cbn [gp fp overflow save with_sse p_int p_sse p_stack]; lia|].
      exists w0. split; [reflexivity|]. cbn [holds] in H. rewrite <- H, F4, Z.add_assoc. apply SV2; cbn [with_sse p_sse]; lia.
    - unfold stack_allocate in E2. injection E2 as <- <-.
      replace (176 <=? 48 + 16 * Z.of_nat (p_sse s)) with true in F by lia. apply pair2 in F as (<- & <-).
      rewrite pad_roundup in * by lia. pose proof (roundup_ge (p_stack s) 8 ltac:(lia)) as RG. cbn [p_stack] in PH.
      split; [unfold follows; cbn [gp fp overflow save p_int p_sse p_stack]; rewrite roundup_next by apply roundup_mult;
              change (roundup 8 8) with 8; lia|].
      exists w0. split; [reflexivity|]. cbn [holds] in H. rewrite <- H, F3. apply load_ext. intros y Hy. apply SV3. lia. }
  destruct T as [cd al p|un al ms|al n e]; [|apply AGG; [reflexivity|exact F]|apply AGG; [reflexivity|exact F]].
  clear AGG MEMORY.
  assert (SCALAR : forall (ld : va_list * list Z), (forall w, ld = (v', w) -> follows rsp area s' v' /\ exists w0, a = AWord w0 /\ w = w0) ->
    (let (v, w) := ld in match mask cd w with Some w => Some (v, M, FWords w) | None => None end) = Some (v', M', f) ->
    follows rsp area s' v' /\ contents M' (TLeaf cd al p) f = arg_value m0 (TLeaf cd al p) a /\
    (forall y, y < tmp \/ tmp + 16 <= y -> M' y = M y)).
  { intros [v1 w1] HL HF. destruct (mask cd w1) as [w2|] eqn:EM; [|discriminate HF]. injection HF as <- <- <-.
    destruct (HL w1 eq_refl) as (G1 & w0 & -> & ->). split; [exact G1|]. split; [|reflexivity].
    cbn [contents arg_value]. eapply mask_value; [exact EM|]. destruct AF as [LW _]. exact LW. }
  destruct cd; cbn [fetch] in F; try discriminate F; cbn [classify] in E1;
    try (injection E1 as E1; symmetry in E1; (eapply SCALAR; [|exact F]); intros w; [apply INT; [exact E1|discriminate]]);
    try (injection E1 as E1; symmetry in E1; (eapply SCALAR; [|exact F]); intros w; [apply SSE; [exact E1|discriminate]]).
  - (* memory *) exfalso. unfold conforming in C. cbn [usable] in C. rewrite andb_false_r in C. discriminate C.
  - (* long double *)
    injection E1 as <-. cbn [allocate] in E2. unfold stack_allocate in E2. injection E2 as <- <-.
    apply some3 in F as (<- & <- & <-). cbn [in_step] in ST. rewrite pad_roundup in * by lia. rewrite (roundup_16_8 _ ST) in *.
    pose proof (roundup_ge (p_stack s) 8 ltac:(lia)) as RG. cbn [p_stack] in PH.
    split; [unfold follows; cbn [gp fp overflow save p_int p_sse p_stack]; rewrite roundup_next by apply roundup_mult;
            change (roundup 16 8) with 16; lia|].
    split; [|reflexivity].
    destruct a as [w|lo hi'|src]; cbn [arg_for] in AF; [destruct AF as (_ & AF & _); congruence| |discriminate AF].
    cbn [holds] in H. destruct H as [H1 H2]. cbn [contents arg_value]. rewrite F3.
    change (value_size (TLeaf CLongDouble al p)) with 16%nat.
    rewrite firstn_all2 by (rewrite app_length, !load_length; lia).
    rewrite <- H1, <- H2. f_equal; apply load_ext; intros y Hy; apply SV3; lia.
  - (* va_list *)
    destruct (p =? 0); [|discriminate E1]. injection E1 as E1. symmetry in E1.
    destruct (load_integer_vararg M v) as [v1 w1] eqn:EL. apply some3 in F as (<- & <- & <-).
    destruct (INT w1 E1 ltac:(discriminate) eq_refl) as (G1 & w0 & -> & ->).
    split; [exact G1|]. split; reflexivity.
Qed.
