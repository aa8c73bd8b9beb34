(** C41: a variadic callee gets the arguments passed, in order. *)

From Coq Require Import ZArith Lia Bool List ZifyBool ZifyNat.
From Verif Require Import IrType LayoutModel PropLayout ClassModel ClassSpec ClassProofs PropClass PropParams
  VarargModel VarargProofs.
Import ListNotations.
Open Scope Z_scope.

(** The callee fetches a list of types in order.  Before fetch number [i] the rest of the
    program turns memory [m] into [prog i m]; every fetched value is read at once. *)
Fixpoint fetch_all (prog : nat -> mem -> mem) (i : nat) (m : mem) (tmp : Z) (v : va_list) (ts : list tree)
  : option (list (list Z)) :=
  match ts with
  | [] => Some []
  | T :: ts =>
    match fetch (prog i m) tmp v T with
    | None => None
    | Some (v, m, f) =>
      match fetch_all prog (S i) m tmp v ts with
      | None => None
      | Some l => Some (contents m T f :: l)
      end
    end
  end.

(** The rest of the program leaves the save area and the arguments on the stack alone. *)
Definition keeps (prog : nat -> mem -> mem) (area base hi : Z) : Prop :=
  forall i m x, area <= x < area + 176 \/ base <= x < base + hi -> prog i m x = m x.

(** [in_step] (VarargProofs.v) along a list of types: a long double is passed at a
    stack offset that is a multiple of 16 without padding, no aggregate needs an
    alignment above 16. *)
Definition in_steps (s : pstate) (ts : list tree) : Prop :=
  forall l1 T l2 s1 xs, ts = l1 ++ T :: l2 -> allocate_all s l1 = Some (s1, xs) -> in_step s1 T.

Lemma in_steps_cons : forall s T ts k s' x, in_steps s (T :: ts) -> classify T = Some k ->
  allocate s k = Some (s', x) -> in_step s T /\ in_steps s' ts.
Proof.
  intros s T ts k s' x H E1 E2. split.
  - apply (H [] T ts s []); reflexivity.
  - intros l1 T' l2 s1 xs -> A. apply (H (T :: l1) T' l2 s1 (x :: xs)); [reflexivity|].
    cbn [allocate_all]. now rewrite E1, E2, A.
Qed.

Definition in_area (area rsp hi x : Z) : Prop := area <= x < area + 176 \/ rsp <= x < rsp + hi.

Lemma saved_ext : forall m m' area c rsp hi P, (forall x, in_area area rsp hi x -> m' x = m x) ->
  saved m area c rsp hi P -> saved m' area c rsp hi P.
Proof.
  intros m m' area c rsp hi P E (H1 & H2 & H3). unfold in_area in E. split; [|split].
  - intros r Hr. rewrite <- H1 by exact Hr. apply load_ext. intros y Hy. apply E. lia.
  - intros HP r Hr. rewrite <- H2 by assumption. apply load_ext. intros y Hy. apply E. lia.
  - intros x Hx. rewrite <- H3 by exact Hx. apply E. lia.
Qed.

Lemma arguments_parameters : forall ts, forallb argument ts = true -> forallb parameter ts = true.
Proof.
  induction ts as [|T ts IH]; cbn [forallb]; [reflexivity|]. intros H. apply andb_true_iff in H as [H1 H2].
  destruct (argument_parts T H1) as (-> & _). now apply IH.
Qed.

Lemma all_regs : forall ts s s' xs, allocate_all s ts = Some (s', xs) ->
  (p_int s <= 6)%nat -> (p_sse s <= 8)%nat -> (p_int s <= p_int s' <= 6)%nat /\ (p_sse s <= p_sse s' <= 8)%nat.
Proof.
  induction ts as [|T ts IH]; intros s s' xs H I6 S8; cbn [allocate_all] in H.
  - injection H as <- <-. lia.
  - destruct (classify T) as [k|] eqn:E1; [|discriminate].
    destruct (allocate s k) as [[s2 x]|] eqn:E2; [|discriminate].
    destruct (allocate_all s2 ts) as [[s3 ys]|] eqn:E3; [|discriminate]. injection H as <- <-.
    destruct (allocate_regs _ _ _ _ _ E1 E2 I6 S8) as (A1 & A2 & _).
    destruct (IH _ _ _ E3 ltac:(lia) ltac:(lia)). lia.
Qed.

Lemma fetch_all_ok : forall ts s s' xs l prog i rsp hi area tmp c m0 M v out,
  forallb argument ts = true -> allocate_all s ts = Some (s', xs) ->
  (p_int s <= 6)%nat -> (p_sse s <= 8)%nat -> 0 <= p_stack s -> p_stack s' <= hi ->
  Forall2 arg_for ts l -> in_steps s ts -> wide c -> Forall2 (holds rsp m0 c) xs l ->
  (16 | rsp) -> tmp + 16 <= area -> area + 176 <= rsp -> keeps prog area rsp hi ->
  saved M area c rsp hi (0 < p_sse s')%nat -> follows rsp area s v ->
  fetch_all prog i M tmp v ts = Some out ->
  out = map (fun p => arg_value m0 (fst p) (snd p)) (combine ts l).
Proof.
  induction ts as [|T ts IH];
    intros s s' xs l prog i rsp hi area tmp c m0 M v out HA H I6 S8 P0 PH AF ST W HO B TA AR K SV FO F;
    cbn [allocate_all forallb fetch_all] in *.
  - injection F as <-. reflexivity.
  - apply andb_true_iff in HA as [HA1 HA2].
    destruct (classify T) as [k|] eqn:E1; [|discriminate].
    destruct (allocate s k) as [[s2 x]|] eqn:E2; [|discriminate].
    destruct (allocate_all s2 ts) as [[s3 ys]|] eqn:E3; [|discriminate]. injection H as <- <-.
    inversion AF as [|? a ? l' AF1 AF2]; subst. inversion HO as [|? ? ? ? HO1 HO2]; subst.
    destruct (in_steps_cons _ _ _ _ _ _ ST E1 E2) as (ST1 & ST2).
    destruct (allocate_regs _ _ _ _ _ E1 E2 I6 S8) as (A1 & A2 & _).
    destruct (all_regs _ _ _ _ E3 ltac:(lia) ltac:(lia)) as (A3 & A4).
    pose proof (all_stack _ _ _ _ (arguments_parameters _ HA2) E3) as A5.
    destruct (argument_parts T HA1) as (HPT & _). pose proof (allocate_stack _ _ _ _ _ HPT E1 E2) as A6.
    assert (A7 : p_stack s <= p_stack s2).
    { destruct x; cbn [on_stack] in A6; destruct (is_aggregate T); lia. }
    destruct (fetch (prog i M) tmp v T) as [[[v1 M1] f]|] eqn:EF; [|discriminate F].
    destruct (fetch_all prog (S i) M1 tmp v1 ts) as [out'|] eqn:EA; [|discriminate F]. injection F as <-.
    assert (SV' : saved (prog i M) area c rsp hi (0 < p_sse s3)%nat).
    { eapply saved_ext; [|exact SV]. intros y Hy. apply K. exact Hy. }
    destruct (fetch_one T k s s2 x a rsp hi area tmp c m0 (prog i M) v v1 M1 f) as (R1 & R2 & R3); auto; try lia.
    { destruct SV' as (Q1 & Q2 & Q3). split; [exact Q1|]. split; [|exact Q3]. intros Hs. apply Q2. lia. }
    cbn [combine map fst snd]. f_equal; [exact R2|].
    eapply (IH s2 s3 ys l' prog (S i) rsp hi area tmp c m0 M1 v1); eauto; try lia.
    eapply saved_ext; [|exact SV']. intros y Hy. apply R3. unfold in_area in Hy. lia.
Qed.

Lemma callee_al_nonzero : forall ts xs al, al <> 0 -> callee_al ts xs al <> 0.
Proof.
  induction ts as [|T ts IH]; intros xs al H; [exact H|].
  destruct T as [c a p| |], xs as [|[] xs]; cbn [callee_al]; auto.
  apply IH. destruct (mask_size c) as [[|[|[|[|[|[|[|[|[|]]]]]]]]]|]; auto; discriminate.
Qed.

Lemma holds_qwords_reg : forall m0 c w src q k, (forall r, In (Integer, r) q -> (1 <= r)%nat) ->
  holds_qwords m0 c src q k -> holds_qwords m0 (set_gpr c 0 w) src q k.
Proof.
  intros m0 c w src q. induction q as [|[kk r] q IH]; intros k R H; cbn [holds_qwords] in *; [exact I|].
  destruct kk; try contradiction; destruct H as [H1 H2]; (split; [|apply IH; [intros; apply R; now right|exact H2]]).
  - cbn [set_gpr gpr]. rewrite upd_other by (specialize (R r (or_introl eq_refl)); lia). exact H1.
  - exact H1.
Qed.

Lemma holds_result : forall ts s s' xs rsp m0 c w l, allocate_all s ts = Some (s', xs) ->
  (1 <= p_int s <= 6)%nat -> (p_sse s <= 8)%nat ->
  Forall2 (holds rsp m0 c) xs l -> Forall2 (holds rsp m0 (set_gpr c 0 w)) xs l.
Proof.
  induction ts as [|T ts IH]; intros s s' xs rsp m0 c w l H I6 S8 HO; cbn [allocate_all] in H.
  - injection H as <- <-. inversion HO; constructor.
  - destruct (classify T) as [k|] eqn:E1; [|discriminate].
    destruct (allocate s k) as [[s2 x]|] eqn:E2; [|discriminate].
    destruct (allocate_all s2 ts) as [[s3 ys]|] eqn:E3; [|discriminate]. injection H as <- <-.
    inversion HO as [|? a ? l' HO1 HO2]; subst.
    destruct (allocate_regs _ _ _ _ _ E1 E2 (proj2 I6) S8) as (A1 & A2 & _).
    destruct (regs_within _ _ _ _ _ E1 E2 (proj2 I6) S8) as (W1 & _).
    constructor; [|eapply IH; eauto; lia].
    destruct x as [r|r|q|o z|]; destruct a as [w'|lo hi'|src]; cbn [holds] in *; try contradiction;
      cbn [set_gpr gpr xmm mm]; auto.
    + rewrite upd_other; [exact HO1|]. specialize (W1 r (or_introl eq_refl)). lia.
    + apply holds_qwords_reg; [|exact HO1]. intros r Hr. specialize (W1 r Hr). lia.
Qed.

Lemma Forall2_len : forall A B (R : A -> B -> Prop) l l', Forall2 R l l' -> length l = length l'.
Proof. induction 1; cbn [length]; lia. Qed.
Lemma app_inj_length : forall A (a b c d : list A), a ++ b = c ++ d -> length a = length c -> a = c /\ b = d.
Proof.
  induction a as [|x a IH]; intros b [|y c] d H L; cbn [app length] in *; try discriminate L; [auto|].
  injection H as -> H. destruct (IH b c d H ltac:(lia)) as [-> ->]. auto.
Qed.

Definition is_some {A} (o : option A) : bool := match o with Some _ => true | None => false end.

(** C41.  A caller with its stack pointer at [rsp] passes the arguments [l1 ++ l2] to a
    function with named parameters [ts1]; [l2] are the variadic ones, of (promoted) types
    [ts2].  The callee has the register save area at [area] and the temporary of va_arg
    at [tmp], both below the arguments; on entry it may have written anything below the
    arguments.  va_start followed by one va_arg for each type in [ts2], with any other
    work in between, gives the values of [l2] in order. *)
Theorem c41_fetched_partial :
  forall result rsp c ts1 ts2 l1 l2 c1 al s1 xs1 c2 area tmp prog out,
  let s0 := entry_state (is_some result) in
  forallb argument (ts1 ++ ts2) = true -> (16 | rsp) -> wide c ->
  match result with Some w => length w = 8%nat | None => True end ->
  Forall2 arg_for ts1 l1 -> Forall2 arg_for ts2 l2 ->
  (forall s xs, allocate_all s0 (ts1 ++ ts2) = Some (s, xs) ->
     Forall2 (apart rsp (p_stack s)) (ts1 ++ ts2) (l1 ++ l2) /\ keeps prog area rsp (p_stack s)) ->
  (* the call *)
  invoke result rsp c (ts1 ++ ts2) (l1 ++ l2) = Some (c1, al) ->
  (* the prologue: registers as on entry, memory at and above [rsp] too *)
  allocate_all s0 ts1 = Some (s1, xs1) ->
  gpr c2 = gpr c1 -> xmm c2 = xmm c1 -> (forall x, rsp <= x -> mm c2 x = mm c1 x) ->
  tmp + 16 <= area -> area + 176 <= rsp ->
  (* what is missing: padding after the last named parameter, and the cases of [in_step] *)
  (8 | p_stack s1) -> in_steps s1 ts2 ->
  fetch_all prog 0 (save_registers (callee_al ts1 xs1 al) c2 area) tmp (vararg_start s1 rsp area) ts2 = Some out ->
  out = map (fun p => arg_value (mm c) (fst p) (snd p)) (combine ts2 l2).
Proof.
  intros result rsp c ts1 ts2 l1 l2 c1 al s1 xs1 c2 area tmp prog out s0 HA B W LR AF1 AF2 AP HI EN EG EX EM TA AR D8 ST F.
  unfold invoke in HI. change (match result with Some _ => true | None => false end) with (is_some result) in HI.
  fold s0 in HI. destruct (allocate_all s0 (ts1 ++ ts2)) as [[s' xs]|] eqn:EA; [|discriminate HI].
  destruct (place_all rsp c xs (l1 ++ l2)) as [cp|] eqn:EP; [|discriminate HI].
  destruct (AP s' xs eq_refl) as (AP1 & K). clear AP.
  assert (S0 : (p_int s0 <= 6 /\ p_sse s0 <= 8)%nat /\ p_stack s0 = 0)
    by (unfold s0; destruct (is_some result); cbn; lia).
  destruct S0 as ((I6 & S8) & P0).
  destruct (place_all_ok (ts1 ++ ts2) s0 s' xs (l1 ++ l2) rsp (p_stack s') c cp (mm c)) as (W1 & FR & HO & R1 & R2 & R3);
    auto; try lia. { now apply Forall2_app. }
  assert (EC : c1 = match result with Some w => set_gpr cp 0 w | None => cp end) by (destruct result; congruence).
  assert (EL : al = Z.of_nat (p_sse s')) by congruence. clear HI.
  assert (WC : wide c1) by (rewrite EC; destruct result; [now apply wide_gpr|exact W1]).
  assert (H1 : Forall2 (holds rsp (mm c) c1) xs (l1 ++ l2)).
  { rewrite EC. destruct result as [w|]; [|exact HO].
    eapply holds_result; eauto. }
  destruct (all_app _ _ _ _ _ EA) as (s1' & xs1' & xs2 & A1 & A2 & -> & _).
  rewrite EN in A1. injection A1 as <- <-.
  assert (H2 : Forall2 (holds rsp (mm c) c1) xs2 l2).
  { apply Forall2_app_inv_l in H1 as (la & lb & Ha & Hb & EQ).
    assert (LL : length la = length l1).
    { rewrite <- (Forall2_len _ _ _ _ _ Ha), <- (Forall2_len _ _ _ _ _ AF1). eapply all_length; eauto. }
    apply app_inj_length in EQ as [-> ->]; [exact Hb|lia]. }
  rewrite forallb_app in HA. apply andb_true_iff in HA as [HA1 HA2].
  destruct (all_regs _ _ _ _ EN I6 S8) as (Q1 & Q2).
  pose proof (all_stack _ _ _ _ (arguments_parameters _ HA1) EN) as Q3.
  assert (WC2 : wide c2) by (destruct WC as [G1 G2]; split; intros r; [rewrite EG|rewrite EX]; auto).
  pose proof (save_registers_ok (callee_al ts1 xs1 al) c2 area rsp (p_stack s') WC2 AR) as (SV1 & SV2 & SV3).
  rewrite EG in SV1. rewrite EX in SV2.
  eapply (fetch_all_ok ts2 s1 s' xs2 l2 prog 0 rsp (p_stack s') area tmp c1 (mm c)); eauto; try lia.
  - split; [exact SV1|]. split; [|intros x Hx; rewrite SV3 by exact Hx; apply EM; lia].
    intros HS. apply SV2. apply callee_al_nonzero. lia.
  - unfold follows, vararg_start. cbn [gp fp overflow save]. rewrite roundup_id by exact D8. lia.
Qed.

(** ** Scalar arguments *)

Definition scalar (T : tree) : bool := match T with TLeaf _ _ _ => true | _ => false end.
Definition long_double (T : tree) : bool := match T with TLeaf CLongDouble _ _ => true | _ => false end.

Lemma scalars_stack : forall ts s s' xs, forallb argument ts = true -> forallb scalar ts = true ->
  allocate_all s ts = Some (s', xs) -> (8 | p_stack s) -> (8 | p_stack s').
Proof.
  induction ts as [|T ts IH]; intros s s' xs HA HS H D; cbn [allocate_all forallb] in *.
  - injection H as <- <-. exact D.
  - apply andb_true_iff in HA as [HA1 HA2]. apply andb_true_iff in HS as [HS1 HS2].
    destruct (classify T) as [k|] eqn:E1; [|discriminate].
    destruct (allocate s k) as [[s2 x]|] eqn:E2; [|discriminate].
    destruct (allocate_all s2 ts) as [[s3 ys]|] eqn:E3; [|discriminate]. injection H as <- <-.
    eapply (IH s2); eauto. destruct (argument_parts T HA1) as (HP & C & _).
    pose proof (allocate_stack _ _ _ _ _ HP E1 E2) as O.
    destruct x as [r|r|q|o z|]; cbn [on_stack] in O; try (rewrite O; exact D).
    destruct O as (_ & <- & DO & _ & ->). apply Z.divide_add_r; [exact DO|].
    destruct T as [cd al p| |]; try discriminate HS1. cbn [is_aggregate].
    destruct cd; try (exists 1; reflexivity); try (exists 2; reflexivity).
    all: try (unfold conforming in C; cbn [usable] in C; rewrite andb_false_r in C; discriminate C).
    all: unfold parameter in HP. apply andb_true_iff in HP as [HP _]. apply andb_true_iff in HP as [_ HP]. discriminate HP.
Qed.

(** C41 for scalar parameters and scalar variadic arguments other than long double: no
    further hypothesis is needed. *)
Theorem c41_scalars :
  forall result rsp c ts1 ts2 l1 l2 c1 al s1 xs1 c2 area tmp prog out,
  let s0 := entry_state (is_some result) in
  forallb argument (ts1 ++ ts2) = true -> forallb scalar (ts1 ++ ts2) = true ->
  forallb (fun T => negb (long_double T)) ts2 = true ->
  (16 | rsp) -> wide c -> match result with Some w => length w = 8%nat | None => True end ->
  Forall2 arg_for ts1 l1 -> Forall2 arg_for ts2 l2 ->
  (forall s xs, allocate_all s0 (ts1 ++ ts2) = Some (s, xs) -> keeps prog area rsp (p_stack s)) ->
  invoke result rsp c (ts1 ++ ts2) (l1 ++ l2) = Some (c1, al) ->
  allocate_all s0 ts1 = Some (s1, xs1) ->
  gpr c2 = gpr c1 -> xmm c2 = xmm c1 -> (forall x, rsp <= x -> mm c2 x = mm c1 x) ->
  tmp + 16 <= area -> area + 176 <= rsp ->
  fetch_all prog 0 (save_registers (callee_al ts1 xs1 al) c2 area) tmp (vararg_start s1 rsp area) ts2 = Some out ->
  out = map (fun p => arg_value (mm c) (fst p) (snd p)) (combine ts2 l2).
Proof.
  intros result rsp c ts1 ts2 l1 l2 c1 al s1 xs1 c2 area tmp prog out s0 HA HS HL B W LR AF1 AF2 K HI EN EG EX EM TA AR F.
  assert (HS12 := HS). rewrite forallb_app in HS12. apply andb_true_iff in HS12 as [HS1 HS2].
  assert (HA12 := HA). rewrite forallb_app in HA12. apply andb_true_iff in HA12 as [HA1 HA2].
  assert (AF : Forall2 arg_for (ts1 ++ ts2) (l1 ++ l2)) by now apply Forall2_app.
  eapply c41_fetched_partial; eauto.
  - intros s xs E. split; [|eauto].
    revert AF HS. generalize (ts1 ++ ts2) (l1 ++ l2). clear.
    intros ts l AF. induction AF as [|T a ts l H _ IH]; intros HS; [constructor|].
    cbn [forallb] in HS. apply andb_true_iff in HS as [H1 H2]. constructor; [|now apply IH].
    destruct a; cbn [apart]; auto. destruct T; cbn in H, H1; discriminate.
  - apply (scalars_stack ts1 s0 s1 xs1 HA1 HS1 EN). apply Z.divide_0_r.
  - intros la T lb s' xs -> _. rewrite forallb_app in HS2, HL. cbn [forallb] in HS2, HL.
    apply andb_true_iff in HS2 as [_ HS2]. apply andb_true_iff in HL as [_ HL]. clear -HS2 HL.
    destruct T as [[]| |]; cbn [in_step]; auto; discriminate.
Qed.

(** ** The fetches succeed *)

Definition plain (l : list klass) : bool := forallb (fun k => klass_eqb k Integer || klass_eqb k Sse) l.

Lemma classified_plain : forall T s k s' q, classified T = true -> is_aggregate T = true ->
  (p_int s <= 6)%nat -> (p_sse s <= 8)%nat -> classify T = Some k ->
  allocate s k = Some (s', LQwords q) -> plain (map fst q) = true.
Proof.
  intros T s k s' q H IA I6 S8 E1 E2.
  destruct (chosen_one T s I6 S8 H) as (k0 & s0 & x & F1 & F2 & CH).
  rewrite E1 in F1. injection F1 as <-. rewrite E2 in F2. injection F2 as <- <-.
  assert (CT : match abi_class T with
         | InMemory => true
         | InQwords l => plain l || match l with [X87; X87Up] => true | _ => false end end = true).
  { unfold classified in H. apply andb_true_iff in H as [_ H]. destruct T; [discriminate IA| |];
      apply andb_true_iff in H as [_ H]; exact H. }
  assert (EP : passed_class T = match abi_class T with InMemory => None | InQwords l => if existsb (klass_eqb X87) l then None else Some l end)
    by (destruct T; [discriminate IA|reflexivity|reflexivity]).
  unfold chosen in CH. rewrite EP in CH. destruct (abi_class T) as [|l]; [destruct CH as (o & z & CH); discriminate CH|].
  apply orb_true_iff in CT as [CT|CT].
  - destruct (existsb (klass_eqb X87) l); [destruct CH as (o & z & CH); discriminate CH|].
    destruct (_ && _); [|destruct CH as (o & z & CH); discriminate CH].
    cbn [regs] in CH. rewrite CH. exact CT.
  - destruct l as [|[] [|[] [|]]]; try discriminate CT. cbn in CH. destruct CH as (o & z & CH). discriminate CH.
Qed.

Lemma plain_requirements : forall l, plain l = true -> exists r, aggregate_requirements l = Some r.
Proof.
  induction l as [|k l IH]; intros H; [exists (0, 0)%nat; reflexivity|].
  apply andb_true_iff in H as [H1 H2]. destruct (IH H2) as ([a b] & E).
  destruct k; try discriminate H1; cbn [aggregate_requirements]; rewrite E; eexists; reflexivity.
Qed.

Lemma fetch_total : forall m tmp v T a, classified T = true -> arg_for T a -> fetch m tmp v T <> None.
Proof.
  intros m tmp v T a H AF.
  assert (AGG : is_aggregate T = true -> fetch m tmp v T <> None).
  { intros IA. destruct (chosen_one T (entry_state false) ltac:(cbn; lia) ltac:(cbn; lia) H) as (k & s' & x & E1 & E2 & _).
    assert (HA : argument T = true) by (unfold classified in H; apply andb_true_iff in H as [H _]; exact H).
    pose proof (fun q => classified_plain T (entry_state false) k s' q H IA ltac:(cbn; lia) ltac:(cbn; lia) E1) as PL.
    destruct (classify_aggregate T k HA IA E1) as (ac & r & -> & _).
    assert (EF : fetch m tmp v T = match allocate (entry_state false) (PAgg ac r (abi_size T) (abi_align T)) with
      | Some (_, LQwords q) => load_register_aggregate m tmp v (map fst q) (abi_size T) (abi_align T)
      | Some (_, LStack _ _) => let (v, f) := load_memory_aggregate v (abi_size T) (abi_align T) in Some (v, m, f)
      | _ => None
      end) by (destruct T; [discriminate IA| |]; cbn [fetch]; rewrite E1; reflexivity).
    rewrite EF, E2. destruct ac as [|l]; cbn [allocate] in E2.
    - unfold stack_allocate in E2. injection E2 as <- <-. destruct (load_memory_aggregate v _ _). discriminate.
    - destruct (_ && _) eqn:FIT; [|unfold stack_allocate in E2; injection E2 as <- <-; destruct (load_memory_aggregate v _ _); discriminate].
      destruct (assign_qwords l _ _) as [q|] eqn:A; [|discriminate E2]. injection E2 as <- <-.
      assert (PQ : plain (map fst q) = true) by (apply PL; cbn [allocate]; rewrite FIT, A; reflexivity).
      destruct (plain_requirements _ PQ) as ([i n] & RQ). unfold load_register_aggregate. rewrite RQ.
      destruct (_ || _); [destruct (load_memory_aggregate v _ _)|]; discriminate. }
  destruct T as [cd al p| |]; [|apply AGG; reflexivity|apply AGG; reflexivity]. clear AGG.
  unfold classified in H. apply andb_true_iff in H as [H HB]. apply andb_true_iff in H as [HP _].
  unfold parameter in HP. apply andb_true_iff in HP as [HP0 _]. apply andb_true_iff in HP0 as [C BI].
  destruct cd; cbn [fetch]; try discriminate;
    try (destruct (load_integer_vararg m v) as [v1 w1]; cbn; discriminate);
    try (destruct (load_sse_vararg m v) as [v1 w1]; cbn; discriminate).
  - destruct a as [w|lo hi|src]; cbn in AF; [destruct AF as (_ & _ & AF)|destruct AF as (_ & _ & [])|discriminate AF].
    congruence.
  - unfold conforming in C. cbn [usable] in C. rewrite andb_false_r in C. discriminate C.
  - rewrite HB. destruct (load_integer_vararg m v). discriminate.
Qed.

Lemma place_total : forall T s k s' x rsp c a, classified T = true -> arg_for T a ->
  (p_int s <= 6)%nat -> (p_sse s <= 8)%nat -> classify T = Some k ->
  allocate s k = Some (s', x) -> exists c', place rsp c x a = Some c'.
Proof.
  intros T s k s' x rsp c a H AF I6 S8 E1 E2.
  assert (HA : argument T = true) by (unfold classified in H; apply andb_true_iff in H as [H _]; exact H).
  assert (PQ : forall q src k c, plain (map fst q) = true -> exists c', place_qwords c src q k = Some c').
  { clear. induction q as [|[kk r] q IH]; intros src k c A; [eexists; reflexivity|].
    apply andb_true_iff in A as [A1 A2]. cbn [fst] in A1. destruct kk; try discriminate A1; cbn [place_qwords]; now apply IH. }
  destruct (is_aggregate T) eqn:IA.
  - destruct a as [w|lo hi|src]; cbn in AF;
      [destruct T; [discriminate IA|destruct AF as [_ []]|destruct AF as [_ []]]|
       destruct T; [discriminate IA|destruct AF as (_ & _ & [])|destruct AF as (_ & _ & [])]|].
    pose proof (fun q => classified_plain T s k s' q H IA I6 S8 E1) as PL.
    destruct (classify_aggregate T k HA IA E1) as (ac & r & -> & _).
    destruct ac as [|l]; cbn [allocate] in E2, PL.
    + unfold stack_allocate in E2. injection E2 as <- <-. eexists. reflexivity.
    + destruct (_ && _); [|unfold stack_allocate in E2; injection E2 as <- <-; eexists; reflexivity].
      destruct (assign_qwords l _ _) as [q|] eqn:A; [|discriminate E2]. pose proof (PL q) as PLq.
      injection E2 as <- <-. cbn [place]. apply PQ. now apply PLq.
  - destruct T as [cd al p| |]; try discriminate IA.
    destruct (argument_parts _ HA) as (_ & C & _).
    destruct a as [w|lo hi|src]; cbn in AF; [| |discriminate AF].
    + destruct AF as (_ & N1 & N2).
      assert (KK : k = PInt \/ k = PSse).
      { destruct cd; cbn [classify] in E1; try congruence; try (injection E1 as <-; auto; fail); try tauto.
        - unfold conforming in C. cbn [usable] in C. rewrite andb_false_r in C. discriminate C.
        - destruct (p =? 0); [injection E1 as <-; auto|discriminate E1]. }
      destruct KK as [-> | ->]; cbn [allocate] in E2; unfold stack_allocate in E2;
        (destruct (_ <=? _)%nat; injection E2 as <- <-; eexists; reflexivity).
    + destruct AF as (_ & _ & AF). destruct cd; try contradiction. cbn [classify] in E1. injection E1 as <-.
      cbn [allocate] in E2. unfold stack_allocate in E2. injection E2 as <- <-. eexists. reflexivity.
Qed.

Lemma place_all_total : forall ts s s' xs rsp c l, forallb classified ts = true -> Forall2 arg_for ts l ->
  (p_int s <= 6)%nat -> (p_sse s <= 8)%nat ->
  allocate_all s ts = Some (s', xs) -> exists c', place_all rsp c xs l = Some c'.
Proof.
  induction ts as [|T ts IH]; intros s s' xs rsp c l HC AF I6 S8 H; cbn [allocate_all forallb] in *.
  - injection H as <- <-. inversion AF; subst. eexists. reflexivity.
  - apply andb_true_iff in HC as [HC1 HC2].
    destruct (classify T) as [k|] eqn:E1; [|discriminate].
    destruct (allocate s k) as [[s2 x]|] eqn:E2; [|discriminate].
    destruct (allocate_all s2 ts) as [[s3 ys]|] eqn:E3; [|discriminate]. injection H as <- <-.
    inversion AF as [|? a ? l' AF1 AF2]; subst.
    destruct (place_total _ _ _ _ _ rsp c a HC1 AF1 I6 S8 E1 E2) as (c1 & P1). cbn [place_all]. rewrite P1.
    destruct (allocate_regs _ _ _ _ _ E1 E2 I6 S8) as (A1 & A2 & _). eapply (IH s2); eauto; lia.
Qed.

(** For classified types (PropParams.v) the call and the fetches do not fail. *)
Theorem c41_succeeds :
  forall ts l, forallb classified ts = true -> Forall2 arg_for ts l ->
  (forall result rsp c, invoke result rsp c ts l <> None) /\
  (forall prog i m tmp v, fetch_all prog i m tmp v ts <> None).
Proof.
  intros ts l HC AF. split.
  - intros result rsp c. unfold invoke.
    destruct (c35_assignment ts (entry_state (match result with Some _ => true | None => false end)))
      as (s' & xs & E & _); [destruct result; cbn; lia|cbn; lia|exact HC|].
    rewrite E. edestruct place_all_total as (c' & EP); [exact HC|exact AF| | |exact E|rewrite EP; discriminate];
      [destruct result; cbn; lia|cbn; lia].
  - induction AF as [|T a ts l H _ IH]; intros prog i m tmp v; cbn [fetch_all forallb] in *; [discriminate|].
    apply andb_true_iff in HC as [HC1 HC2].
    destruct (fetch (prog i m) tmp v T) as [[[v1 m1] f]|] eqn:E; [|exfalso; exact (fetch_total _ _ _ _ _ HC1 H E)].
    specialize (IH HC2 prog (S i) m1 tmp v1). destruct (fetch_all prog (S i) m1 tmp v1 ts); congruence.
Qed.

(** ** A concrete call *)

(** Memory and registers in which every byte tells where it is. *)
Definition ex_machine : machine :=
  {| gpr := fun r => map (fun i => Z.of_nat (200 + r + i)) (seq 0 8);
     xmm := fun r => map (fun i => Z.of_nat (100 + r + i)) (seq 0 16);
     mm := fun x => x mod 251 |}.
Definition word (z : Z) : list Z := map (fun i => z + Z.of_nat i) (seq 0 8).

(** Caller, prologue and fetches of a call; [None] on failure. *)
Definition scenario (result : option (list Z)) (rsp area tmp : Z) (ts1 ts2 : list tree) (l1 l2 : list arg)
  : option (list (list Z)) :=
  match invoke result rsp ex_machine (ts1 ++ ts2) (l1 ++ l2),
        allocate_all (entry_state (is_some result)) ts1 with
  | Some (c, al), Some (s, xs) =>
    fetch_all (fun _ m => m) 0 (save_registers (callee_al ts1 xs al) c area) tmp (vararg_start s rsp area) ts2
  | _, _ => None
  end.
Definition expected (ts : list tree) (l : list arg) : list (list Z) :=
  map (fun p => arg_value (mm ex_machine) (fst p) (snd p)) (combine ts l).

Definition int_double := TAgg false 0 [TLeaf CLong 0 0; TLeaf CFloat64 0 0].
Definition three_longs := TAgg false 0 [TArr 0 3 (TLeaf CLong 0 0)].

(** f(p, 10, 11, s, 12.0, t, 13, 14, 15.0, 16, 17, 19.0L) with a structure result: s goes in
    registers, t and the last integers on the stack, the long double at offset 48. *)
Definition ex_types : list tree :=
  [TLeaf CInt 0 0; TLeaf CLong 0 0; int_double; TLeaf CFloat64 0 0; three_longs; TLeaf CInt 0 0;
   TLeaf CWord 0 0; TLeaf CFloat64 0 0; TLeaf CInt 0 0; TLeaf CLong 0 0; TLeaf CLongDouble 0 0].
Definition ex_args : list arg :=
  [AWord (word 10); AWord (word 11); AAddr 5000; AWord (word 12); AAddr 6001; AWord (word 13);
   AWord (word 14); AWord (word 15); AWord (word 16); AWord (word 17); ALong (word 19) (word 27)].

Example c41_example_hypotheses :
  forallb argument (TLeaf CWord 0 0 :: ex_types) = true /\
  Forall2 arg_for ex_types ex_args /\ wide ex_machine /\
  (forall xs s, allocate_all (entry_state true) [TLeaf CWord 0 0] = Some (s, xs) ->
     (8 | p_stack s) /\ in_steps s ex_types).
Proof.
  split; [reflexivity|]. split.
  { repeat (constructor; [cbn; repeat split; discriminate|]). constructor. }
  split; [split; intros r; cbn [gpr xmm ex_machine]; now rewrite map_length, seq_length|].
  intros xs s E. vm_compute in E. injection E as <- <-. split; [exists 0; reflexivity|].
  intros la T lb s1 ys H A. unfold ex_types in H.
  repeat (destruct la as [|? la]; [injection H as <- _; vm_compute in A; injection A as <- <-; cbn [in_step];
    first [exact I | vm_compute; intros Q; discriminate Q | apply Z.mod_divide; [lia|reflexivity]] | injection H as <- H]).
  destruct la; discriminate H.
Qed.

Example c41_example :
  scenario (Some (word 77)) 4096 3000 2900 [TLeaf CWord 0 0] ex_types [AWord (word 9)] ex_args
  = Some (expected ex_types ex_args).
Proof. vm_compute. reflexivity. Qed.

(** ** What does not hold *)

Definition longs (n : nat) : list tree := repeat (TLeaf CLong 0 0) n.
Definition words (n : nat) : list arg := map (fun i => AWord (word (10 * Z.of_nat i))) (seq 1 n).

(** A long double after an odd number of eightbytes on the stack: the caller aligns it
    to 16, va_arg does not.  f(p, 6 longs, long double). *)
Theorem c41_long_double_refuted :
  exists ts1 ts2 l1 l2 out,
    forallb argument (ts1 ++ ts2) = true /\ forallb scalar (ts1 ++ ts2) = true /\
    Forall2 arg_for ts1 l1 /\ Forall2 arg_for ts2 l2 /\
    scenario None 4096 3000 2900 ts1 ts2 l1 l2 = Some out /\ out <> expected ts2 l2.
Proof.
  exists [TLeaf CWord 0 0], (longs 6 ++ [TLeaf CLongDouble 0 0]), [AWord (word 1)],
    (words 6 ++ [ALong (word 100) (word 110)]). eexists.
  split; [reflexivity|]. split; [reflexivity|].
  split; [repeat (constructor; [cbn; repeat split; discriminate|]); constructor|].
  split; [cbn [longs words repeat map seq app]; repeat (constructor; [cbn; repeat split; discriminate|]); constructor|].
  split; [vm_compute; reflexivity|]. vm_compute. discriminate.
Qed.

(** The last named parameter is a 20-byte structure: the next argument on the stack is
    at offset 24, va_start begins at 20. *)
Theorem c41_named_structure_refuted :
  exists ts1 ts2 l1 l2 out,
    forallb argument (ts1 ++ ts2) = true /\ forallb scalar ts2 = true /\ forallb long_double ts2 = false /\
    Forall2 arg_for ts1 l1 /\ Forall2 arg_for ts2 l2 /\
    scenario None 4096 3000 2900 ts1 ts2 l1 l2 = Some out /\ out <> expected ts2 l2.
Proof.
  exists [TAgg false 0 [TArr 0 5 (TLeaf CInt 0 0)]], (longs 7), [AAddr 5000], (words 7). eexists.
  split; [reflexivity|]. split; [reflexivity|]. split; [reflexivity|].
  split; [repeat (constructor; [cbn; repeat split; discriminate|]); constructor|].
  split; [cbn [longs words repeat map seq app]; repeat (constructor; [cbn; repeat split; discriminate|]); constructor|].
  split; [vm_compute; reflexivity|]. vm_compute. discriminate.
Qed.

(** A structure aligned to 32: the caller aligns the offset, va_arg the address. *)
Theorem c41_overaligned_refuted :
  exists ts2 l2 out,
    forallb argument ts2 = true /\ Forall2 arg_for ts2 l2 /\
    scenario None (4096 + 16) 3000 2900 [TLeaf CWord 0 0] ts2 [AWord (word 1)] l2 = Some out /\ out <> expected ts2 l2.
Proof.
  exists [TAgg false 0 [TLeaf CInt 32 0]], [AAddr 6400]. eexists.
  split; [reflexivity|]. split; [repeat constructor|].
  split; [vm_compute; reflexivity|]. vm_compute. discriminate.
Qed.

(** Structures fetched from registers share one temporary: after the second fetch the
    first value is gone. *)
Theorem c41_shared_temporary_refuted :
  exists T l1 l2 c al v1 m1 f1 v2 m2 f2,
    argument T = true /\ arg_for T l1 /\ arg_for T l2 /\
    invoke None 4096 ex_machine [TLeaf CWord 0 0; T; T] [AWord (word 1); l1; l2] = Some (c, al) /\
    fetch (save_registers al c 3000) 2900 (vararg_start (with_int (entry_state false) 1) 4096 3000) T = Some (v1, m1, f1) /\
    contents m1 T f1 = arg_value (mm ex_machine) T l1 /\
    fetch m1 2900 v1 T = Some (v2, m2, f2) /\
    contents m2 T f2 = arg_value (mm ex_machine) T l2 /\
    contents m2 T f1 <> arg_value (mm ex_machine) T l1.
Proof.
  exists int_double, (AAddr 5000), (AAddr 6000). do 8 eexists.
  split; [reflexivity|]. split; [reflexivity|]. split; [reflexivity|].
  split; [cbn; reflexivity|].
  split; [cbn; reflexivity|]. split; [vm_compute; reflexivity|].
  split; [cbn; reflexivity|]. split; [vm_compute; reflexivity|]. vm_compute. discriminate.
Qed.

Print Assumptions c41_fetched_partial.
Print Assumptions c41_scalars.
Print Assumptions c41_succeeds.
Print Assumptions c41_long_double_refuted.
Print Assumptions c41_named_structure_refuted.
Print Assumptions c41_overaligned_refuted.
Print Assumptions c41_shared_temporary_refuted.
