(** C55: the storage of variable length arrays and the jumps of a function. *)

From Coq Require Import ZArith Bool List Lia.
Import ListNotations.
From Verif Require Import VlaModel VlaSpec VlaProofs.
Open Scope Z_scope.

(** Every array in scope at an expression has storage of its own whenever the expression
    is evaluated, if in every block nothing leaves the block before its first array, no
    jump or label is between its first and last array, and the constraint on switch
    statements is met. Missing: other functions; see the refutations. *)
Theorem c55_alive_partial body code top garbage st k :
  numbered body -> switches_legal_items body false = true ->
  tidy_items body false = true ->
  compile body = Some code -> steps code (initial top garbage) st ->
  nth_error code (pc st) = Some (Use k) -> alive top body k st.
Proof. intros N S T. apply compile_alive; assumption. Qed.

(** With at most one array in every block and no alloca, nothing else stays allocated. *)
Theorem c55_released_partial body code top garbage st k :
  numbered body -> switches_legal_items body false = true ->
  tidy_items body false = true -> simple (SBlock body) = true ->
  compile body = Some code -> steps code (initial top garbage) st ->
  nth_error code (pc st) = Some (Use k) -> released top body k st.
Proof. intros N S T SI. apply compile_released; assumption. Qed.

(** Without arrays and alloca the stack of the function never moves. *)
Corollary c55_no_arrays body code top garbage st k :
  numbered body -> switches_legal_items body false = true ->
  tidy_items body false = true -> simple (SBlock body) = true -> arrays_items body = [] ->
  compile body = Some code -> steps code (initial top garbage) st ->
  nth_error code (pc st) = Some (Use k) -> base st = top.
Proof.
  intros N S T SI A C R U. apply (c55_released_partial _ _ _ _ _ _ N S T SI C R U).
  intros v V. assert (X : (forall s v, visible (AtUse k) v s -> In v (arrays s)) /\
                          (forall l v, visible_items (AtUse k) v l -> In v (arrays_items l))).
  { apply stmt_items_ind; simpl; intros; auto; try contradiction; rewrite ?in_app_iff in *; intuition. }
  apply X in V. rewrite A in V. exact V.
Qed.

(** The storage of an array and of alloca is aligned as asked for, and to 8 bytes. *)
Lemma land_opp_pow2 x n : 0 <= n -> Z.land x (- 2 ^ n) = x / 2 ^ n * 2 ^ n.
Proof.
  intros H. replace (- 2 ^ n) with (Z.lnot (Z.ones n)) by (rewrite Z.ones_equiv; unfold Z.lnot; lia).
  rewrite <- Z.ldiff_land, Z.ldiff_ones_r, Z.shiftl_mul_pow2, Z.shiftr_div_pow2 by assumption. reflexivity.
Qed.
Lemma alloca_aligned b size n : 0 <= n ->
  (2 ^ n | alloca_address b size (2 ^ n)) /\ (8 | alloca_address b size (2 ^ n)).
Proof.
  intros H. unfold alloca_address. assert (P := Z.pow_pos_nonneg 2 n ltac:(lia) H).
  destruct (2 ^ n =? 0) eqn:E; [apply Z.eqb_eq in E; lia|].
  change (-8) with (- 2 ^ 3). rewrite !land_opp_pow2 by lia. split; [apply Z.divide_factor_r|].
  destruct (Z_le_gt_dec n 3) as [L|L].
  - replace (2 ^ 3) with (2 ^ (3 - n) * 2 ^ n) by (rewrite <- Z.pow_add_r by lia; f_equal; lia).
    rewrite (Z.mul_assoc _ (2 ^ (3 - n)) (2 ^ n)), Z.div_mul by lia.
    rewrite <- Z.mul_assoc, <- Z.pow_add_r by lia. replace (3 - n + n) with 3 by lia. apply Z.divide_factor_r.
  - apply Z.divide_mul_r. exists (2 ^ (n - 3)). change 8 with (2 ^ 3). rewrite <- Z.pow_add_r by lia. f_equal. lia.
Qed.
Theorem c55_aligned b size n : 0 <= n ->
  let a := alloca_address b size (2 ^ n) in
  (2 ^ n | a) /\ (8 | a) /\ a + size <= b /\ b - size - a < 8 + 2 ^ n.
Proof.
  intros H. cbv zeta. destruct (alloca_aligned b size n H) as (A & B). split; [exact A|]. split; [exact B|].
  assert (P := Z.pow_pos_nonneg 2 n ltac:(lia) H).
  unfold alloca_address. destruct (2 ^ n =? 0) eqn:E; [apply Z.eqb_eq in E; lia|].
  change (-8) with (- 2 ^ 3). rewrite !land_opp_pow2 by lia. change (2 ^ 3) with 8.
  assert (X := Z.div_mod (b - size) 8 ltac:(lia)). assert (X' := Z.mod_pos_bound (b - size) 8 ltac:(lia)).
  set (c := (b - size) / 8 * 8) in *.
  assert (Y := Z.div_mod c (2 ^ n) ltac:(lia)). assert (Y' := Z.mod_pos_bound c (2 ^ n) ltac:(lia)).
  lia.
Qed.
Example aligned_met : alloca_address 1000 100 (2 ^ 5) = 896 /\ alloca_address 1001 1 (2 ^ 0) = 1000.
Proof. split; reflexivity. Qed.

(** 6.8.6.1p1: an accepted function has one definition of every label that a goto names,
    and no goto enters the scope of an array; 6.8.6.2p1, 6.8.6.3p1, 6.8.1p2 and
    6.8.4.2p3: its other jumps and labels are where they may be. *)
Theorem c55_goto_constraint body code :
  numbered body -> compile body = Some code ->
  NoDup (label_names_items body) /\
  (forall k l, In (k, l) (gotos_items body) -> In l (label_names_items body)) /\
  gotos_legal body.
Proof. apply compile_gotos. Qed.

Theorem c55_bound body code :
  compile body = Some code ->
  bound_items body false false false = true /\ one_default_items body = true.
Proof.
  intros H. destruct (compile_inv _ _ H) as (c & -> & T & _). split.
  - exact (proj1 (trans_bound _) _ _ _ _ T).
  - exact (proj1 (trans_defaults _) _ _ _ _ T).
Qed.

(** Functions without goto, and functions without arrays, are refused for no other reason. *)
Theorem c55_accepted_partial body :
  NoDup (label_names_items body) -> bound_items body false false false = true ->
  one_default_items body = true ->
  (gotos_items body = [] \/
   arrays_items body = [] /\ forall k l, In (k, l) (gotos_items body) -> In l (label_names_items body)) ->
  exists code, compile body = Some code.
Proof. apply compile_accepts. Qed.

(** ** Executions *)

Record choice := Choice { ch_size : Z; ch_align : Z; ch_taken : bool }.

Definition exec1 (code : list ins) (st : state) (c : choice) : option state :=
  match nth_error code (pc st) with
  | Some (Use _) | Some (Mark _) => Some (next st)
  | Some (Declare v) =>
    let a := alloca_address (base st) (ch_size c) (ch_align c) in
    if ((0 <=? ch_size c) && (0 <? ch_align c) && (0 <? a))%bool then
      Some {| pc := S (pc st); base := a; scope := base st; slot := upd (slot st) v (scope st);
              area := upd (area st) v (Some (a, ch_size c)) |}
    else None
  | Some (PopScope v) =>
    Some (if scope st =? 0 then next st
          else {| pc := S (pc st); base := scope st; scope := slot st v; slot := slot st; area := area st |})
  | Some (Jmp t) => match find_mark code t with Some n => Some (goto st n) | None => None end
  | Some (Branch t) =>
    if ch_taken c then match find_mark code t with Some n => Some (goto st n) | None => None end
    else Some (next st)
  | _ => None
  end.

(** Execution to the expression [k]; the branches are decided by a list, all arrays have 100
    bytes. *)
Fixpoint exec (fuel : nat) (code : list ins) (k : nat) (st : state) (l : list bool) : state :=
  match fuel with
  | O => st
  | S fuel =>
    let stop := match nth_error code (pc st), l with Some (Use m), [] => Nat.eqb m k | _, _ => false end in
    if stop then st
    else
      let l' := match nth_error code (pc st) with Some (Branch _) => tl l | _ => l end in
      match exec1 code st (Choice 100 8 (hd false l)) with
      | Some st' => exec fuel code k st' l'
      | None => st
      end
  end.

Lemma exec1_sound code st c st' : exec1 code st c = Some st' -> step code st st'.
Proof.
  unfold exec1. destruct (nth_error code (pc st)) as [i|] eqn:E; [|discriminate].
  destruct i; intros H; try discriminate.
  - inversion H; subst. eapply StUse; eauto.
  - cbv zeta in H. destruct (_ && _)%bool eqn:B in H; [|discriminate].
    rewrite !andb_true_iff, !Z.ltb_lt, Z.leb_le in B. inversion H; subst. apply StDeclare; tauto.
  - inversion H; subst. apply StPop. exact E.
  - inversion H; subst. eapply StMark; eauto.
  - destruct (find_mark code t) eqn:F; [|discriminate]. inversion H; subst. eapply StJmp; eauto.
  - destruct (ch_taken c).
    + destruct (find_mark code t) eqn:F; [|discriminate]. inversion H; subst. eapply StTaken; eauto.
    + inversion H; subst. eapply StNotTaken; eauto.
Qed.
Lemma exec_sound fuel code k st0 : forall st l, steps code st0 st -> steps code st0 (exec fuel code k st l).
Proof.
  induction fuel as [|fuel IH]; intros st l S; cbn [exec]; cbv zeta; auto.
  destruct (match nth_error code (pc st), l with Some (Use m), [] => Nat.eqb m k | _, _ => false end); auto.
  destruct (exec1 code st _) as [st'|] eqn:E; auto. apply IH. eapply StepsStep; eauto. eapply exec1_sound; eauto.
Qed.

Definition code_of (body : items) : list ins := match compile body with Some c => c | None => [] end.
Definition run (body : items) (k : nat) (l : list bool) : state :=
  exec 200 (code_of body) k (initial 1000 (fun _ => 12345)) l.

Fixpoint seq (l : list stmt) : items := match l with [] => INil | s :: r => IStmt s (seq r) end.

Lemma run_steps body k l : steps (code_of body) (initial 1000 (fun _ => 12345)) (run body k l).
Proof. apply exec_sound. constructor. Qed.

Ltac concrete := unfold numbered; simpl; split;
  repeat (constructor; [simpl; intros X; repeat (destruct X as [X|X]; try discriminate); try contradiction|]);
  try constructor.

(** A function the theorems speak of:
<<
  { e0; int a0[n]; 
    while (e1) { int a1[n]; if (e2) break; if (e3) continue; { int a2[n]; if (e4) goto l0; e5; } e6; }
    switch (e7) { case 1: { int a3[n]; e8; break; } default: e9; }
    l0: e10; }
>> *)
Definition sample : items :=
  IStmt (SUse 0) (IVla 0 (seq
    [SWhile 1 (SBlock (IVla 1 (seq
       [SIf 2 SBreak (SBlock INil); SIf 3 SContinue (SBlock INil);
        SBlock (IVla 2 (seq [SIf 4 (SGoto 11 0) (SBlock INil); SUse 5]));
        SUse 6])));
     SSwitch 7 (SBlock (seq [SCase (SBlock (IVla 3 (seq [SUse 8; SBreak]))); SDefault (SUse 9)]));
     SLabel 0 (SUse 10)])).

Example sample_met :
  numbered sample /\ switches_legal_items sample false = true /\ tidy_items sample false = true /\
  simple (SBlock sample) = true /\ (exists code, compile sample = Some code).
Proof.
  split; [concrete|]. repeat split; try reflexivity. vm_compute. eexists. reflexivity.
Qed.

(* the expression e5 is reached, with three arrays; after the goto, e10 with one *)
Example sample_alive :
  (let st := run sample 5 [false; true; true; true] in
   steps (code_of sample) (initial 1000 (fun _ => 12345)) st /\
   nth_error (code_of sample) (pc st) = Some (Use 5) /\
   area st 0%nat = Some (896, 100) /\ area st 1%nat = Some (792, 100) /\ area st 2%nat = Some (688, 100) /\
   base st = 688) /\
  (let st := run sample 10 [false; true; true; false] in
   steps (code_of sample) (initial 1000 (fun _ => 12345)) st /\
   nth_error (code_of sample) (pc st) = Some (Use 10) /\ base st = 896).
Proof. split; (split; [apply run_steps|]); vm_compute; repeat split; reflexivity. Qed.

(* two arrays in a block, nothing between them *)
Definition sample2 : items :=
  IVla 0 (IStmt (SUse 0) (IVla 1 (seq [SUse 1; SWhile 2 (SBlock (IVla 2 (seq [SIf 3 SBreak (SUse 4)]))); SUse 5]))).
Example sample2_met :
  numbered sample2 /\ switches_legal_items sample2 false = true /\ tidy_items sample2 false = true /\
  (exists code, compile sample2 = Some code) /\
  nth_error (code_of sample2) (pc (run sample2 5 [true])) = Some (Use 5).
Proof.
  split; [concrete|]. repeat split; try reflexivity. vm_compute. eexists. reflexivity.
Qed.

(* a goto out of two blocks and back, and a function that is refused for each reason *)
Example goto_met :
  numbered sample /\ (exists code, compile sample = Some code) /\ In (11, 0)%nat (gotos_items sample).
Proof.
  split; [concrete|]. split; [vm_compute; eexists; reflexivity|]. simpl. tauto.
Qed.
Example goto_refused :
  (* goto into the scope of an array; an undefined label; a label twice *)
  compile (IStmt (SGoto 0 0) (IVla 0 (seq [SLabel 0 (SUse 1)]))) = None /\
  compile (seq [SGoto 0 0]) = None /\
  compile (seq [SLabel 0 (SUse 0); SLabel 0 (SUse 1)]) = None /\
  (* break, continue, case and a second default *)
  compile (seq [SBreak]) = None /\ compile (seq [SSwitch 0 SContinue]) = None /\
  compile (seq [SCase (SUse 0)]) = None /\
  compile (seq [SSwitch 0 (SBlock (seq [SDefault (SUse 1); SDefault (SUse 2)]))]) = None.
Proof. repeat split; reflexivity. Qed.
Example accepted_met :
  let body := seq [SGoto 0 0; SBlock (seq [SLabel 0 (SUse 1); SWhile 2 (SLabel 1 (SGoto 3 0))])] in
  NoDup (label_names_items body) /\ bound_items body false false false = true /\
  one_default_items body = true /\ arrays_items body = [] /\
  (forall k l, In (k, l) (gotos_items body) -> In l (label_names_items body)).
Proof.
  repeat split; try reflexivity.
  - simpl. repeat (constructor; [simpl; intuition discriminate|]). constructor.
  - simpl. intros k l [H|[H|[]]]; inversion H; auto.
Qed.

(** ** Refutations *)

(** A break between two arrays of the block around its loop releases the first, which is
    still in scope, and the second gets the same storage:
<<
  { int a[n]; while (e0) { break; } int b[m]; e1; }
>> *)
Definition between : items :=
  IVla 0 (IStmt (SWhile 0 (SBlock (seq [SBreak]))) (IVla 1 (seq [SUse 1]))).
Theorem c55_alive_between_refuted :
  exists body code top garbage st k,
    numbered body /\ switches_legal_items body false = true /\ gotos_items body = [] /\
    bound_items body false false false = true /\
    compile body = Some code /\ steps code (initial top garbage) st /\
    nth_error code (pc st) = Some (Use k) /\ ~ alive top body k st.
Proof.
  exists between, (code_of between), 1000, (fun _ => 12345), (run between 1 [false]), 1%nat.
  split; [concrete|]. repeat (split; [reflexivity|]). split; [apply run_steps|].
  split; [reflexivity|]. intros (_ & D).
  assert (V0 : visible_items (AtUse 1) 0 between) by (simpl; tauto).
  assert (V1 : visible_items (AtUse 1) 1 between) by (simpl; tauto).
  specialize (D 0%nat 1%nat 896 100 896 100 V0 V1 ltac:(discriminate) eq_refl eq_refl). lia.
Qed.

(** A break before the first array of a block releases the array of the block around it:
<<
  { int z[n]; while (e0) { if (e1) break; int a[m]; e2; } e3; }
>> *)
Definition before : items :=
  IVla 0 (seq [SWhile 0 (SBlock (IStmt (SIf 1 SBreak (SBlock INil)) (IVla 1 (seq [SUse 2])))); SUse 3]).
Theorem c55_alive_before_refuted :
  exists body code top garbage st k,
    numbered body /\ switches_legal_items body false = true /\ gotos_items body = [] /\
    bound_items body false false false = true /\ simple (SBlock body) = true /\
    compile body = Some code /\ steps code (initial top garbage) st /\
    nth_error code (pc st) = Some (Use k) /\ ~ alive top body k st.
Proof.
  exists before, (code_of before), 1000, (fun _ => 12345), (run before 3 [false; false]), 3%nat.
  split; [concrete|]. repeat (split; [reflexivity|]). split; [apply run_steps|].
  split; [reflexivity|]. intros (D & _).
  assert (V0 : visible_items (AtUse 3) 0 before) by (simpl; tauto).
  destruct (D _ V0) as (lo & size & A & _ & B & _). vm_compute in A. inversion A; subst.
  vm_compute in B. apply B. reflexivity.
Qed.

(** After a block with two arrays the first stays allocated:
<<
  { { int a[n]; int b[m]; e0; } e1; }
>> *)
Definition two : items := seq [SBlock (IVla 0 (IVla 1 (seq [SUse 0]))); SUse 1].
Theorem c55_released_two_refuted :
  exists body code top garbage st k,
    numbered body /\ switches_legal_items body false = true /\ gotos_items body = [] /\
    bound_items body false false false = true /\ tidy_items body false = true /\
    compile body = Some code /\ steps code (initial top garbage) st /\
    nth_error code (pc st) = Some (Use k) /\
    (forall v, ~ visible_items (AtUse k) v body) /\ base st <> top.
Proof.
  exists two, (code_of two), 1000, (fun _ => 12345), (run two 1 []), 1%nat.
  split; [concrete|]. repeat (split; [reflexivity|]). split; [apply run_steps|].
  split; [reflexivity|]. split.
  - intros v V. simpl in V. intuition discriminate.
  - vm_compute. discriminate.
Qed.

(** So a loop around it uses up the stack: every round takes a new part. *)
Definition loop_two : items := seq [SWhile 0 (SBlock (IVla 0 (IVla 1 (seq [SUse 1])))); SUse 2].
Theorem c55_loop_leaks_refuted :
  exists body code top garbage st k,
    numbered body /\ switches_legal_items body false = true /\ gotos_items body = [] /\
    bound_items body false false false = true /\ tidy_items body false = true /\
    compile body = Some code /\ steps code (initial top garbage) st /\
    nth_error code (pc st) = Some (Use k) /\
    (forall v, ~ visible_items (AtUse k) v body) /\ base st = top - 520.
Proof.
  exists loop_two, (code_of loop_two), 1000, (fun _ => 12345), (run loop_two 2 (repeat false 5 ++ [true])), 2%nat.
  split; [concrete|]. repeat (split; [reflexivity|]). split; [apply run_steps|].
  split; [reflexivity|]. split.
  - intros v V. simpl in V. intuition discriminate.
  - vm_compute. reflexivity.
Qed.

(** A goto that meets the constraint is refused:
<<
  { goto l; { l: e1; int a[n]; e2; } }
>> *)
Definition into : items := seq [SGoto 0 0; SBlock (IStmt (SLabel 0 (SUse 1)) (IVla 0 (seq [SUse 2])))].
Theorem c55_goto_accepted_refuted :
  exists body, numbered body /\ NoDup (label_names_items body) /\
    (forall k l, In (k, l) (gotos_items body) -> In l (label_names_items body)) /\
    gotos_legal body /\ bound_items body false false false = true /\ compile body = None.
Proof.
  exists into. split; [concrete|]. split; [repeat constructor; simpl; tauto|].
  split; [simpl; intros k l [H|[]]; inversion H; auto|].
  split; [|split; reflexivity].
  intros k l [H|[]] v V. inversion H; subst. simpl in V. intuition discriminate.
Qed.

(** A case label in the scope of an array declared in the switch is accepted, 6.8.4.2p2:
<<
  switch (e0) { int a[n]; case 1: e1; }
>> *)
Definition case_in_scope : items := seq [SSwitch 0 (SBlock (IVla 0 (seq [SCase (SUse 1)])))].
Theorem c55_switch_constraint_refuted :
  exists body code top garbage st k v,
    numbered body /\ tidy_items body false = true /\
    switches_legal_items body false = false /\
    compile body = Some code /\ steps code (initial top garbage) st /\
    nth_error code (pc st) = Some (Use k) /\
    visible_items (AtUse k) v body /\ area st v = None.
Proof.
  exists case_in_scope, (code_of case_in_scope), 1000, (fun _ => 12345), (run case_in_scope 1 [true]), 1%nat, 0%nat.
  split; [concrete|]. repeat (split; [reflexivity|]). split; [apply run_steps|].
  split; [reflexivity|]. split; [simpl; tauto|reflexivity].
Qed.

Print Assumptions c55_alive_partial.
Print Assumptions c55_released_partial.
Print Assumptions c55_no_arrays.
Print Assumptions c55_aligned.
Print Assumptions c55_goto_constraint.
Print Assumptions c55_bound.
Print Assumptions c55_accepted_partial.
Print Assumptions c55_alive_between_refuted.
Print Assumptions c55_alive_before_refuted.
Print Assumptions c55_released_two_refuted.
Print Assumptions c55_loop_leaks_refuted.
Print Assumptions c55_goto_accepted_refuted.
Print Assumptions c55_switch_constraint_refuted.
