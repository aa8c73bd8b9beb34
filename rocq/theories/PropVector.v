(** C67: vectors are bounded sequences of elements, and the appends of the IR builder never run
    out of room. *)
From Coq Require Import ZArith Bool List Lia.
From Verif Require Import VectorModel VectorSpec VectorProofs.
Import ListNotations.
Open Scope Z_scope.

(** Every sequence of operations on an allocated vector answers what a bounded list answers, and
    none of them reads or writes outside of the allocated region.  (Partial: copies into vectors
    that are not empty, reallocations of empty vectors, failing reallocations and overflowing
    sizes and counts are left out; they are refuted below.) *)
Theorem c67_vector_partial : forall al es c v os,
  allocates al -> 0 < es -> 0 <= c -> es * c < 2 ^ 64 ->
  vector_alloc al es c = Some v -> may es ([], c) os ->
  exists rs v' s', run v os = Some (rs, v') /\ expected_run es ([], c) os rs s'.
Proof.
  intros * AL P C B A M. destruct (run_ok os es v ([], c) (alloc_ok al es c v AL P C B A) M) as (rs & v' & s' & R & X & _). eauto.
Qed.

(** Elements added one after the other to a block through the builder, each with the allocator of
    its moment *)
Fixpoint builds (v : vec) (xs : list (allocator * bytes)) : option vec :=
  match xs with
  | [] => Some v
  | (al, x) :: xs => match build al v x with Some (Ok, v') => builds v' xs | _ => None end
  end.

Lemma builds_ok : forall xs es v l c, holds es v (l, c) ->
  Forall (fun p => generous (fst p) /\ count (snd p) = es) xs ->
  es * (3 * (count l + count xs) + 5) < 2 ^ 64 ->
  exists v' c', builds v xs = Some v' /\ holds es v' (l ++ map snd xs, c').
Proof.
  induction xs as [|[al x] xs]; intros * H F B; cbn [builds map snd].
  - rewrite app_nil_r. eauto.
  - inversion F as [|? ? [G X] F']; subst. cbn [fst snd] in *.
    assert (count ((al, x) :: xs) = 1 + count xs) as CX by (unfold count; cbn [length]; lia). rewrite CX in B.
    pose proof (count_nonneg _ xs). pose proof (count_nonneg _ l). pose proof H as (_ & _ & _ & P & _).
    destruct (build_ok al _ v l c x H eq_refl G) as (v1 & c1 & A & HB); [nia|]. rewrite A.
    destruct (IHxs _ v1 (l ++ [x]) c1 HB F') as (v2 & c2 & A2 & H2).
    { rewrite count_app. change (count [x]) with 1. nia. }
    rewrite <- app_assoc in H2. eauto.
Qed.

(** Whatever the initial capacity, as long as there is memory every append of the builder
    succeeds; afterwards the element with number i is the i-th one that was added, and there are
    no others: numbers taken earlier (the targets of jumps) stay valid. *)
Theorem c67_builder : forall al es c v xs,
  allocates al -> 0 < es -> 0 <= c -> es * c < 2 ^ 64 -> block_alloc al es c = Some v ->
  Forall (fun p => generous (fst p) /\ count (snd p) = es) xs -> es * (3 * count xs + 5) < 2 ^ 64 ->
  exists v', builds v xs = Some v' /\ v_length v' = count xs /\
    forall i, 0 <= i -> get v' i = Some (nth_error (map snd xs) (Z.to_nat i)).
Proof.
  intros * AL P C B A F BB.
  destruct (builds_ok xs es v [] c (block_alloc_ok al es c v AL P C B A) F) as (v' & c' & R & H).
  { change (count (@nil (list Z))) with 0. exact BB. }
  cbn [app] in H. exists v'. split; [exact R|].
  split; [destruct H as (_ & L & _); cbn [fst] in L; rewrite L; unfold count; now rewrite map_length|].
  intros i I0. destruct (get_ok es v' _ c' i H I0) as (r & S & X). cbn [step] in S.
  destruct (get v' i) as [[x|]|]; [injection S as <-|injection S as <-|discriminate S]; inversion X; subst.
  - congruence.
  - f_equal. symmetry. apply nth_error_None. unfold count in *. lia.
Qed.

Definition zeros : allocator := fun n => Some (repeat 0 (Z.to_nat n)).
Lemma zeros_generous : generous zeros.
Proof.
  split; [|discriminate]. intros n b N E. injection E as <-. unfold count. rewrite repeat_length. lia.
Qed.

(** The hypotheses are met: a vector is filled, read, changed, enlarged and filled again. *)
Example c67_case :
  exists v, vector_alloc zeros 2 2 = Some v /\
  may 2 ([], 2) [Append [1; 2]; Append [3; 4]; Append [5; 6]; Set_ 0 [7; 8]; Realloc 3 zeros; Append [5; 6]; Get 0; Get 2; Available] /\
  option_map fst (run v [Append [1; 2]; Append [3; 4]; Append [5; 6]; Set_ 0 [7; 8]; Realloc 3 zeros; Append [5; 6]; Get 0; Get 2; Available])
    = Some [Done; Done; Refused; Done; Done; Done; Element [7; 8]; Element [5; 6]; Number 0].
Proof.
  eexists. split; [reflexivity|]. split; [|reflexivity].
  assert (allocates zeros) by apply zeros_generous.
  Ltac next_op := cbn [may]; split; [cbn [sensible fst snd]; repeat apply conj; try (unfold count; cbn; lia); try assumption; try exact I|
    split; [cbn [supported fst snd]; try exact I; try (split; [discriminate|intros; discriminate])|
    let X := fresh in intros ? ? X; inversion X; subst; clear X; try (exfalso; unfold count in *; cbn in *; lia)]].
  do 9 next_op; exact I.
Qed.

Example c67_builder_case :
  match block_alloc zeros 1 0 with
  | Some v => option_map (fun v' => (v_length v', v_capacity v', get v' 6, get v' 7)) (builds v (map (fun x => (zeros, [x])) [10; 11; 12; 13; 14; 15; 16]))
  | None => None
  end = Some (7, 12, Some (Some [16]), Some None).
Proof. vm_compute. reflexivity. Qed.

(** Adding the elements of another vector overwrites those that are there and counts both. *)
Theorem c67_copy_refuted : exists v,
  vector_alloc zeros 1 4 = Some v /\
  option_map fst (run v [Append [1]; Append [2]; Copy [[3]]; Get 0; Get 2]) = Some [Done; Done; Done; Element [3]; Element [0]] /\
  ~ exists s, expected_run 1 ([], 4) [Append [1]; Append [2]; Copy [[3]]; Get 0; Get 2] [Done; Done; Done; Element [3]; Element [0]] s.
Proof.
  eexists. split; [reflexivity|]. split; [reflexivity|]. intros [s R].
  repeat match goal with
  | H : expected_run _ _ (_ :: _) _ _ |- _ => inversion H; subst; clear H
  | H : expected _ _ _ Done _ |- _ => inversion H; subst; clear H
  end.
  match goal with H : expected _ _ (Get 0) _ _ |- _ => inversion H; subst; clear H end.
  cbn in *. discriminate.
Qed.

(** A vector that is allocated and still empty cannot be enlarged, however much memory there is. *)
Theorem c67_empty_realloc_refuted : exists v,
  vector_alloc zeros 1 4 = Some v /\
  vector_realloc zeros 8 v = (InvalidState, v) /\
  ~ exists s, expected 1 ([], 4) (Realloc 8 zeros) Refused s.
Proof.
  eexists. split; [reflexivity|]. split; [reflexivity|]. intros [s X].
  inversion X as [| | | | | | | | | | | ? ? ? ? [N|N] | | ]; subst; [unfold count in N; cbn in N; lia|discriminate N].
Qed.

(** A reallocation that fails loses the elements. *)
Theorem c67_failed_realloc_refuted : exists v,
  vector_alloc zeros 1 4 = Some v /\
  option_map fst (run v [Append [1]; Realloc 8 (fun _ => None); Get 0]) = Some [Done; Refused; Absent] /\
  ~ exists s, expected_run 1 ([], 4) [Append [1]; Realloc 8 (fun _ => None); Get 0] [Done; Refused; Absent] s.
Proof.
  eexists. split; [reflexivity|]. split; [reflexivity|]. intros [s R].
  repeat match goal with
  | H : expected_run _ _ (_ :: _) _ _ |- _ => inversion H; subst; clear H
  | H : expected _ _ (Append _) _ _ |- _ => inversion H; subst; clear H
  | H : expected _ _ (Realloc _ _) _ _ |- _ => inversion H; subst; clear H
  | H : expected _ _ (Get _) _ _ |- _ => inversion H; subst; clear H
  end; unfold count in *; cbn in *; lia.
Qed.

(** A block that was emptied by reallocating it to nothing still accepts instructions from the
    builder, but keeps none of their bytes: its elements have size 0 from then on. *)
Theorem c67_reuse_refuted : forall x,
  exists v v1 v2, block_alloc zeros 8 1 = Some v /\ block_realloc zeros 0 v = (Ok, v1) /\
    build zeros v1 x = Some (Ok, v2) /\ v_length v2 = 1 /\ get v2 0 = Some (Some []).
Proof.
  intros. exists {| v_elem := 8; v_content := Some (repeat 0 8); v_length := 0; v_capacity := 1 |}, nothing,
    {| v_elem := 0; v_content := Some []; v_length := 1; v_capacity := 5 |}.
  split; [reflexivity|]. split; [reflexivity|]. split; [|split]; [|reflexivity|reflexivity].
  unfold build. cbn -[load]. unfold vector_append. cbn -[load].
  replace (load x 0 0) with (Some (@nil Z)); [reflexivity|].
  unfold load, size. cbn. destruct (Z.leb_spec 0 (Z.of_nat (length x))); [reflexivity|lia].
Qed.

(** The size of the region is not checked for overflow: a vector for 2^60+1 elements of 16 bytes
    gets 16 bytes, and the second element is written outside of them. *)
Theorem c67_overflow_refuted : exists v, forall x y, count x = 16 -> count y = 16 ->
  vector_alloc zeros 16 (2 ^ 60 + 1) = Some v /\
  (exists v1, vector_append v x = Some (Ok, v1) /\ vector_append v1 y = None).
Proof.
  exists {| v_elem := 16; v_content := Some (repeat 0 16); v_length := 0; v_capacity := 2 ^ 60 + 1 |}.
  intros x y X Y. split; [reflexivity|].
  pose proof (load_ok [] x []) as LX. cbn in LX. rewrite app_nil_r in LX. change (count []) with 0 in LX. rewrite X in LX.
  pose proof (load_ok [] y []) as LY. cbn in LY. rewrite app_nil_r in LY. change (count []) with 0 in LY. rewrite Y in LY.
  exists {| v_elem := 16; v_content := Some (x ++ []); v_length := 1; v_capacity := 2 ^ 60 + 1 |}. split.
  - unfold vector_append. cbn [v_length v_capacity v_elem v_content].
    change (0 <? 2 ^ 60 + 1) with true. cbv iota. rewrite LX. change (wrap (0 * 16)) with (count (@nil Z)).
    unfold store_at. change (repeat 0 16) with ([] ++ repeat 0 16 ++ @nil Z).
    rewrite store_ok by (rewrite X; reflexivity). reflexivity.
  - unfold vector_append. cbn [v_length v_capacity v_elem v_content].
    change (1 <? 2 ^ 60 + 1) with true. cbv iota. rewrite LY. change (wrap (1 * 16)) with 16.
    unfold store_at, store, size. rewrite app_nil_r.
    change (Z.of_nat (length y)) with (count y). change (Z.of_nat (length x)) with (count x). rewrite X, Y. reflexivity.
Qed.

(** An extension that overflows is accepted and shortens the vector. *)
Theorem c67_extend_refuted : exists v,
  vector_alloc zeros 1 4 = Some v /\
  option_map fst (run v [Append [1]; Append [2]; Extend (2 ^ 64 - 1); Length]) = Some [Done; Done; Done; Number 1] /\
  ~ exists s, expected_run 1 ([], 4) [Append [1]; Append [2]; Extend (2 ^ 64 - 1); Length] [Done; Done; Done; Number 1] s.
Proof.
  eexists. split; [reflexivity|]. split; [reflexivity|]. intros [s R].
  repeat match goal with
  | H : expected_run _ _ (_ :: _) _ _ |- _ => inversion H; subst; clear H
  | H : expected _ _ (Append _) Done _ |- _ => inversion H; subst; clear H
  | H : expected _ _ (Extend _) Done _ |- _ => inversion H; subst; clear H
  end.
  match goal with H : count _ + _ <= 4 |- _ => unfold count in H; cbn in H; lia end.
Qed.

(** Copying an empty block that has room is refused. *)
Theorem c67_copy_empty_refuted : exists d s,
  block_alloc zeros 8 4 = Some d /\ block_alloc zeros 8 2 = Some s /\ v_length s = 0 /\
  block_copy d s = Some (InvalidParameter, d).
Proof. do 2 eexists. repeat split; reflexivity. Qed.

Print Assumptions c67_vector_partial.
Print Assumptions c67_builder.
Print Assumptions c67_copy_refuted.
Print Assumptions c67_empty_realloc_refuted.
Print Assumptions c67_failed_realloc_refuted.
Print Assumptions c67_reuse_refuted.
Print Assumptions c67_overflow_refuted.
Print Assumptions c67_extend_refuted.
Print Assumptions c67_copy_empty_refuted.
