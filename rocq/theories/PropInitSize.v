(** C66: an array of unknown size gets the size that its initializer determines. *)
From Coq Require Import Bool List String Arith ZArith Lia.
From Verif Require Import TravModel InitSizeModel InitSizeSpec InitSizeProofs.
Import ListNotations.
Open Scope list_scope.
Open Scope nat_scope.

(** The list is not a string literal in braces for the whole array. *)
Definition not_string (e : ty) (v : value) : Prop :=
  match head v with Some (VString _ stop) => stop (Array None e) = false | _ => True end.

Lemma complete_list : forall W fuel len e l, not_string e (VList l) ->
  complete W fuel len e (VList l) = bind (analyze W fuel (Array None e) l (start e) 0) (fun y => let '(s, n, _) := y in Done (end_event W s n)).
Proof.
  intros W fuel len e l H. unfold not_string in H. unfold complete. destruct (head (VList l)) as [[]|]; try reflexivity.
  now rewrite H.
Qed.

(** Whatever the elements are (nested lists, strings, structures, scalars with their braces left out), the size is one
    more than the greatest index of an element of the array in which something is placed.  Missing for the full
    claim: designators of several levels with another designator after them ([c66_deep_designator_refuted]), and indices
    whose successor is not a kefir_size_t ([c66_negative_index_refuted]). *)
Theorem c66_size_partial : forall W fuel len e l N, shallow l -> not_string e (VList l) ->
  complete W fuel len e (VList l) = Done N ->
  exists s n il, analyze W fuel (Array None e) l (start e) 0 = Done (s, n, il)
    /\ ((forall i, In i il -> i + 1 < W) -> sized il N).
Proof.
  intros W fuel len e l N Sh Ns H. rewrite complete_list in H by assumption.
  destruct (bind_done _ _ _ H) as ([[s n] il] & A & E). injection E as <-. exists s, n, il. split; [exact A|]. intros Lt.
  destruct (shallow_ok W e fuel l (start e) _ 0 s n il Sh (rooted_one e {| lobj := Array None e; linit := true; lpos := 0 |} eq_refl) (fun _ => le_n 0) A)
    as (b2 & R2 & _ & B2 & L2 & K2).
  rewrite (end_of W e s b2 n R2). specialize (L2 Lt).
  assert (used b2 mod W = used b2) as ->.
  { destruct B2 as [->|[B2 I2]].
    - change (0 mod W = 0). destruct W; [reflexivity|]. apply Nat.mod_0_l. lia.
    - rewrite (used_on b2 I2). apply Nat.mod_small. now apply Lt. }
  split; [exact L2|].
  destruct (largest il) as [->|(i & I & M)].
  - left. destruct (K2 0) as [A0 B0]; [|lia]. split; [lia|]. split; [cbn; lia|intros i []].
  - right. exists i. split; [assumption|]. specialize (L2 i I).
    destruct (K2 (S i)) as [A0 B0]; [|lia]. split; [lia|]. split; [cbn; lia|]. intros j J. specialize (M j J). lia.
Qed.

(** If every element of the list initializes one element of the array as a whole, the array gets the size of 6.7.9p22,
    the indices being counted as 6.7.9p17 says, and the list is accepted. *)
Theorem c66_whole_elements : forall W fuel len e l il, indexes 0 l il -> (forall i, In i il -> i + 1 < W) ->
  Forall (fun x => match x with Entry _ v => whole e v end) l -> not_string e (VList l) ->
  exists N, complete W (S fuel) len e (VList l) = Done N /\ sized il N.
Proof.
  intros W fuel len e l il Ix Lt Wh Ns.
  destruct (whole_analyze W e fuel 0 l il Ix Wh {| lobj := Array None e; linit := true; lpos := 0 |} 0 eq_refl eq_refl) as (b2 & n2 & A & L).
  assert (C : complete W (S fuel) len e (VList l) = Done (end_event W [b2] n2)).
  { rewrite complete_list by assumption. unfold start. cbn [push_layer]. rewrite A. reflexivity. }
  exists (end_event W [b2] n2). split; [exact C|].
  destruct (c66_size_partial W (S fuel) len e l _ (indexes_shallow _ _ _ Ix) Ns C) as (s & n & il' & A' & S').
  unfold start in A'. cbn [push_layer] in A'. rewrite A in A'. injection A' as _ _ <-. now apply S'.
Qed.

(** 6.7.9p14-15: a string literal, in braces or not, gives its own length; other expressions are rejected. *)
Theorem c66_string : forall W fuel len e k stop, stop (Array None e) = true ->
  complete W fuel len e (VString k stop) = Done (len k)
  /\ complete W fuel len e (VList [Entry None (VString k stop)]) = Done (len k).
Proof. intros W fuel len e k stop H. unfold complete. cbn [head]. rewrite H. auto. Qed.

Theorem c66_expression_rejected : forall W fuel len e v, (forall l, v <> VList l) -> not_string e v ->
  complete W fuel len e v = Fail.
Proof.
  intros W fuel len e v NL NS. unfold complete, not_string in *. destruct v as [l|k stop|k|k fits]; cbn [head] in *; try reflexivity.
  - now destruct (NL l).
  - now rewrite NS.
Qed.

(** * Refutations *)
Definition int := Scalar 0.
Definition row := Array (Some 2) int.

(** [int a[][2] = { [5][1] = 1, [0] = { 2, 3 } };]: a[5][1] is initialized, but the array gets one element, since the
    second designator drops the layers of the first without an event; the initialization of a[5][1] is outside. *)
Definition late : list entry :=
  [Entry (Some [DIndex 1; DIndex 5]) (VScalar 1); Entry (Some [DIndex 0]) (VList [Entry None (VScalar 2); Entry None (VScalar 3)])].
Theorem c66_deep_designator_refuted : forall W fuel len, 6 < W -> 4 <= fuel ->
  complete W fuel len row (VList late) = Done 1
  /\ (exists s n, analyze W fuel (Array None row) late (start row) 0 = Done (s, n, [5; 0]))
  /\ traverse_list fuel (Array None row) late =
     Done [([DIndex 1; DIndex 5], int, VScalar 1); ([DIndex 0], row, VList [Entry None (VScalar 2); Entry None (VScalar 3)])]
  /\ ~ sized [5; 0] 1.
Proof.
  intros W fuel len HW H. do 4 (destruct fuel as [|fuel]; [lia|]). do 7 (destruct W as [|W]; [lia|]).
  split; [unfold complete, late; cbn -[Nat.modulo]; rewrite (Nat.mod_small 1) by lia; reflexivity|].
  split; [do 2 eexists; reflexivity|].
  split; [reflexivity|]. intros [A _]. specialize (A 5 (or_introl eq_refl)). lia.
Qed.

(** [int a[] = { [-1] = 1 };]: the sign of the index is not checked (6.7.9p6 requires a nonnegative value); the greatest
    kefir_size_t plus one is 0, so the array is accepted with no element although one is initialized. *)
Theorem c66_negative_index_refuted : forall W fuel len e v, 2 <= W -> whole e v -> not_string e (VList [Entry (Some [DIndex (index_of W (-1))]) v]) ->
  complete W (S fuel) len e (VList [Entry (Some [DIndex (index_of W (-1))]) v]) = Done 0
  /\ exists s n, analyze W (S fuel) (Array None e) [Entry (Some [DIndex (index_of W (-1))]) v] (start e) 0 = Done (s, n, [W - 1]).
Proof.
  intros W fuel len e v HW Wh Ns.
  assert (Ix : index_of W (-1) = S (W - 2)).
  { unfold index_of. replace (-1)%Z with ((Z.of_nat W - 1) + (-1) * Z.of_nat W)%Z by lia.
    rewrite Z.mod_add, Z.mod_small by lia. lia. }
  rewrite Ix in *.
  assert (A : analyze W (S fuel) (Array None e) [Entry (Some [DIndex (S (W - 2))]) v] (start e) 0
              = Done ([{| lobj := Array None e; linit := false; lpos := W - 1 |}], 0, [W - 1])).
  { cbn [analyze]. unfold navigate. cbn [navigate_impl push_layer bind navigate_index lobj].
    rewrite (whole_place W e fuel v (at_ {| lobj := Array None e; linit := true; lpos := 0 |} (W - 2)) 0 eq_refl Wh). unfold at_, used. cbn [bind lobj linit lpos root rev app].
    replace (W - 2 + 1) with (W - 1) by lia. replace (W - 1 + 1) with (1 * W) by lia. rewrite Nat.mod_mul by lia. reflexivity. }
  split; [|do 2 eexists; exact A]. rewrite complete_list by assumption. rewrite A. cbn [bind end_event rev app lpos linit].
  replace (W - 1 + 1) with (1 * W) by lia. rewrite Nat.mod_mul by lia. reflexivity.
Qed.

(** A list that begins with a string literal is taken for the literal in braces whatever follows and whatever the
    designator: [char a[] = { [2] = "ab", 'c', [7] = 'd' }] is accepted (6.7.9p2, p11 and p14 forbid it) and gets the length of
    the literal. *)
Theorem c66_string_list_refuted : forall W fuel len e k stop d rest, stop (Array None e) = true ->
  complete W fuel len e (VList (Entry d (VString k stop) :: rest)) = Done (len k).
Proof. intros W fuel len e k stop d rest H. unfold complete. cbn [head]. now rewrite H. Qed.

(** * Cases that meet the hypotheses *)

(** [int a[][2] = { 1, 2, 3, [4] = { 5 }, 6, [2][1] = 7, 8 };] *)
Definition mixed : list entry :=
  [Entry None (VScalar 1); Entry None (VScalar 2); Entry None (VScalar 3); Entry (Some [DIndex 4]) (VList [Entry None (VScalar 5)]);
   Entry None (VScalar 6); Entry (Some [DIndex 1; DIndex 2]) (VScalar 7); Entry None (VScalar 8)].
Example c66_mixed_case : shallow mixed /\ not_string row (VList mixed)
  /\ complete 1000 5 (fun _ => 0) row (VList mixed) = Done 6
  /\ exists s n, analyze 1000 5 (Array None row) mixed (start row) 0 = Done (s, n, [0; 0; 1; 4; 5; 2; 3]).
Proof.
  split; [cbn; repeat (left; split; [reflexivity|]); right; repeat constructor|].
  split; [exact Logic.I|]. split; [reflexivity|]. do 2 eexists. reflexivity.
Qed.

(** [int a[] = { 1, [7] = 2, [3] = 3, 4 };] *)
Definition single : list entry :=
  [Entry None (VScalar 1); Entry (Some [DIndex 7]) (VScalar 2); Entry (Some [DIndex 3]) (VScalar 3); Entry None (VScalar 4)].
Example c66_single_case : indexes 0 single [0; 7; 3; 4] /\ (forall i, In i [0; 7; 3; 4] -> i + 1 < 1000) /\ Forall (fun x => match x with Entry _ v => whole int v end) single
  /\ not_string int (VList single) /\ complete 1000 1 (fun _ => 0) int (VList single) = Done 8.
Proof.
  split; [repeat constructor|]. split; [cbn; intros i Hi; lia|]. split; [repeat constructor|]. split; [exact Logic.I|reflexivity].
Qed.

(** [char a[][3] = { "ab", { 'c' } };]: strings that fill one element *)
Definition char_row := Array (Some 3) (Scalar 1).
Definition fills (t : ty) : bool := match t with Array _ (Scalar 1) => true | _ => false end.
Example c66_rows_case : let l := [Entry None (VString 1 fills); Entry None (VList [Entry None (VScalar 2)])] in
  indexes 0 l [0; 1] /\ Forall (fun x => match x with Entry _ v => whole char_row v end) l
  /\ not_string char_row (VList l) /\ complete 1000 1 (fun _ => 3) char_row (VList l) = Done 2
  /\ complete 1000 1 (fun _ => 3) (Scalar 1) (VString 1 fills) = Done 3.
Proof.
  cbv zeta. split; [repeat constructor|]. split; [constructor; [left; reflexivity|repeat constructor]|].
  split; [reflexivity|split; reflexivity].
Qed.

Print Assumptions c66_size_partial.
Print Assumptions c66_whole_elements.
Print Assumptions c66_string.
Print Assumptions c66_expression_rejected.
Print Assumptions c66_deep_designator_refuted.
Print Assumptions c66_string_list_refuted.
Print Assumptions c66_negative_index_refuted.
