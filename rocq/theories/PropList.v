(** C62.  Programs that use the linked lists through their functions see lists: every allowed
    sequence of calls runs without touching memory that is not there, answers as lists of
    values do, releases what it removes and nothing else. *)

From Coq Require Import ZArith Lia Bool List.
From Verif Require Import ListModel ListSpec ListProofs.
Import ListNotations.
Open Scope Z_scope.
Local Notation length := List.length.

(** The state of a program holds the lists of a world; all else in the heap is as it was *)
Record related (foreign : heap) (w : world) (s : state) : Prop := {
  r_holds : forall i xs, w_items w i = Some xs -> holds (s_heap s) (s_list s i) xs;
  r_apart : forall i j a, i <> j -> in_list a i w -> ~ in_list a j w;
  r_own : forall i a, in_list a i w -> foreign a = None;
  r_rest : forall a, (forall i, ~ in_list a i w) -> s_heap s a = foreign a;
  r_callback : forall i, live i w -> l_callback (s_list s i) = w_callback w i;
  r_called : s_called s = w_called w }.

Lemma list_of_some : forall i w xs, w_items w i = Some xs -> list_of i w = xs.
Proof. intros i w xs E. unfold list_of. rewrite E. reflexivity. Qed.
Lemma live_some : forall i w, live i w -> exists xs, w_items w i = Some xs.
Proof. intros i w L. unfold live in L. destruct (w_items w i) as [xs|]; [exists xs; reflexivity | contradiction]. Qed.
Definition positions (o : option items) : list Z := match o with Some l => map fst l | None => [] end.

(** One list changes *)
Lemma change_one : forall foreign w s i xs o l' h' c, related foreign w s -> w_items w i = Some xs ->
  (forall xs', o = Some xs' -> holds h' l' xs') -> l_callback l' = l_callback (s_list s i) ->
  (forall a, In a (positions o) -> In a (map fst xs) \/ (foreign a = None /\ forall j, ~ in_list a j w)) ->
  (forall a, In a (map fst xs) -> ~ In a (positions o) -> h' a = None) ->
  (forall a, ~ In a (map fst xs) -> ~ In a (positions o) -> h' a = s_heap s a) ->
  related foreign (set_items i o c w) (with_list i l' h' c s).
Proof.
  intros foreign w s i xs o l' h' c R E H CB NEW GONE SAME. destruct R as [R1 R2 R3 R4 R5 R6].
  assert (IN : forall a j, in_list a j (set_items i o c w) -> (j = i /\ In a (positions o)) \/ (j <> i /\ in_list a j w)).
  { intros a j (l & L & K). cbn [set_items w_items] in L. destruct (Nat.eqb_spec j i) as [->|N]; [left; split; [reflexivity | subst o; exact K] | right; split; [exact N | exists l; auto]]. }
  assert (MY : forall a, In a (map fst xs) -> in_list a i w) by (intros a K; exists xs; auto).
  assert (OTHER : forall a j, j <> i -> in_list a j w -> ~ In a (map fst xs) /\ ~ In a (positions o)).
  { intros a j N K. assert (NX : ~ In a (map fst xs)) by (intros X; exact (R2 j i a N K (MY a X))). split; [exact NX|].
    intros X. destruct (NEW a X) as [Y|[_ Y]]; [contradiction | exact (Y j K)]. }
  constructor.
  - intros j ys Y. cbn [set_items w_items] in Y. cbn [with_list s_heap s_list]. destruct (Nat.eqb_spec j i) as [->|N]; [apply H; exact Y|].
    destruct (R1 j ys Y) as [A B C D F]. constructor; try assumption. apply (seg_out (s_heap s)); [|exact A]. intros b K.
    destruct (OTHER b j N) as [X Z]; [exists ys; auto|]. apply SAME; assumption.
  - intros j k a N A B. destruct (IN a j A) as [[-> A']|[A1 A2]]; destruct (IN a k B) as [[-> B']|[B1 B2]].
    + contradiction.
    + destruct (OTHER a k B1 B2). contradiction.
    + destruct (OTHER a j A1 A2). contradiction.
    + exact (R2 j k a N A2 B2).
  - intros j a A. destruct (IN a j A) as [[-> A']|[A1 A2]]; [|exact (R3 j a A2)]. destruct (NEW a A') as [X|[X _]]; [exact (R3 i a (MY a X)) | exact X].
  - intros a A. cbn [with_list s_heap].
    assert (NP : ~ In a (positions o)).
    { intros X. apply (A i). unfold in_list. cbn [set_items w_items]. rewrite Nat.eqb_refl. destruct o as [l|]; [exists l; auto | contradiction]. }
    destruct (in_dec Z.eq_dec a (map fst xs)) as [X|X].
    + rewrite (GONE a X NP). symmetry. exact (R3 i a (MY a X)).
    + rewrite (SAME a X NP). apply R4. intros j (l & L & K). apply (A j). exists l. cbn [set_items w_items].
      destruct (Nat.eqb_spec j i) as [->|N]; [rewrite L in E; injection E as ->; contradiction | auto].
  - intros j L. cbn [with_list s_list set_items w_callback]. destruct (Nat.eqb_spec j i) as [->|N].
    + rewrite CB. apply R5. unfold live. rewrite E. discriminate.
    + apply R5. unfold live in *. cbn [set_items w_items] in L. rewrite (proj2 (Nat.eqb_neq j i) N) in L. exact L.
  - cbn [with_list s_called set_items w_called]. rewrite R6. reflexivity.
Qed.
(** The state only has to look the same *)
Lemma related_same : forall foreign w w' s, related foreign w s -> (forall i, w_items w' i = w_items w i) -> (forall i, w_callback w' i = w_callback w i) ->
  w_called w' = w_called w -> related foreign w' s.
Proof.
  intros foreign w w' s [R1 R2 R3 R4 R5 R6] A B C.
  assert (IN : forall a i, in_list a i w' <-> in_list a i w) by (intros a i; unfold in_list; rewrite A; tauto).
  constructor.
  - intros i xs E. apply R1. rewrite <- A. exact E.
  - intros i j a N X Y. rewrite IN in *. exact (R2 i j a N X Y).
  - intros i a X. apply (R3 i). apply IN. exact X.
  - intros a X. apply R4. intros i K. apply (X i). apply IN. exact K.
  - intros i L. rewrite B. apply R5. unfold live in *. rewrite <- A. exact L.
  - rewrite C. exact R6.
Qed.
Lemma same_list : forall foreign w s i, related foreign w s -> live i w -> related foreign (set_items i (w_items w i) [] w) (with_list i (s_list s i) (s_heap s) [] s).
Proof.
  intros foreign w s i R L. destruct (live_some i w L) as (xs & E). rewrite E. apply (change_one foreign w s i xs); try assumption; try reflexivity.
  - intros xs' X. injection X as <-. exact (r_holds _ _ _ R i xs E).
  - intros a K. left. exact K.
  - intros a X Y. contradiction.
Qed.

Definition good (foreign : heap) (o : op) (w : world) (s : state) (r : answer) (w' : world) : Prop :=
  exists N s', (forall fuel, (N <= fuel)%nat -> step fuel o s = Some (r, s')) /\ related foreign w' s'.

Lemma set_same : forall i w k, w_items (set_items i (w_items w i) [] w) k = w_items w k.
Proof. intros i w k. cbn. destruct (Nat.eqb_spec k i) as [->|]; reflexivity. Qed.
Lemma unchanged : forall foreign w s i, related foreign w s -> live i w -> related foreign w (with_list i (s_list s i) (s_heap s) [] s).
Proof.
  intros foreign w s i R L. apply (related_same foreign (set_items i (w_items w i) [] w)); [apply same_list; assumption | | reflexivity |].
  - intros k. symmetry. apply set_same.
  - cbn. rewrite app_nil_r. reflexivity.
Qed.

Lemma good_insert : forall foreign w s i ys zs v a o, related foreign w s -> w_items w i = Some (ys ++ zs) -> vacant foreign a w -> a <> 0 ->
  (forall fuel, step fuel o s = (do (ok, l, h) <- list_insert_after a (s_list s i) (last_or ys 0) v (s_heap s); Some (result ok, with_list i l h [] s))) ->
  good foreign o w s AOk (set_items i (Some (ys ++ (a, v) :: zs)) [] w).
Proof.
  intros foreign w s i ys zs v a o R E V N ST. destruct V as [->|[V1 V2]]; [contradiction|]. assert (H := r_holds _ _ _ R i _ E).
  assert (F : s_heap s a = None) by (rewrite (r_rest _ _ _ R a V2); exact V1).
  destruct (insert_holds a v (s_heap s) (s_list s i) ys zs N F H) as (l' & h' & P & Q & CB & SAME).
  exists 0%nat, (with_list i l' h' [] s). split; [intros fuel _; rewrite ST, P; reflexivity|].
  apply (change_one foreign w s i (ys ++ zs)); try assumption.
  - intros xs' X. injection X as <-. exact Q.
  - intros b K. cbn [positions] in K. rewrite map_app in K. cbn [map fst] in K. rewrite map_app, in_app_iff. apply in_app_or in K. cbn [In] in K.
    destruct K as [K|[<-|K]]; auto.
  - intros b X Y. exfalso. apply Y. cbn [positions]. rewrite map_app, in_app_iff in *. cbn [map fst In]. tauto.
  - intros b X Y. apply SAME; [|exact X]. intros ->. apply Y. cbn [positions]. rewrite map_app. apply in_or_app. right. left. reflexivity.
Qed.
Lemma last_final : forall (l : items), last_or l 0 = fst (final l).
Proof. reflexivity. Qed.

Lemma step_good : forall foreign o w s r w', related foreign w s -> allowed foreign o w -> does o w r w' -> good foreign o w s r w'.
Proof.
  intros foreign o w s r w' R A D. destruct D; cbn [allowed] in A.
  - (* init *)
    exists 0%nat, (with_list i list_init (s_heap s) [] s). split; [reflexivity|]. destruct R as [R1 R2 R3 R4 R5 R6].
    set (w' := set_callback i None (set_items i (Some []) [] w)).
    assert (IN : forall a j, in_list a j w' -> in_list a j w).
    { intros a j (l & L & K). cbn in L. destruct (Nat.eqb_spec j i) as [->|N]; [injection L as <-; contradiction | exists l; auto]. }
    constructor.
    + intros j xs E. cbn in E |- *. destruct (Nat.eqb_spec j i) as [->|N]; [injection E as <-; constructor; try reflexivity; constructor | apply R1; exact E].
    + intros j k a N X Y. exact (R2 j k a N (IN a j X) (IN a k Y)).
    + intros j a X. exact (R3 j a (IN a j X)).
    + intros a X. apply R4. intros j (l & L & K). destruct (Nat.eq_dec j i) as [->|N]; [apply A; unfold live; rewrite L; discriminate|].
      apply (X j). exists l. cbn. rewrite (proj2 (Nat.eqb_neq j i) N). auto.
    + intros j L. cbn in *. destruct (Nat.eqb_spec j i) as [->|N]; [reflexivity|]. apply R5. unfold live in *. cbn in L. rewrite (proj2 (Nat.eqb_neq j i) N) in L. exact L.
    + cbn. rewrite !app_nil_r. exact R6.
  - (* on_remove *)
    eexists 0%nat, _. split; [reflexivity|]. destruct R as [R1 R2 R3 R4 R5 R6]. constructor; cbn [set_callback w_items w_callback w_called with_list s_list s_heap s_called].
    + intros j xs E. specialize (R1 j xs E). destruct (Nat.eqb_spec j i) as [->|N]; [|exact R1]. destruct R1. constructor; assumption.
    + exact R2.
    + exact R3.
    + exact R4.
    + intros j L. destruct (Nat.eqb_spec j i) as [->|N]; [reflexivity | apply R5; exact L].
    + rewrite app_nil_r. exact R6.
  - (* insert *)
    destruct A as (L & I & V). destruct (live_some i w L) as (xs & E). rewrite (list_of_some i w xs E). unfold insert. destruct (Z.eqb_spec iter 0) as [->|NI].
    + exact (good_insert foreign w s i [] xs v a (OInsert i 0 v a) R E V H (fun fuel => eq_refl)).
    + destruct I as [->|(l & EL & K)]; [contradiction|]. rewrite E in EL. injection EL as <-. destruct (in_split iter xs K) as (ys & u & zs & ->).
      destruct (split_distinct _ _ _ _ (h_distinct _ _ _ (r_holds _ _ _ R i _ E))) as (NY & _). rewrite insert_split by exact NY.
      apply (good_insert foreign w s i (ys ++ [(iter, u)]) zs v a (OInsert i iter v a)); try assumption.
      * rewrite <- app_assoc. exact E.
      * intros fuel. rewrite last_or_snoc. reflexivity.
  - (* insert, malloc fails *)
    exists 0%nat, (with_list i (s_list s i) (s_heap s) [] s). split; [reflexivity|]. apply unchanged; [exact R | apply A].
  - (* push *)
    destruct A as (L & V). destruct (live_some i w L) as (xs & E). rewrite (list_of_some i w xs E).
    apply (good_insert foreign w s i xs [] v a (OPush i v a)); try assumption.
    + rewrite app_nil_r. exact E.
    + intros fuel. cbn [step]. unfold stack_push. rewrite (h_tail _ _ _ (r_holds _ _ _ R i xs E)). reflexivity.
  - exists 0%nat, (with_list i (s_list s i) (s_heap s) [] s). split; [reflexivity|]. apply unchanged; [exact R | apply A].
  - (* pop *)
    destruct A as (xs & E & K). subst v. rewrite (list_of_some i w xs E) in H |- *. destruct (in_split iter xs K) as (ys & u & zs & ->).
    assert (HH := r_holds _ _ _ R i _ E). destruct (split_distinct _ _ _ _ (h_distinct _ _ _ HH)) as (NY & NZ & _).
    destruct (value_split ys iter u zs NY) as [VA _]. rewrite VA in H |- *. rewrite remove_split by assumption.
    assert (CB := r_callback _ _ _ R i ltac:(unfold live; rewrite E; discriminate)). rewrite <- CB in H |- *.
    destruct (pop_holds _ _ _ _ _ _ HH H) as (l' & h' & P & Q & C & GONE & SAME).
    exists 0%nat, (with_list i l' h' (notes (l_callback (s_list s i)) u) s). split; [intros fuel _; cbn [step]; rewrite P; reflexivity|].
    apply (change_one foreign w s i _ _ l' h' _ R E).
    + intros xs' X. injection X as <-. exact Q.
    + exact C.
    + intros b B. left. cbn [positions] in B. rewrite map_app, in_app_iff in *. cbn [map fst In]. tauto.
    + intros b X Y. cbn [positions] in Y. rewrite map_app, in_app_iff in X, Y. cbn [map fst In] in X. destruct (Z.eq_dec b iter) as [->|NB]; [exact GONE | exfalso].
      destruct X as [X|[X|X]]; [tauto | congruence | tauto].
    + intros b X _. apply SAME. exact X.
  - (* pop, refused *)
    destruct A as (xs & E & K). subst v. rewrite (list_of_some i w xs E) in H |- *. destruct (in_split iter xs K) as (ys & u & zs & ->).
    assert (HH := r_holds _ _ _ R i _ E). destruct (split_distinct _ _ _ _ (h_distinct _ _ _ HH)) as (NY & NZ & _).
    destruct (value_split ys iter u zs NY) as [VA _]. rewrite VA in H |- *.
    assert (CB := r_callback _ _ _ R i ltac:(unfold live; rewrite E; discriminate)). rewrite <- CB in H |- *.
    exists 0%nat, (with_list i (s_list s i) (s_heap s) (notes (l_callback (s_list s i)) u) s).
    split; [intros fuel _; cbn [step]; rewrite (pop_refused _ _ _ _ _ _ HH H); reflexivity|]. rewrite E.
    apply (change_one foreign w s i _ _ _ _ _ R E); try reflexivity.
    + intros xs' X. injection X as <-. exact HH.
    + intros b B. left. exact B.
    + intros b X Y. contradiction.
  - (* clear *)
    destruct (live_some i w A) as (xs & E). rewrite (list_of_some i w xs E) in *. assert (HH := r_holds _ _ _ R i _ E).
    assert (CB := r_callback _ _ _ R i A). rewrite <- CB in H. destruct (clear_holds xs _ _ HH) as (l' & h' & P & Q & C & (ys & Y1 & Y2) & SAME).
    rewrite H in *. cbn [fst snd] in *. exists (S (length xs)), (with_list i l' h' c s).
    split; [intros fuel F; cbn [step]; rewrite P by lia; reflexivity|]. apply (change_one foreign w s i _ _ _ _ _ R E).
    + intros xs' X. injection X as <-. exact Q.
    + exact C.
    + intros b B. left. rewrite Y1, map_app, in_app_iff. right. exact B.
    + intros b X Y. rewrite Y1, map_app, in_app_iff in X. destruct X as [X|X]; [apply Y2; exact X | contradiction].
    + intros b X _. apply SAME. exact X.
  - (* free *)
    destruct A as (A & G). destruct (live_some i w A) as (xs & E). rewrite (list_of_some i w xs E) in *. assert (HH := r_holds _ _ _ R i _ E).
    assert (CB := r_callback _ _ _ R i A). rewrite <- CB in G, H.
    destruct (free_runs (s_list s i) xs 0 (s_heap s) (h_seg _ _ _ HH) (h_distinct _ _ _ HH) G) as (h' & P & Q & SAME). rewrite H in P. cbn [snd] in P.
    exists (S (length xs)), (with_list i (with_head (s_list s i) 0) h' c s).
    split; [intros fuel F; cbn [step]; unfold list_free; rewrite (h_head _ _ _ HH), P by lia; reflexivity|].
    apply (change_one foreign w s i xs None _ _ _ R E); try reflexivity.
    + intros xs' X. discriminate X.
    + intros b [].
    + intros b X _. apply Q. exact X.
    + intros b X _. apply SAME. exact X.
  - exists 0%nat, s. split; [intros fuel _; cbn [step]|exact R]. destruct (live_some i w A) as (xs & E). rewrite (list_of_some i w xs E), (h_length _ _ _ (r_holds _ _ _ R i xs E)). reflexivity.
  - exists 0%nat, s. split; [intros fuel _; cbn [step]|exact R]. destruct (live_some i w A) as (xs & E). rewrite (list_of_some i w xs E), (h_head _ _ _ (r_holds _ _ _ R i xs E)).
    destruct xs; reflexivity.
  - exists 0%nat, s. split; [intros fuel _; cbn [step]|exact R]. destruct (live_some i w A) as (xs & E). rewrite (list_of_some i w xs E), (h_tail _ _ _ (r_holds _ _ _ R i xs E)). reflexivity.
  - exists 0%nat, s. split; [intros fuel _; cbn [step]|exact R]. destruct (live_some i w A) as (xs & E). rewrite (list_of_some i w xs E). assert (HH := r_holds _ _ _ R i xs E).
    unfold list_at. rewrite (h_head _ _ _ HH), (at_reads k xs _ 0 (h_seg _ _ _ HH)). reflexivity.
  - exists 0%nat, s. split; [reflexivity | exact R].
  - exists 0%nat, s. split; [intros fuel _; cbn [step]|exact R]. destruct H as (xs & E & K). rewrite (list_of_some i w xs E).
    destruct (in_split e xs K) as (ys & v & zs & ->). assert (HH := r_holds _ _ _ R i _ E). destruct (split_distinct _ _ _ _ (h_distinct _ _ _ HH)) as (NY & _).
    destruct (value_split ys e v zs NY) as [-> ->]. assert (S := h_seg _ _ _ HH). apply seg_app in S. destruct S as (_ & E0 & SE & _).
    unfold list_next. rewrite (proj2 (Z.eqb_neq e 0) E0), (get_some _ e _ E0 SE). reflexivity.
  - (* move *)
    destruct A as (LI & LJ). destruct (live_some i w LI) as (xs & EX). destruct (live_some j w LJ) as (ys & EY).
    rewrite (list_of_some i w xs EX), (list_of_some j w ys EY). assert (HX := r_holds _ _ _ R i _ EX). assert (HY := r_holds _ _ _ R j _ EY).
    set (w' := set_items i (Some (xs ++ ys)) [] (set_items j (Some []) [] w)).
    assert (EE : forall k, w_items w' k = if (k =? i)%nat then Some (xs ++ ys) else if (k =? j)%nat then Some [] else w_items w k) by reflexivity.
    assert (DIS : forall b, In b (map fst xs) -> ~ In b (map fst ys)).
    { intros b X Y. apply (r_apart _ _ _ R i j b H); [exists xs; auto | exists ys; auto]. }
    assert (M : exists d c h', list_move_all false (s_list s i) (s_list s j) (s_heap s) = Some (d, c, h') /\ holds h' d (xs ++ ys) /\ holds h' c [] /\
      l_callback d = l_callback (s_list s i) /\ l_callback c = l_callback (s_list s j) /\
      (forall b, ~ In b (map fst xs) -> ~ In b (map fst ys) -> h' b = s_heap s b)).
    { unfold list_move_all. rewrite (h_head _ _ _ HY). assert (SX := h_seg _ _ _ HX). assert (SY := h_seg _ _ _ HY).
      assert (ND : NoDup (map fst (xs ++ ys))).
      { rewrite map_app. assert (DX := h_distinct _ _ _ HX). assert (DY := h_distinct _ _ _ HY). clear -DIS DX DY.
        induction (map fst xs) as [|x l IH]; [exact DY|]. cbn [app]. destruct (proj1 (NoDup_cons_iff _ _) DX) as [N1 N2]. constructor.
        - rewrite in_app_iff. intros [X|X]; [contradiction | apply (DIS x); [left; reflexivity | exact X]].
        - apply IH; [intros b X; apply DIS; right; exact X | exact N2]. }
      rewrite (first_zero _ _ _ _ SY). destruct ys as [|[b v] ys].
      - rewrite app_nil_r. do 3 eexists. split; [reflexivity|]. split; [exact HX|]. split; [exact HY|]. auto.
      - cbn [with_head with_tail with_length l_tail]. rewrite (h_tail _ _ _ HX), (last_zero _ _ SX). destruct xs as [|x xs].
        + do 3 eexists. split; [reflexivity|]. split; [|split; [constructor; try reflexivity; constructor | auto]].
          constructor; cbn [with_length with_tail with_head l_head l_tail l_length app]; [exact SY | reflexivity | exact (h_tail _ _ _ HY) | | exact ND].
          rewrite (h_length _ _ _ HX), (h_length _ _ _ HY). reflexivity.
        + destruct (@exists_last _ (x :: xs) ltac:(discriminate)) as (m & [q u] & M). rewrite M in *. rewrite last_or_snoc.
          assert (SM := SX). apply seg_app in SM. destruct SM as (SM & Q0 & SQ & _). destruct SY as (B0 & SB & SY). cbn [first_or fst] in SM, SQ |- *.
          assert (QB : b <> q). { intros ->. apply (DIS q); [rewrite map_app; apply in_or_app; right; left; reflexivity | left; reflexivity]. }
          rewrite (set_next_eq q b _ u (last_or m 0) 0 Q0 SQ). cbn [bind]. rewrite (set_prev_eq b q _ v 0 (first_or ys 0) B0) by (rewrite put_other by exact QB; exact SB).
          cbn [bind]. do 3 eexists. split; [reflexivity|]. split; [|split; [constructor; try reflexivity; constructor | split; [reflexivity | split; [reflexivity|]]]].
          * constructor; cbn [with_length with_tail l_head l_tail l_length].
            -- rewrite <- app_assoc. apply seg_app. assert (NQ : ~ In q (map fst m)).
               { assert (DX := h_distinct _ _ _ HX). rewrite map_app in DX. cbn [map fst] in DX. assert (X := NoDup_remove_2 _ _ _ DX). rewrite app_nil_r in X. exact X. }
               split; [apply (seg_out (s_heap s)); [|exact SM]|].
               { intros c K. assert (c <> q) by (intros ->; contradiction). assert (c <> b).
                 { intros ->. apply (DIS b); [rewrite map_app; apply in_or_app; auto | left; reflexivity]. } look. reflexivity. }
               cbn [app seg first_or fst]. split; [exact Q0|]. split; [look; reflexivity|]. split; [exact B0|]. split; [look; reflexivity|].
               apply (seg_out (s_heap s)); [|exact SY]. intros c K. assert (DY := h_distinct _ _ _ HY). destruct (proj1 (NoDup_cons_iff _ _) DY) as [N1 N2]. cbn [fst] in N1.
               assert (c <> b) by (intros ->; contradiction). assert (c <> q).
               { intros ->. apply (DIS q); [rewrite map_app; apply in_or_app; right; left; reflexivity | right; exact K]. } look. reflexivity.
            -- rewrite (h_head _ _ _ HX). destruct m; reflexivity.
            -- rewrite (h_tail _ _ _ HY). symmetry. apply last_or_tail.
            -- rewrite (h_length _ _ _ HX), (h_length _ _ _ HY), (app_length (m ++ [(q, u)])). lia.
            -- exact ND.
          * intros c X Y. assert (c <> q) by (intros ->; apply X; rewrite map_app; apply in_or_app; right; left; reflexivity).
            assert (c <> b) by (intros ->; apply Y; left; reflexivity). look. reflexivity. }
    destruct M as (d & c & h' & P & HD & HC & CD & CC & SAME). exists 0%nat, (with_list i d h' [] (with_list j c h' [] s)).
    split; [intros fuel _; cbn [step]; rewrite (proj2 (Nat.eqb_neq i j) H), P; reflexivity|].
    assert (IN : forall a k, in_list a k w' -> (k = i /\ (In a (map fst xs) \/ In a (map fst ys))) \/ (k <> i /\ k <> j /\ in_list a k w)).
    { intros a k (l & L & K). rewrite EE in L. destruct (Nat.eqb_spec k i) as [->|NI].
      - injection L as <-. left. split; [reflexivity|]. rewrite map_app, in_app_iff in K. exact K.
      - destruct (Nat.eqb_spec k j) as [->|NJ]; [injection L as <-; contradiction|]. right. repeat split; try assumption. exists l. auto. }
    assert (XI : forall a, In a (map fst xs) -> in_list a i w) by (intros a K; exists xs; auto).
    assert (YJ : forall a, In a (map fst ys) -> in_list a j w) by (intros a K; exists ys; auto).
    constructor.
    + intros k zs E. rewrite EE in E. cbn [with_list s_heap s_list]. destruct (Nat.eqb_spec k i) as [->|NI]; [injection E as <-; exact HD|].
      destruct (Nat.eqb_spec k j) as [->|NJ]; [injection E as <-; exact HC|]. destruct (r_holds _ _ _ R k zs E) as [A B C D F]. constructor; try assumption.
      apply (seg_out (s_heap s)); [|exact A]. intros b K. assert (IK : in_list b k w) by (exists zs; auto).
      apply SAME; intros X; [exact (r_apart _ _ _ R k i b NI IK (XI b X)) | exact (r_apart _ _ _ R k j b NJ IK (YJ b X))].
    + intros k m a N X Y. destruct (IN a k X) as [[-> X']|(X1 & X2 & X3)]; destruct (IN a m Y) as [[-> Y']|(Y1 & Y2 & Y3)].
      * contradiction.
      * destruct X' as [X'|X']; [exact (r_apart _ _ _ R m i a Y1 Y3 (XI a X')) | exact (r_apart _ _ _ R m j a Y2 Y3 (YJ a X'))].
      * destruct Y' as [X'|X']; [exact (r_apart _ _ _ R k i a X1 X3 (XI a X')) | exact (r_apart _ _ _ R k j a X2 X3 (YJ a X'))].
      * exact (r_apart _ _ _ R k m a N X3 Y3).
    + intros k a X. destruct (IN a k X) as [[-> [X'|X']]|(X1 & X2 & X3)]; [exact (r_own _ _ _ R i a (XI a X')) | exact (r_own _ _ _ R j a (YJ a X')) | exact (r_own _ _ _ R k a X3)].
    + intros a X. cbn [with_list s_heap].
      assert (NP : ~ In a (map fst xs) /\ ~ In a (map fst ys)).
      { split; intros K; apply (X i); exists (xs ++ ys); rewrite EE, Nat.eqb_refl; (split; [reflexivity | rewrite map_app; apply in_or_app; auto]). }
      rewrite SAME by apply NP. apply (r_rest _ _ _ R). intros k (l & L & K). destruct (Nat.eq_dec k i) as [->|NI]; [rewrite L in EX; injection EX as ->; tauto|].
      destruct (Nat.eq_dec k j) as [->|NJ]; [rewrite L in EY; injection EY as ->; tauto|]. apply (X k). exists l.
      rewrite EE, (proj2 (Nat.eqb_neq k i) NI), (proj2 (Nat.eqb_neq k j) NJ). auto.
    + intros k L. cbn [with_list s_list]. change (w_callback w' k) with (w_callback w k). destruct (Nat.eqb_spec k i) as [->|NI]; [rewrite CD; apply (r_callback _ _ _ R); exact LI|].
      destruct (Nat.eqb_spec k j) as [->|NJ]; [rewrite CC; apply (r_callback _ _ _ R); exact LJ|]. apply (r_callback _ _ _ R). unfold live in *. rewrite EE in L.
      rewrite (proj2 (Nat.eqb_neq k i) NI), (proj2 (Nat.eqb_neq k j) NJ) in L. exact L.
    + cbn. rewrite !app_nil_r. exact (r_called _ _ _ R).
  - (* a list onto itself *)
    destruct A as (L & _). destruct (live_some i w L) as (xs & E). assert (HH := r_holds _ _ _ R i _ E).
    assert (M : list_move_all true (s_list s i) (s_list s i) (s_heap s) = Some (s_list s i, s_list s i, s_heap s)).
    { unfold list_move_all. destruct (l_head (s_list s i) =? 0); [reflexivity|]. cbn. destruct (s_list s i); reflexivity. }
    exists 0%nat, (with_list i (s_list s i) (s_heap s) [] (with_list i (s_list s i) (s_heap s) [] s)).
    split; [intros fuel _; cbn [step]; rewrite Nat.eqb_refl, M; reflexivity|].
    assert (U := unchanged foreign w s i R L). assert (U2 := unchanged foreign w _ i U L).
    assert (X : s_list (with_list i (s_list s i) (s_heap s) [] s) i = s_list s i) by (cbn; rewrite Nat.eqb_refl; reflexivity). rewrite X in U2. exact U2.
  - (* stack pop, empty *)
    destruct (live_some i w A) as (xs & E). rewrite (list_of_some i w xs E) in H. subst xs. assert (HH := r_holds _ _ _ R i _ E).
    exists 0%nat, (with_list i (s_list s i) (s_heap s) [] s). split; [intros fuel _; cbn [step]; unfold stack_pop; rewrite (h_tail _ _ _ HH); reflexivity|].
    apply unchanged; assumption.
  - destruct (live_some i w A) as (xs & E). rewrite (list_of_some i w xs E) in H. subst xs. assert (HH := r_holds _ _ _ R i _ E).
    assert (CB := r_callback _ _ _ R i A). rewrite <- CB in H0 |- *. destruct (pop_holds _ _ l p v [] HH H0) as (l' & h' & P & Q & C & GONE & SAME).
    assert (S := h_seg _ _ _ HH). apply seg_app in S. destruct S as (_ & P0 & SP & _).
    exists 0%nat, (with_list i l' h' (notes (l_callback (s_list s i)) v) s).
    split; [intros fuel _; cbn [step]; unfold stack_pop; rewrite (h_tail _ _ _ HH), last_or_snoc, (proj2 (Z.eqb_neq p 0) P0), (get_some _ p _ P0 SP); cbn [bind]; rewrite P; reflexivity|].
    rewrite app_nil_r in Q. apply (change_one foreign w s i _ _ _ _ _ R E).
    + intros xs' X. injection X as <-. exact Q.
    + exact C.
    + intros b B. left. rewrite map_app. apply in_or_app. left. exact B.
    + intros b X Y. rewrite map_app, in_app_iff in X. destruct X as [X|[<-|[]]]; [contradiction | exact GONE].
    + intros b X _. apply SAME. exact X.
  - destruct (live_some i w A) as (xs & E). rewrite (list_of_some i w xs E) in H. subst xs. assert (HH := r_holds _ _ _ R i _ E).
    assert (CB := r_callback _ _ _ R i A). rewrite <- CB in H0 |- *. assert (S := h_seg _ _ _ HH). apply seg_app in S. destruct S as (_ & P0 & SP & _).
    exists 0%nat, (with_list i (s_list s i) (s_heap s) (notes (l_callback (s_list s i)) v) s).
    split; [intros fuel _; cbn [step]; unfold stack_pop; rewrite (h_tail _ _ _ HH), last_or_snoc, (proj2 (Z.eqb_neq p 0) P0), (get_some _ p _ P0 SP); cbn [bind];
      rewrite (pop_refused _ _ l p v [] HH H0); reflexivity|]. rewrite E. apply (change_one foreign w s i _ _ _ _ _ R E); try reflexivity.
    + intros xs' X. injection X as <-. exact HH.
    + intros b B. left. exact B.
    + intros b X Y. contradiction.
  - (* peek *)
    destruct (live_some i w A) as (xs & E). rewrite (list_of_some i w xs E). assert (HH := r_holds _ _ _ R i _ E).
    exists 0%nat, s. split; [intros fuel _; cbn [step]|exact R]. unfold stack_peek. rewrite (h_tail _ _ _ HH), (last_zero _ _ (h_seg _ _ _ HH)).
    destruct xs as [|x xs]; [reflexivity|]. destruct (@exists_last _ (x :: xs) ltac:(discriminate)) as (m & [q u] & M). rewrite M in *.
    unfold final. rewrite last_or_snoc, last_last. assert (S := h_seg _ _ _ HH). apply seg_app in S. destruct S as (_ & P0 & SP & _).
    rewrite (get_some _ q _ P0 SP). reflexivity.
Qed.
(** What is allowed has an answer *)
Lemma allowed_does : forall foreign o w, allowed foreign o w -> exists r w', does o w r w'.
Proof.
  intros foreign o w A. destruct o; cbn [allowed] in A; try (do 2 eexists; constructor; fail).
  - destruct (Z.eq_dec a 0) as [->|N]; do 2 eexists; [apply does_insert_fails | apply does_insert; exact N].
  - destruct (agrees (w_callback w i) (value_at iter (list_of i w))) eqn:G; do 2 eexists; [apply does_pop; exact G | apply does_pop_refused; exact G].
  - destruct (cleared (w_callback w i) (list_of i w)) as [[ok l] c] eqn:C. do 2 eexists. eapply does_clear. exact C.
  - destruct (cleared (w_callback w i) (list_of i w)) as [[ok l] c] eqn:C. do 2 eexists. eapply does_free. exact C.
  - destruct A as [->|[i A]]; do 2 eexists; [apply does_next_end | apply (does_next _ i); exact A].
  - destruct (Nat.eq_dec i j) as [->|N]; do 2 eexists; [apply does_move_self | apply does_move; exact N].
  - destruct (Z.eq_dec a 0) as [->|N]; do 2 eexists; [apply does_push_fails | apply does_push; exact N].
  - destruct (list_of i w) as [|x l] eqn:L; [do 2 eexists; apply does_stack_pop_empty; exact L|].
    destruct (@exists_last _ (x :: l) ltac:(discriminate)) as (m & [p v] & M). rewrite M in L.
    destruct (agrees (w_callback w i) v) eqn:G; do 2 eexists; [eapply does_stack_pop; eassumption | eapply does_stack_pop_refused; eassumption].
Qed.

(** From a state without lists: no list is there, and nothing has been called *)
Definition no_lists : world := {| w_items := fun _ => None; w_callback := fun _ => None; w_called := [] |}.
Definition start (foreign : heap) (junk : nat -> lst) : state := {| s_heap := foreign; s_list := junk; s_called := [] |}.
Lemma start_related : forall foreign junk, related foreign no_lists (start foreign junk).
Proof.
  intros foreign junk. constructor; cbn; try reflexivity.
  - intros i xs E. discriminate E.
  - intros i j a _ (l & L & _). discriminate L.
  - intros i a (l & L & _). discriminate L.
  - intros i L. exfalso. apply L. reflexivity.
Qed.

(** Every program whose calls are allowed runs to its end (each loop within a bound), gets the
    answers of lists, and leaves a heap in which exactly the entries of its lists live besides
    what was there before; at every step what is allowed has an answer.  Lists are initialised
    before use and not used after [free] but to be initialised again; positions belong to the
    list they are used with. *)
Theorem c62_lists : forall foreign junk os rs w, behaves foreign os no_lists rs w ->
  (exists N s, (forall fuel, (N <= fuel)%nat -> run fuel os (start foreign junk) = Some (rs, s)) /\
    (forall i xs, w_items w i = Some xs ->
       l_length (s_list s i) = Z.of_nat (length xs) /\
       (forall k, list_at (s_list s i) k (s_heap s) = Some (nth k (map fst xs) 0)) /\
       (forall p, In p (map fst xs) -> list_next p (s_heap s) = Some (value_at p xs, following p xs))) /\
    s_called s = w_called w /\
    (forall a i, in_list a i w -> s_heap s a <> None /\ foreign a = None) /\
    (forall a, (forall i, ~ in_list a i w) -> s_heap s a = foreign a)) /\
  (forall o, allowed foreign o w -> exists r w', does o w r w').
Proof.
  intros foreign junk os rs w B.
  assert (X : forall os w rs w' s, behaves foreign os w rs w' -> related foreign w s ->
    exists N s', (forall fuel, (N <= fuel)%nat -> run fuel os s = Some (rs, s')) /\ related foreign w' s').
  { clear. intros os w rs w' s B. revert s. induction B as [w|o os w r w1 rs w2 A D B IH]; intros s R.
    - exists 0%nat, s. split; [reflexivity | exact R].
    - destruct (step_good foreign o w s r w1 R A D) as (N & s1 & P & R1). destruct (IH s1 R1) as (M & s2 & Q & R2).
      exists (Nat.max N M), s2. split; [|exact R2]. intros fuel F. cbn [run]. rewrite P by lia. cbn [bind]. rewrite Q by lia. reflexivity. }
  destruct (X os no_lists rs w (start foreign junk) B (start_related foreign junk)) as (N & s & P & R).
  split; [|intros o; apply allowed_does]. exists N, s. split; [exact P|]. split; [|split; [exact (r_called _ _ _ R) | split]].
  - intros i xs E. assert (H := r_holds _ _ _ R i xs E). split; [exact (h_length _ _ _ H)|]. split.
    + intros k. unfold list_at. rewrite (h_head _ _ _ H). apply (at_reads k xs _ 0). exact (h_seg _ _ _ H).
    + intros p K. destruct (in_split p xs K) as (ys & v & zs & ->). destruct (split_distinct _ _ _ _ (h_distinct _ _ _ H)) as (NY & _).
      destruct (value_split ys p v zs NY) as [-> ->]. assert (S := h_seg _ _ _ H). apply seg_app in S. destruct S as (_ & E0 & SE & _).
      unfold list_next. rewrite (proj2 (Z.eqb_neq p 0) E0), (get_some _ p _ E0 SE). reflexivity.
  - intros a i K. split; [|exact (r_own _ _ _ R i a K)]. destruct K as (xs & E & K).
    exact (proj2 (seg_in _ _ _ _ _ (h_seg _ _ _ (r_holds _ _ _ R i xs E)) K)).
  - exact (r_rest _ _ _ R).
Qed.
Print Assumptions c62_lists.

(** A program that meets the hypotheses: two lists, an entry in the middle, a callback that
    refuses, a move, and a failing malloc *)
Definition nothing : heap := fun _ => None.
Definition sample : list op :=
  [OInit 0; OPush 0 5 10; OInsert 0 10 7 30; OPush 0 6 20; OInsert 0 0 4 40; OOnRemove 0 (Some (fun v => v <? 7)); OPop 0 10; OPop 0 30;
   OInit 1; OPush 1 9 0; OPush 1 8 10; OMove 1 0; OLength 1; OAt 1 2; ONext 30; OHead 0; OStackPop 1; OClear 1; OFree 1].
Ltac pos := cbn [allowed]; eexists; split; [cbv; reflexivity | cbv; tauto].
Ltac vac := right; split; [reflexivity | let i := fresh in let l := fresh in let E := fresh in let K := fresh in
  intros i (l & E & K); destruct i as [|[|i]]; cbv in E; try discriminate E; injection E as <-; cbv in K; decompose [or] K; try contradiction; try discriminate].
Ltac aliv := unfold live; cbv; discriminate.
Example sample_behaves : exists rs w, behaves nothing sample no_lists rs w /\ w_called w = [(0%nat, 5); (0%nat, 7)] /\
  rs = [AOk; AOk; AOk; AOk; AOk; AOk; AOk; AError; AOk; AError; AOk; AOk; ANumber 4; APointer 30; AStep 7 20; APointer 0; AValue 6; AOk; AOk].
Proof.
  unfold sample. do 2 eexists. split; [|split].
  - eapply behaves_step; [cbv; tauto | apply does_init|].
    eapply behaves_step; [split; [aliv | vac] | apply does_push; discriminate|].
    eapply behaves_step; [split; [aliv | split; [right; pos | vac]] | apply does_insert; discriminate|].
    eapply behaves_step; [split; [aliv | vac] | apply does_push; discriminate|].
    eapply behaves_step; [split; [aliv | split; [left; reflexivity | vac]] | apply does_insert; discriminate|].
    eapply behaves_step; [aliv | apply does_on_remove|].
    eapply behaves_step; [pos | apply does_pop; reflexivity|].
    eapply behaves_step; [pos | apply does_pop_refused; reflexivity|].
    eapply behaves_step; [cbv; tauto | apply does_init|].
    eapply behaves_step; [split; [aliv | left; reflexivity] | apply does_push_fails|].
    eapply behaves_step; [split; [aliv | vac] | apply does_push; discriminate|].
    eapply behaves_step; [split; aliv | apply does_move; discriminate|].
    eapply behaves_step; [aliv | apply does_length|].
    eapply behaves_step; [aliv | apply does_at|].
    eapply behaves_step; [right; exists 1%nat; pos | apply (does_next 30 1); pos|].
    eapply behaves_step; [aliv | apply does_head|].
    eapply behaves_step; [aliv | apply (does_stack_pop 1 _ [(10, 8); (40, 4); (30, 7)] 20 6); reflexivity|].
    eapply behaves_step; [aliv | apply (does_clear 1 _ true [] []); reflexivity|].
    eapply behaves_step; [split; [aliv | reflexivity] | apply (does_free 1 _ true [] []); reflexivity|].
    apply behaves_end.
  - reflexivity.
  - reflexivity.
Qed.

(** ** What does not hold *)

(** A list that was freed could be used like an empty one *)
Definition freed_is_empty : Prop := forall foreign junk os i rs w, behaves foreign (os ++ [OFree i]) no_lists rs w ->
  exists fuel rs' s, run fuel (os ++ [OFree i; OPeek i]) (start foreign junk) = Some (rs', s).
(** The tail and the length of a freed list stay as they were: the tail points to a freed entry *)
Theorem c62_freed_refuted : ~ freed_is_empty.
Proof.
  intros H. assert (B : exists rs w, behaves nothing ([OInit 0; OPush 0 5 10] ++ [OFree 0]) no_lists rs w).
  { do 2 eexists. cbn [app]. eapply behaves_step; [cbv; tauto | apply does_init|].
    eapply behaves_step; [split; [aliv | vac] | apply does_push; discriminate|].
    eapply behaves_step; [split; [aliv | reflexivity] | apply (does_free 0 _ true [] []); reflexivity|]. apply behaves_end. }
  destruct B as (rs & w & B). destruct (H nothing (fun _ => list_init) _ 0%nat rs w B) as (fuel & rs' & s & R).
  destruct fuel as [|[|[|fuel]]]; vm_compute in R; discriminate R.
Qed.
(** A list whose callback refuses while it is freed could be freed later *)
Definition refused_free_safe : Prop := forall foreign junk os i rs w, behaves foreign os no_lists rs w -> live i w ->
  exists fuel rs' s, run fuel (os ++ [OFree i; OFree i]) (start foreign junk) = Some (rs', s).
(** The head still points to the entries that were freed before the refusal *)
Theorem c62_refused_free_refuted : ~ refused_free_safe.
Proof.
  intros H. assert (B : exists rs w, behaves nothing [OInit 0; OOnRemove 0 (Some (fun v => v =? 5)); OPush 0 5 10; OPush 0 6 20] no_lists rs w /\ live 0 w).
  { do 2 eexists. split; [|].
    - eapply behaves_step; [cbv; tauto | apply does_init|]. eapply behaves_step; [aliv | apply does_on_remove|].
      eapply behaves_step; [split; [aliv | vac] | apply does_push; discriminate|].
      eapply behaves_step; [split; [aliv | vac] | apply does_push; discriminate|]. apply behaves_end.
    - aliv. }
  destruct B as (rs & w & B & L). destruct (H nothing (fun _ => list_init) _ 0%nat rs w B L) as (fuel & rs' & s & R).
  destruct fuel as [|[|[|fuel]]]; vm_compute in R; discriminate R.
Qed.
Print Assumptions c62_freed_refuted.
Print Assumptions c62_refused_free_refuted.
