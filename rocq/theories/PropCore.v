(** Property theorems about the core data structures (C01, C02, C03). *)
From Coq Require Import ZArith List Bool Lia Permutation Sorted.
From Verif Require Import HashtreeModel HashtreeProofs SymtabModel SymtabProofs.
Import ListNotations.
Open Scope Z_scope.

(** C01: whatever the hash function (collisions included), every reply of the
    tree along any history of operations is the reply of the reference map. *)
Theorem c01_hashtree_is_finite_map :
  forall (K V : Type) (hash : K -> Z) (eqk : K -> K -> bool),
    (forall a b, eqk a b = true <-> a = b) ->
    forall ops : list (ht_op K V),
      fst (ht_run K V hash eqk HLeaf ops) = fst (spec_run K V eqk (fempty K V) ops).
Proof.
  intros K V hash eqk E ops.
  destruct (ht_run K V hash eqk HLeaf ops) as [reps t'] eqn:H.
  symmetry. eapply (run_refines K V hash eqk E ops); eauto.
  apply represents_empty.
Qed.

(** Non-vacuity: a hash function on which everything collides, and a history with
    a rejected insertion, a deletion of an inner node and lookups. *)
Example c01_collisions :
  fst (ht_run Z Z (fun _ => 5) Z.eqb HLeaf
         [OpInsert 1 10; OpInsert 2 20; OpInsert 3 30; OpInsert 2 99;
          OpDelete 2; OpFind 2; OpFind 3; OpDelete 7; OpInsert 2 21; OpFind 2])
  = [RepResult HtOk; RepResult HtOk; RepResult HtOk; RepResult HtAlreadyExists;
     RepResult HtOk; RepFound None; RepFound (Some 30); RepResult HtNotFound;
     RepResult HtOk; RepFound (Some 21)].
Proof. vm_compute. reflexivity. Qed.

(** C02: after any history, walking the tree terminates and lists every binding
    of the reference map exactly once (the keys are distinct and (k,v) is listed
    iff the map binds k to v), in nondecreasing hash order. *)
Theorem c02_iteration_complete_ordered :
  forall (K V : Type) (hash : K -> Z) (eqk : K -> K -> bool),
    (forall a b, eqk a b = true <-> a = b) ->
    forall (ops : list (ht_op K V)),
    exists l, ht_walk K V (snd (ht_run K V hash eqk HLeaf ops)) = Some l /\
      NoDup (map fst l) /\
      (forall k v, In (k, v) l <-> snd (spec_run K V eqk (fempty K V) ops) k = Some v) /\
      StronglySorted Z.le (map (fun kv => hash (fst kv)) l).
Proof.
  intros K V hash eqk E ops.
  destruct (ht_run K V hash eqk HLeaf ops) as [reps t'] eqn:H. simpl.
  destruct (run_refines K V hash eqk E ops HLeaf (fempty K V) reps t'
              (represents_empty K V hash eqk) H) as [_ [(O & Hh & ND) HA]].
  exists (map (fun e => (ekey K V e, eval K V e)) (entries K V t')).
  split; [apply walk_inorder; auto|]. split; [|split].
  - rewrite map_map. simpl. exact ND.
  - intros k v. rewrite <- HA. unfold abs. rewrite (lookup_in K V eqk E _ k v ND).
    rewrite in_map_iff. split.
    + intros ([[h k'] v'] & X & I). unfold ekey, eval in X; simpl in X. inversion X; subst.
      exists h; auto.
    + intros [h I]. exists (h, k, v). auto.
  - rewrite map_map. simpl.
    pose proof (ordered_sorted K V t' O) as S.
    replace (map (fun x => hash (ekey K V x)) (entries K V t'))
      with (map (ehash K V) (entries K V t')); [exact S|].
    apply map_ext_in. intros e I. rewrite Forall_forall in Hh. apply Hh; auto.
Qed.

Example c02_walk_collisions :
  ht_walk Z Z (snd (ht_run Z Z (fun k => k / 4) Z.eqb HLeaf
     [OpInsert 9 1; OpInsert 8 2; OpInsert 1 3; OpInsert 2 4; OpInsert 11 5; OpDelete 9;
      OpInsert 5 6; OpInsert 10 7])) =
  Some [(1, 3); (2, 4); (5, 6); (8, 2); (11, 5); (10, 7)].
Proof. vm_compute. reflexivity. Qed.

(** C03: along any history of interning requests every request succeeds, two
    requests return the same symbol (pointer and id) iff the strings are equal,
    the pointer designates a copy of the string, and ids can be looked up in the
    final table. *)
Theorem c03_interning_canonical :
  forall (ss : list cstring) rs t,
    symtab_run symtab_init ss = (rs, t) ->
    length rs = length ss /\
    (forall i s, nth_error ss i = Some s ->
       exists p id, nth_error rs i = Some (Some (p, id)) /\
         nth_error (st_heap t) p = Some s /\ symtab_get id t = Some p) /\
    (forall i j s1 s2, nth_error ss i = Some s1 -> nth_error ss j = Some s2 ->
       (nth_error rs i = nth_error rs j <-> s1 = s2)).
Proof.
  intros ss rs t H.
  destruct (symtab_run_spec ss symtab_init rs t st_inv_init H) as (I & _ & L & N).
  split; auto. split.
  - intros i s X. destruct (N i s X) as (p & P1 & P2). exists p, (Z.of_nat p).
    split; auto. split; auto. apply symtab_get_spec; auto. apply nth_error_Some; congruence.
  - intros i j s1 s2 X1 X2.
    destruct (N i s1 X1) as (p1 & P1 & Q1). destruct (N j s2 X2) as (p2 & P2 & Q2).
    rewrite P1, P2. split.
    + intros Y. inversion Y; subst. congruence.
    + intros ->. destruct I as (_ & ND & _).
      assert (p1 = p2) as ->; [|reflexivity].
      eapply NoDup_nth_error; [exact ND| |congruence].
      apply nth_error_Some; congruence.
Qed.

Example c03_history :
  fst (symtab_run symtab_init [[97]; [98; 99]; [97]; []; [98; 99]]) =
  [Some (0%nat, 0); Some (1%nat, 1); Some (0%nat, 0); Some (2%nat, 2); Some (1%nat, 1)].
Proof. vm_compute. reflexivity. Qed.

Print Assumptions c01_hashtree_is_finite_map.
Print Assumptions c02_iteration_complete_ordered.
Print Assumptions c03_interning_canonical.
