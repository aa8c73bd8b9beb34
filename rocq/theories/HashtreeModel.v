(** Model of the hash tree of source/core/hashtree.c: an unbalanced binary search
    tree ordered by 64-bit hashes, with parent links.  Keys, values, the hash
    function and the key comparison are parameters, as in
    [struct kefir_hashtree_ops] (headers/kefir/core/hashtree.h). *)
From Coq Require Import ZArith List Bool.
Import ListNotations.
Open Scope Z_scope.

Inductive ht_result : Type :=
| HtOk
| HtAlreadyExists
| HtNotFound.

Section Hashtree.
  Variable K V : Type.
  Variable hash : K -> Z.
  Variable eqk : K -> K -> bool.

  (** [struct kefir_hashtree_node]; NULL is [HLeaf].  The parent pointer is not a
      field: it is the enclosing context of a subtree (see [ht_ctx] below). *)
  Inductive htree : Type :=
  | HLeaf
  | HNode (h : Z) (k : K) (v : V) (l r : htree).

  (** node_insert with [replace = false], source/core/hashtree.c:54-84, and the
      root case of kefir_hashtree_insert, :139-150.  Allocation failure is not
      modelled. *)
  Fixpoint node_insert (h : Z) (k : K) (v : V) (t : htree) : ht_result * htree :=
    match t with
    | HLeaf => (HtOk, HNode h k v HLeaf HLeaf)
    | HNode h' k' v' l r =>
        if h <? h' then
          let (res, l') := node_insert h k v l in (res, HNode h' k' v' l' r)
        else if (h' <? h) || negb (eqk k' k) then
          let (res, r') := node_insert h k v r in (res, HNode h' k' v' l r')
        else (HtAlreadyExists, t)
    end.

  Definition ht_insert (k : K) (v : V) (t : htree) : ht_result * htree :=
    node_insert (hash k) k v t.

  (** node_find, source/core/hashtree.c:86-100.  Note the second test really is
      [hash < root->hash] again in the C source, so for a larger hash the key
      comparison decides. *)
  Fixpoint node_find (h : Z) (k : K) (t : htree) : option (K * V) :=
    match t with
    | HLeaf => None
    | HNode h' k' v' l r =>
        if h <? h' then node_find h k l
        else if (h <? h') || negb (eqk k' k) then node_find h k r
        else Some (k', v')
    end.

  (** kefir_hashtree_at / kefir_hashtree_has, source/core/hashtree.c:152-169. *)
  Definition ht_at (k : K) (t : htree) : option (K * V) := node_find (hash k) k t.
  Definition ht_has (k : K) (t : htree) : bool :=
    match ht_at k t with Some _ => true | None => false end.

  (** node_minimum, source/core/hashtree.c:102-108, returning the contents of
      the leftmost node of a non-empty tree. *)
  Fixpoint node_minimum (h : Z) (k : K) (v : V) (l : htree) : Z * K * V :=
    match l with
    | HLeaf => (h, k, v)
    | HNode h' k' v' l' _ => node_minimum h' k' v' l'
    end.

  (** Unlinking of [replacement] from its parent, source/core/hashtree.c:196-205:
      the leftmost node is replaced by its right child. *)
  Fixpoint unlink_minimum (h : Z) (k : K) (v : V) (l r : htree) : htree :=
    match l with
    | HLeaf => r
    | HNode h' k' v' l' r' => HNode h k v (unlink_minimum h' k' v' l' r') r
    end.

  (** Choice of the replacement subtree in kefir_hashtree_delete,
      source/core/hashtree.c:182-206. *)
  Definition delete_root (l r : htree) : htree :=
    match l, r with
    | HLeaf, HLeaf => HLeaf
    | _, HLeaf => l
    | HLeaf, _ => r
    | _, HNode h k v rl rr =>
        let '(mh, mk, mv) := node_minimum h k v rl in
        HNode mh mk mv l (unlink_minimum h k v rl rr)
    end.

  (** kefir_hashtree_delete, source/core/hashtree.c:176-225: the search is
      node_find, the parent's child pointer is redirected (:207-217). *)
  Fixpoint node_delete (h : Z) (k : K) (t : htree) : ht_result * htree :=
    match t with
    | HLeaf => (HtNotFound, HLeaf)
    | HNode h' k' v' l r =>
        if h <? h' then
          let (res, l') := node_delete h k l in (res, HNode h' k' v' l' r)
        else if (h <? h') || negb (eqk k' k) then
          let (res, r') := node_delete h k r in (res, HNode h' k' v' l r')
        else (HtOk, delete_root l r)
    end.

  Definition ht_delete (k : K) (t : htree) : ht_result * htree :=
    node_delete (hash k) k t.

  (** Parent chain of a node: for each ancestor, whether we are its left child,
      its contents and its other subtree. *)
  Inductive ht_dir := DLeft | DRight.
  Definition ht_frame : Type := (ht_dir * (Z * K * V) * htree)%type.
  Definition ht_ctx : Type := list ht_frame.

  (** Iterator: the current node (with its parent chain) and [last_hash]. *)
  Record ht_iter : Type := mk_iter {
    it_h : Z; it_k : K; it_v : V; it_l : htree; it_r : htree;
    it_ctx : ht_ctx; it_last : Z }.

  (** min_node, source/core/hashtree.c:235-245. *)
  Fixpoint min_node (t : htree) (c : ht_ctx) : option (Z * K * V * htree * htree * ht_ctx) :=
    match t with
    | HLeaf => None
    | HNode h k v l r =>
        match min_node l ((DLeft, (h, k, v), r) :: c) with
        | Some x => Some x
        | None => Some (h, k, v, l, r, c)
        end
    end.

  Definition iter_of (x : Z * K * V * htree * htree * ht_ctx) : ht_iter :=
    let '(h, k, v, l, r, c) := x in mk_iter h k v l r c h.

  (** kefir_hashtree_iter, source/core/hashtree.c:247-257. *)
  Definition ht_first (t : htree) : option ht_iter :=
    option_map iter_of (min_node t []).

  (** The climbing loop of kefir_hashtree_next, source/core/hashtree.c:267-273:
      go to the parent until one with a larger hash than [last]. *)
  Fixpoint climb (here : htree) (c : ht_ctx) (last : Z) : option ht_iter :=
    match c with
    | [] => None
    | (d, (h, k, v), sib) :: c' =>
        let l := match d with DLeft => here | DRight => sib end in
        let r := match d with DLeft => sib | DRight => here end in
        if last <? h then Some (mk_iter h k v l r c' h)
        else climb (HNode h k v l r) c' last
    end.

  (** kefir_hashtree_next, source/core/hashtree.c:259-277. *)
  Definition ht_next (it : ht_iter) : option ht_iter :=
    match it_r it with
    | HNode _ _ _ _ _ =>
        option_map iter_of
          (min_node (it_r it)
             ((DRight, (it_h it, it_k it, it_v it), it_l it) :: it_ctx it))
    | HLeaf =>
        climb (HNode (it_h it) (it_k it) (it_v it) (it_l it) HLeaf) (it_ctx it) (it_last it)
    end.

  (** The iteration idiom used throughout the code base:
      [for (node = iter(tree); node != NULL; node = next(&iter))]. *)
  Fixpoint walk (fuel : nat) (it : option ht_iter) : option (list (K * V)) :=
    match it with
    | None => Some []
    | Some i =>
        match fuel with
        | O => None
        | S n => option_map (cons (it_k i, it_v i)) (walk n (ht_next i))
        end
    end.

  (** Number of nodes (bounds the walk). *)
  Fixpoint ht_size (t : htree) : nat :=
    match t with
    | HLeaf => O
    | HNode _ _ _ l r => S (ht_size l + ht_size r)
    end.

  Definition ht_walk (t : htree) : option (list (K * V)) :=
    walk (ht_size t) (ht_first t).

  (** Client-visible operations and their replies. *)
  Inductive ht_op := OpInsert (k : K) (v : V) | OpDelete (k : K) | OpFind (k : K).
  Inductive ht_reply := RepResult (r : ht_result) | RepFound (v : option V).

  Definition ht_step (t : htree) (op : ht_op) : ht_reply * htree :=
    match op with
    | OpInsert k v => let (r, t') := ht_insert k v t in (RepResult r, t')
    | OpDelete k => let (r, t') := ht_delete k t in (RepResult r, t')
    | OpFind k => (RepFound (option_map snd (ht_at k t)), t)
    end.

  Fixpoint ht_run (t : htree) (ops : list ht_op) : list ht_reply * htree :=
    match ops with
    | [] => ([], t)
    | op :: rest =>
        let (r, t1) := ht_step t op in
        let (rs, t2) := ht_run t1 rest in (r :: rs, t2)
    end.
End Hashtree.

Arguments HLeaf {K V}.
Arguments HNode {K V} h k v l r.
Arguments OpInsert {K V} k v.
Arguments OpDelete {K V} k.
Arguments OpFind {K V} k.
Arguments RepResult {V} r.
Arguments RepFound {V} v.
