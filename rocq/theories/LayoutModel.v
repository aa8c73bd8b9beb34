(** Size, alignment and offsets of IR types: a model of
    source/codegen/amd64/system-v/abi/data_layout.c over the flat IR type, and its
    equivalent on trees.  Sizes are unbounded integers (the code uses 64-bit
    unsigned arithmetic; types of 2^64 bytes or more are outside the model). *)

From Coq Require Import ZArith Lia Bool List.
From Verif Require Import IrType.
Import ListNotations.
Open Scope Z_scope.

(** kefir_codegen_pad_aligned, source/codegen/util.c:22-31. *)
Definition pad_aligned (offset alignment : Z) : Z :=
  if alignment =? 0 then offset
  else let padding := offset mod alignment in
       if negb (padding =? 0) then offset + (alignment - padding) else offset.

(** struct kefir_amd64_sysv_data_layout, abi/data_layout.h. *)
Record lay := { l_size : Z; l_align : Z; l_aligned : bool; l_off : Z }.

(** struct compound_type_layout, data_layout.c:84-92. *)
Record comp := { c_off : Z; c_maxal : Z; c_maxsz : Z; c_agg : bool; c_aligned : bool }.

Definition comp0 (agg : bool) : comp :=
  {| c_off := 0; c_maxal := 0; c_maxsz := 0; c_agg := agg; c_aligned := true |}.

(** update_compound_type_layout, data_layout.c:94-114. *)
Definition update_compound (c : comp) (d : lay) (e : entry) : comp * lay :=
  let d := if negb (talign e =? 0)
           then {| l_size := l_size d; l_align := talign e;
                   l_aligned := l_align d <=? talign e; l_off := l_off d |}
           else d in
  let off := if c_agg c && negb (match tc e with CBits => true | _ => false end)
             then pad_aligned (c_off c) (l_align d) else c_off c in
  ({| c_off := if c_agg c then off + l_size d else off;
      c_maxal := Z.max (c_maxal c) (l_align d);
      c_maxsz := Z.max (c_maxsz c) (l_size d);
      c_agg := c_agg c;
      c_aligned := c_aligned c && l_aligned d |},
   {| l_size := l_size d; l_align := l_align d; l_aligned := l_aligned d; l_off := off |}).

(** Size and alignment of leaves: kefir_amd64_sysv_scalar_type_layout
    data_layout.c:29-69, calculate_sse_layout :128-155, calculate_amorphous_layout
    :157-180, and for built-ins vararg_layout, abi/builtins/vararg.c:27-37. *)
Definition leaf_layout (e : entry) : option (Z * Z) :=
  match tc e with
  | CBool | CChar | CInt8 => Some (1, 1)
  | CShort | CInt16 => Some (2, 2)
  | CInt | CInt32 => Some (4, 4)
  | CLong | CWord | CInt64 => Some (8, 8)
  | CBits => Some (tparam e / 8 + (if tparam e mod 8 =? 0 then 0 else 1), 1)
  | CFloat32 => Some (4, 4)
  | CFloat64 => Some (8, 8)
  | CLongDouble => Some (16, 16)
  | CPad | CMemory => Some (tparam e, 1)
  | CBuiltin => if tparam e =? 0 then Some (24, 8) else None
  | CStruct | CUnion | CArray => None
  end.

Definition vec := nat -> lay.
Definition vset (v : vec) (i : nat) (d : lay) : vec := fun j => if Nat.eqb j i then d else v j.

Definition mk (size al : Z) (aligned : bool) : lay :=
  {| l_size := size; l_align := al; l_aligned := aligned; l_off := 0 |}.

(** The visitor callbacks, data_layout.c:116-233. *)
Definition layout_cb : @callback (comp * vec) := fun self index e p =>
  let (c, v) := p in
  let fin (d : lay) (v : vec) :=
    let (c', d') := update_compound c d e in Some (c', vset v index d') in
  match tc e with
  | CStruct | CUnion =>                                           (* :182-202 *)
    let st := match tc e with CStruct => true | _ => false end in
    match self (index + 1)%nat (pcount e) (comp0 st, v) with
    | Some (n, v) =>
      fin (mk (pad_aligned (if st then c_off n else c_maxsz n) (c_maxal n))
              (c_maxal n) (c_aligned n)) v
    | None => None
    end
  | CArray =>                                                     (* :204-221 *)
    match self (index + 1)%nat 1%nat (comp0 false, v) with
    | Some (n, v) => fin (mk (c_maxsz n * tparam e) (c_maxal n) (c_aligned n)) v
    | None => None
    end
  | _ =>
    match leaf_layout e with
    | Some (s, a) => fin (mk s a true) v
    | None => None
    end
  end.

(** kefir_amd64_sysv_type_layout_of and kefir_amd64_sysv_type_layout,
    data_layout.c:235-290.  The vector comes from malloc; its
    initial contents are [v0]. *)
Definition layout_of (t : irtype) (index count : nat) (v0 : vec) : option vec :=
  match list_nodes layout_cb t index count (comp0 true, v0) with
  | Some (_, v) => Some v
  | None => None
  end.
Definition type_layout (t : irtype) (v0 : vec) : option vec := layout_of t 0 (nodes t) v0.

(** ** The same computation on trees *)

Definition upd1 (c : comp) (d : lay) (T : tree) : comp := fst (update_compound c d (root T)).
Definition upd2 (c : comp) (d : lay) (T : tree) : lay := snd (update_compound c d (root T)).

(** Layout of a tree before it is placed in its parent. *)
Fixpoint own (T : tree) : lay :=
  match T with
  | TLeaf _ _ _ => match leaf_layout (root T) with Some (s, a) => mk s a true | None => mk 0 0 true end
  | TAgg un _ ms =>
    let n := fold_left (fun c m => fst (update_compound c (own m) (root m))) ms (comp0 (negb un)) in
    mk (pad_aligned (if un then c_maxsz n else c_off n) (c_maxal n)) (c_maxal n) (c_aligned n)
  | TArr _ k e =>
    let n := fst (update_compound (comp0 false) (own e) (root e)) in
    mk (c_maxsz n * k) (c_maxal n) (c_aligned n)
  end.

Definition comp_after (c : comp) (ms : list tree) : comp :=
  fold_left (fun c m => upd1 c (own m) m) ms c.

(** The entries written for the subtree at [i] placed with compound state [c]. *)
Fixpoint fill (T : tree) (i : nat) (c : comp) (v : vec) {struct T} : vec :=
  let v :=
    match T with
    | TLeaf _ _ _ => v
    | TAgg un _ ms =>
      (fix go ms i c v :=
         match ms with
         | [] => v
         | m :: ms => go ms (i + tsize m)%nat (upd1 c (own m) m) (fill m i c v)
         end) ms (i + 1)%nat (comp0 (negb un)) v
    | TArr _ _ e => fill e (i + 1)%nat (comp0 false) v
    end in
  vset v i (upd2 c (own T) T).

Fixpoint fill_list (ts : list tree) (i : nat) (c : comp) (v : vec) : vec :=
  match ts with
  | [] => v
  | m :: ts => fill_list ts (i + tsize m)%nat (upd1 c (own m) m) (fill m i c v)
  end.

Definition kid_comp (T : tree) : comp :=
  match T with TAgg un _ _ => comp0 (negb un) | _ => comp0 false end.

Lemma fill_eq : forall T i c v,
  fill T i c v = vset (fill_list (kids T) (i + 1)%nat (kid_comp T) v) i (upd2 c (own T) T).
Proof.
  intros [k a p|un a ms|a n e] i c v; cbn [fill kids kid_comp]; try reflexivity.
Qed.

Definition F_layout (i : nat) (T : tree) (p : comp * vec) : option (comp * vec) :=
  let (c, v) := p in Some (upd1 c (own T) T, fill T i c v).

Lemma fold_layout : forall ts b c v,
  fold_trees F_layout b ts (c, v) = Some (comp_after c ts, fill_list ts b c v).
Proof.
  induction ts as [|T ts IH]; intros; cbn [fold_trees comp_after fold_left fill_list]; [reflexivity|].
  unfold F_layout at 1. rewrite IH. reflexivity.
Qed.

(** Every leaf has a layout. *)
Fixpoint codes_ok (T : tree) : bool :=
  match T with
  | TLeaf _ _ _ => match leaf_layout (root T) with Some _ => true | None => false end
  | TAgg _ _ ms => forallb codes_ok ms
  | TArr _ _ e => codes_ok e
  end.

Definition lwf (T : tree) : bool := wf T && codes_ok T.

Lemma lwf_kids : forall T k, lwf T = true -> In k (kids T) -> lwf k = true.
Proof.
  intros T k H I. unfold lwf in *. apply andb_true_iff in H as [W C]. apply andb_true_iff. split.
  - eapply wf_kids; eauto.
  - destruct T as [c a p|un a ms|a n e]; cbn [kids codes_ok] in *.
    + destruct I.
    + rewrite forallb_forall in C. auto.
    + destruct I as [<-|[]]. exact C.
Qed.


Lemma layout_cb_ok : forall t self i T p, lwf T = true -> at_pos t i [T] -> True ->
  (forall p, True -> self (i + 1)%nat (length (kids T)) p = fold_trees F_layout (i + 1)%nat (kids T) p) ->
  layout_cb self i (root T) p = F_layout i T p.
Proof.
  intros t self i T [c v] L _ _ H. apply andb_true_iff in L as [W C].
  unfold layout_cb, F_layout. rewrite fill_eq.
  destruct T as [k a q|un a ms|a n e]; cbn [root tc kids tparam] in *.
  - cbn [codes_ok root] in C.
    destruct (leaf_layout {| tc := k; talign := a; tparam := q |}) as [[s al]|] eqn:E; [|discriminate C].
    cbn [fill_list kids]. unfold upd1, upd2, own. cbn [root]. rewrite E.
    destruct k; try discriminate W; destruct (update_compound _ _ _); reflexivity.
  - replace (pcount _) with (length ms) by (unfold pcount; cbn; now rewrite Nat2Z.id).
    unfold upd1, upd2. cbn [own root kid_comp].
    destruct un; cbn [tc negb]; rewrite H, fold_layout by exact I;
      unfold comp_after, upd1; cbn [root negb];
      destruct (update_compound c _ _); reflexivity.
  - change (length [e]) with 1%nat in H. rewrite H, fold_layout by exact I.
    unfold upd1, upd2. cbn [own root kid_comp comp_after fold_left fill_list].
    unfold upd1. destruct (update_compound c _ _); reflexivity.
Qed.

Lemma lwf_wf : forall T, lwf T = true -> wf T = true.
Proof. intros T H. now apply andb_true_iff in H as [H _]. Qed.

(** The layout vector of a forest is the tree computation. *)
Lemma layout_of_ok : forall t ts b v0, (forall T, In T ts -> lwf T = true) -> at_pos t b ts ->
  layout_of t b (length ts) v0 = Some (fill_list ts b (comp0 true) v0).
Proof.
  intros t ts b v0 W A. unfold layout_of.
  rewrite (list_nodes_ok layout_cb t F_layout (fun T => lwf T = true) lwf_wf lwf_kids
             (fun _ _ => True) (fun _ _ _ _ _ _ _ _ => I) (layout_cb_ok t)) by auto.
  now rewrite fold_layout.
Qed.

(** What the vector holds at the index of every node. *)
Lemma fill_list_outside : forall n ts b c v j, (fsize ts <= n)%nat ->
  (j < b \/ b + fsize ts <= j)%nat -> fill_list ts b c v j = v j.
Proof.
  induction n as [|n IH]; intros ts b c v j Hn Hj; destruct ts as [|T ts]; try reflexivity;
    rewrite fsize_cons in *; pose proof (tsize_eq T) as E; [lia|].
  cbn [fill_list]. rewrite IH by lia. rewrite fill_eq. unfold vset.
  replace (Nat.eqb j b) with false by (symmetry; apply Nat.eqb_neq; lia).
  apply IH; lia.
Qed.

Lemma fill_outside : forall T i c v j, (j < i \/ i + tsize T <= j)%nat -> fill T i c v j = v j.
Proof.
  intros T i c v j H. rewrite fill_eq. unfold vset. pose proof (tsize_eq T).
  replace (Nat.eqb j i) with false by (symmetry; apply Nat.eqb_neq; lia).
  eapply fill_list_outside; [apply le_n|lia].
Qed.

Lemma fill_list_app : forall l1 l2 b c v,
  fill_list (l1 ++ l2) b c v = fill_list l2 (b + fsize l1)%nat (comp_after c l1) (fill_list l1 b c v).
Proof.
  induction l1 as [|m l1 IH]; intros; cbn [app fill_list comp_after fold_left].
  - rewrite fsize_nil, Nat.add_0_r. reflexivity.
  - rewrite IH, fsize_cons. rewrite Nat.add_assoc. reflexivity.
Qed.
