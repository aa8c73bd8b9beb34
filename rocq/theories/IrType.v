(** IR types: the flat entry vector of source/ir/type.c, the visitor that walks it,
    and the trees such vectors stand for. *)

From Coq Require Import ZArith Lia Bool List.
Import ListNotations.
Open Scope nat_scope.

(** ** The flat representation *)

(** enum kefir_ir_typecode, headers/kefir/ir/type.h:29-56. *)
Inductive tcode :=
| CPad | CStruct | CArray | CUnion | CMemory
| CInt8 | CInt16 | CInt32 | CInt64 | CFloat32 | CFloat64
| CBool | CChar | CShort | CInt | CLong | CWord | CLongDouble | CBits | CBuiltin.

(** struct kefir_ir_typeentry, headers/kefir/ir/type.h:58-62.  [alignment] is an
    8-bit field in the code (0 = natural alignment); here it is an integer. *)
Record entry := { tc : tcode; talign : Z; tparam : Z }.

Definition irtype := list entry.

(** Member counts are 64-bit; a negative parameter is not a member count. *)
Definition pcount (e : entry) : nat := Z.to_nat (tparam e).

(** kefir_ir_type_node_total_length, type.c:143-164.  The C recursion always
    recurs on a larger index and stops (with 0) past the end, so
    [length t + 1] levels are enough. *)
Fixpoint node_len_fuel (fuel : nat) (t : irtype) (index : nat) : nat :=
  match fuel with
  | O => 0
  | S fuel =>
    match nth_error t index with
    | None => 0
    | Some e =>
      match tc e with
      | CStruct | CUnion =>
        Nat.iter (pcount e) (fun len => len + node_len_fuel fuel t (index + len)) 1
      | CArray => node_len_fuel fuel t (index + 1) + 1
      | _ => 1
      end
    end
  end.

Definition node_len (t : irtype) (index : nat) : nat := node_len_fuel (S (length t)) t index.

(** kefir_ir_type_subnodes, type.c:126-141. *)
Definition subnodes (t : irtype) (index : nat) : nat :=
  match nth_error t index with
  | None => 0
  | Some e =>
    match tc e with
    | CStruct | CUnion => pcount e + 1
    | CArray => 2
    | _ => 1
    end
  end.

(** ** The visitor *)

Section VISIT.
  Context {P : Type}.

  (** A visitor callback gets the recursive entry point, the index and entry of the
      node, and the payload. *)
  Definition callback := (nat -> nat -> P -> option P) -> nat -> entry -> P -> option P.

  Definition is_su (e : entry) : bool := match tc e with CStruct | CUnion => true | _ => false end.

  (** The loop of kefir_ir_type_visitor_list_nodes, type.c:253-288 (no hooks are
      installed by the clients modelled). *)
  Fixpoint visit_loop (fuel : nat) (cb : callback) (t : irtype) (index count : nat) (p : P)
    : option P :=
    match fuel with
    | O => None
    | S fuel =>
      if index <? length t then
        match count with
        | O => Some p
        | S count =>
          match nth_error t index with
          | None => None
          | Some e =>
            if is_su e && (tparam e <=? 0)%Z then None
            else
              match cb (fun b c p => if b <=? length t then visit_loop fuel cb t b c p else None)
                       index e p with
              | None => None
              | Some p => visit_loop fuel cb t (index + node_len t index) count p
              end
          end
        end
      else Some p
    end.

  (** kefir_ir_type_visitor_list_nodes, type.c:245-291. *)
  Definition list_nodes (cb : callback) (t : irtype) (begin count : nat) (p : P) : option P :=
    if begin <=? length t then visit_loop (S (length t)) cb t begin count p else None.
End VISIT.

(** kefir_ir_type_nodes, type.c:114-124. *)
Definition count_cb : @callback nat := fun _ _ _ n => Some (S n).
Definition nodes (t : irtype) : nat :=
  match list_nodes count_cb t 0 (length t) 0 with Some n => n | None => 0 end.

(** kefir_ir_type_node_slots and kefir_ir_type_total_slots, type.c:166-228. *)
Definition slots_cb : @callback Z := fun self index e n =>
  match tc e with
  | CStruct | CUnion => self (index + 1) (pcount e) (n + 1)%Z
  | CArray =>
    match self (index + 1) 1 0%Z with
    | Some k => Some (n + 1 + k * tparam e)%Z
    | None => None
    end
  | _ => Some (n + 1)%Z
  end.

Definition node_slots (t : irtype) (index : nat) : Z :=
  match list_nodes slots_cb t index 1 0%Z with Some n => n | None => 0%Z end.
Definition total_slots (t : irtype) : Z :=
  match list_nodes slots_cb t 0 (nodes t) 0%Z with Some n => n | None => 0%Z end.

(** kefir_ir_type_append_e, type.c:65-79 (the destination vector is assumed to have
    room): appends the entries of one node of another type. *)
Definition append_e (t ext : irtype) (index : nat) : option irtype :=
  let len := node_len ext index in
  if len =? 0 then None
  else if index + len <=? length ext then Some (t ++ firstn len (skipn index ext))
  else None.

(** kefir_ir_type_iterator, type.c:293-357.  [GYield]: the visitor stopped at the
    target. *)
Inductive gres := GGo (slot : Z) | GYield (index : nat) (slot : Z) | GMiss.

Fixpoint goto_loop (fuel : nat) (t : irtype) (target index count : nat) (slot : Z) : gres :=
  match fuel with
  | O => GMiss
  | S fuel =>
    if index <? length t then
      match count with
      | O => GGo slot
      | S count =>
        match nth_error t index with
        | None => GMiss
        | Some e =>
          if is_su e && (tparam e <=? 0)%Z then GMiss
          else if index <? target then
            goto_loop fuel t target (index + node_len t index) count (slot + node_slots t index)
          else if index =? target then GYield index slot
          else GMiss
        end
      end
    else GGo slot
  end.

(** kefir_ir_type_iterator_goto, type.c:316-327. *)
Definition goto (t : irtype) (target : nat) : option (nat * Z) :=
  match goto_loop (S (length t)) t target 0 (length t) 0 with
  | GYield i s => Some (i, s)
  | _ => None
  end.

(** kefir_ir_type_iterator_goto_field, type.c:329-342. *)
Definition goto_field (t : irtype) (it : nat * Z) (target : nat) : option (nat * Z) :=
  let (index, slot) := it in
  match nth_error t index with
  | Some e =>
    if is_su e then
      if index + 1 <=? length t then
        match goto_loop (S (length t)) t target (index + 1) (node_len t index) (1 + slot) with
        | GYield i s => Some (i, s)
        | _ => None
        end
      else None
    else None
  | None => None
  end.

(** kefir_ir_type_iterator_goto_index, type.c:344-356, including the
    [iter->index += iter->index] of line 353. *)
Definition goto_index (t : irtype) (it : nat * Z) (target : Z) : option (nat * Z) :=
  let (index, slot) := it in
  match nth_error t index with
  | Some e =>
    match tc e with
    | CArray =>
      if (target <? tparam e)%Z then
        let index := index + index in
        Some (index, (slot + 1 + node_slots t (index + 1) * target)%Z)
      else None
    | _ => None
    end
  | None => None
  end.

(** kefir_ir_type_tree_init, source/ir/type_tree.c:41-148.  A node record holds the
    index of the parent, the relative slot and the slot width; the table maps entry
    indices to records (a hashtree in the code, C01), in order of insertion. *)
Record tnode := { tn_index : nat; tn_parent : option nat; tn_slot : Z; tn_width : Z }.

Definition set_width (i : nat) (w : Z) (l : list tnode) : list tnode :=
  map (fun n => if tn_index n =? i
                then {| tn_index := tn_index n; tn_parent := tn_parent n;
                        tn_slot := tn_slot n; tn_width := w |}
                else n) l.

Definition ttree_cb : @callback (option nat * Z * list tnode) := fun self index e p =>
  let '(parent, slot, l) := p in
  let l := l ++ [{| tn_index := index; tn_parent := parent; tn_slot := slot; tn_width := 1 |}] in
  match tc e with
  | CStruct | CUnion =>
    match self (index + 1) (pcount e) (Some index, 1%Z, l) with
    | Some (_, k, l) => Some (parent, (slot + k)%Z, set_width index k l)
    | None => None
    end
  | CArray =>
    match self (index + 1) 1 (Some index, 1%Z, l) with
    | Some (_, k, l) =>
      let w := ((k - 1) * tparam e + 1)%Z in
      Some (parent, (slot + w)%Z, set_width index w l)
    | None => None
    end
  | _ => Some (parent, (slot + 1)%Z, l)
  end.

Definition type_tree (t : irtype) : option (list tnode) :=
  match list_nodes ttree_cb t 0 (nodes t) (None, 0%Z, []) with
  | Some (_, _, l) => Some l
  | None => None
  end.

(** ** The trees *)

(** Independent of the flat form: an IR type is a scalar-like leaf, a structure or
    union of members, or an array of [n] elements. *)
Inductive tree :=
| TLeaf (c : tcode) (al param : Z)
| TAgg (union : bool) (al : Z) (members : list tree)
| TArr (al n : Z) (elem : tree).

Definition leaf_code (c : tcode) : bool :=
  match c with CStruct | CUnion | CArray => false | _ => true end.

(** Well-formed: leaves carry leaf codes, aggregates have at least one member
    (6.7.2.1), array lengths are not negative. *)
Fixpoint wf (T : tree) : bool :=
  match T with
  | TLeaf c _ _ => leaf_code c
  | TAgg _ _ ms => negb (length ms =? 0) && forallb wf ms
  | TArr _ n e => (0 <=? n)%Z && wf e
  end.

Definition root (T : tree) : entry :=
  match T with
  | TLeaf c a p => {| tc := c; talign := a; tparam := p |}
  | TAgg un a ms => {| tc := if un then CUnion else CStruct; talign := a;
                       tparam := Z.of_nat (length ms) |}
  | TArr a n _ => {| tc := CArray; talign := a; tparam := n |}
  end.

Definition kids (T : tree) : list tree :=
  match T with TLeaf _ _ _ => [] | TAgg _ _ ms => ms | TArr _ _ e => [e] end.

(** Preorder flattening, the order in which
    source/ast-translator/type_translate.c appends entries. *)
Fixpoint flatten (T : tree) : irtype :=
  root T :: match T with
            | TLeaf _ _ _ => []
            | TAgg _ _ ms => flat_map flatten ms
            | TArr _ _ e => flatten e
            end.

Definition flats (ts : list tree) : irtype := flat_map flatten ts.

Lemma flatten_eq : forall T, flatten T = root T :: flats (kids T).
Proof. destruct T; simpl; try reflexivity. unfold flats; simpl. now rewrite app_nil_r. Qed.

Lemma flats_cons : forall T ts, flats (T :: ts) = flatten T ++ flats ts.
Proof. reflexivity. Qed.
Lemma flats_app : forall a b, flats (a ++ b) = flats a ++ flats b.
Proof. intros. apply flat_map_app. Qed.

(** Number of entries of a tree. *)
Definition tsize (T : tree) : nat := length (flatten T).
Definition fsize (ts : list tree) : nat := length (flats ts).

Lemma tsize_pos : forall T, 1 <= tsize T.
Proof. intros; unfold tsize; rewrite flatten_eq; simpl; lia. Qed.
Lemma tsize_eq : forall T, tsize T = S (fsize (kids T)).
Proof. intros; unfold tsize; now rewrite flatten_eq. Qed.
Lemma fsize_cons : forall T ts, fsize (T :: ts) = tsize T + fsize ts.
Proof. intros; unfold fsize; rewrite flats_cons; apply app_length. Qed.
Lemma fsize_nil : fsize [] = 0.
Proof. reflexivity. Qed.

(** Induction on trees with nested lists. *)
Lemma tree_ind2 : forall Q : tree -> Prop,
  (forall T, (forall k, In k (kids T) -> Q k) -> Q T) -> forall T, Q T.
Proof.
  intros Q H. fix IH 1. intros [c a p|un a ms|a n e]; apply H; cbn [kids].
  - intros k [].
  - induction ms as [|m ms IHm]; [intros k []|intros k [E|I]].
    + rewrite <- E. apply (IH m).
    + now apply IHm.
  - intros k [E|[]]. rewrite <- E. apply (IH e).
Qed.

(** ** Placement of a forest inside a vector *)

Definition at_pos (t : irtype) (b : nat) (ts : list tree) : Prop :=
  exists pre post, t = pre ++ flats ts ++ post /\ length pre = b.

Lemma at_pos_cons : forall t b T ts,
  at_pos t b (T :: ts) -> at_pos t b [T] /\ at_pos t (b + tsize T) ts.
Proof.
  intros t b T ts (pre & post & -> & <-). rewrite flats_cons. split.
  - exists pre, (flats ts ++ post). split; [|reflexivity].
    unfold flats at 3; simpl. rewrite app_nil_r, <- app_assoc. reflexivity.
  - exists (pre ++ flatten T), post. split.
    + now rewrite <- !app_assoc.
    + rewrite app_length. reflexivity.
Qed.

Lemma at_pos_kids : forall t b T, at_pos t b [T] -> at_pos t (b + 1) (kids T).
Proof.
  intros t b T (pre & post & -> & <-). exists (pre ++ [root T]), post. split.
  - unfold flats at 1; simpl. rewrite app_nil_r, flatten_eq, <- !app_assoc. reflexivity.
  - rewrite app_length. reflexivity.
Qed.

Lemma at_pos_root : forall t b T, at_pos t b [T] -> nth_error t b = Some (root T).
Proof.
  intros t b T (pre & post & -> & <-). rewrite nth_error_app2 by lia.
  rewrite Nat.sub_diag. unfold flats; simpl. now rewrite app_nil_r, flatten_eq.
Qed.

Lemma at_pos_bound : forall t b ts, at_pos t b ts -> b + fsize ts <= length t.
Proof.
  intros t b ts (pre & post & -> & <-). rewrite !app_length. unfold fsize. lia.
Qed.

Lemma at_pos_flats : forall ts, at_pos (flats ts) 0 ts.
Proof. intros. exists [], []. split; [now rewrite app_nil_r|reflexivity]. Qed.

Lemma in_split_pos : forall t b ts T, at_pos t b ts -> In T ts -> exists b', at_pos t b' [T].
Proof.
  intros t b ts; revert b; induction ts as [|T' ts IH]; [intros b T H []|intros b T H [E|I]].
  - subst. apply at_pos_cons in H as [H _]. eauto.
  - apply at_pos_cons in H as [_ H]. eauto.
Qed.

(** ** Lengths *)

Lemma wf_kids : forall T k, wf T = true -> In k (kids T) -> wf k = true.
Proof.
  intros [c a p|un a ms|a n e] k H I; cbn [kids] in I.
  - destruct I.
  - cbn in H. apply andb_true_iff in H as [_ H]. rewrite forallb_forall in H. auto.
  - cbn in H. apply andb_true_iff in H as [_ H]. destruct I as [->|[]]. exact H.
Qed.

Lemma iter_S : forall {A} n (f : A -> A) x, Nat.iter (S n) f x = Nat.iter n f (f x).
Proof. intros A n f. induction n; intros; simpl in *; [reflexivity|]. now rewrite IHn. Qed.

Lemma node_len_fuel_ok : forall T t b fuel, wf T = true -> at_pos t b [T] ->
  length t < fuel + b -> node_len_fuel fuel t b = tsize T.
Proof.
  induction T as [T IH] using tree_ind2. intros t b fuel W A F.
  pose proof (at_pos_bound _ _ _ A) as B. rewrite fsize_cons, fsize_nil in B.
  pose proof (tsize_pos T).
  destruct fuel as [|fuel]; [lia|]. cbn [node_len_fuel].
  rewrite (at_pos_root _ _ _ A). rewrite tsize_eq.
  pose proof (at_pos_kids _ _ _ A) as K.
  destruct T as [c a p|un a ms|a n e]; cbn [root tc kids] in *.
  - cbn in W. destruct c; try discriminate W; reflexivity.
  - assert (G : forall ks k, (forall x, In x ks -> In x ms) -> at_pos t (b + k) ks -> 1 <= k ->
      Nat.iter (length ks) (fun len => len + node_len_fuel fuel t (b + len)) k = k + fsize ks).
    { induction ks as [|x ks IHk]; intros k Hin Hat Hk.
      - cbn. lia.
      - change (length (x :: ks)) with (S (length ks)). rewrite iter_S.
        apply at_pos_cons in Hat as [H1 H2].
        rewrite (IH x (Hin x (or_introl eq_refl)) t (b + k) fuel).
        + rewrite IHk.
          * rewrite fsize_cons. lia.
          * intros y Hy; apply Hin; now right.
          * now rewrite Nat.add_assoc.
          * lia.
        + eapply wf_kids; [exact W|]. cbn. apply Hin. now left.
        + exact H1.
        + lia. }
    specialize (G ms 1 (fun x h => h) K (le_n 1)).
    replace (pcount _) with (length ms) by (unfold pcount; cbn; now rewrite Nat2Z.id).
    destruct un; cbn [tc]; exact G.
  - rewrite (IH e (or_introl eq_refl) t (b + 1) fuel).
    + rewrite fsize_cons, fsize_nil. lia.
    + eapply wf_kids; [exact W|]. now left.
    + exact K.
    + lia.
Qed.

Lemma node_len_ok : forall T t b, wf T = true -> at_pos t b [T] -> node_len t b = tsize T.
Proof. intros. apply node_len_fuel_ok; auto. lia. Qed.

(** ** The visitor runs over the trees *)

Lemma root_not_empty : forall T, wf T = true -> is_su (root T) && (tparam (root T) <=? 0)%Z = false.
Proof.
  intros [c a p|un a ms|a n e] H; cbn in H |- *.
  - unfold is_su; cbn. destruct c; try discriminate H; reflexivity.
  - apply andb_true_iff in H as [H _]. apply negb_true_iff, Nat.eqb_neq in H.
    apply andb_false_iff. right. apply Z.leb_gt. lia.
  - reflexivity.
Qed.

Section VISITOK.
  Context {P : Type}.
  Variable cb : @callback P.
  Variable t : irtype.
  (** What the callback does to a node, in terms of the tree. *)
  Variable F : nat -> tree -> P -> option P.

  Fixpoint fold_trees (b : nat) (ts : list tree) (p : P) : option P :=
    match ts with
    | [] => Some p
    | T :: ts =>
      match F b T p with Some p => fold_trees (b + tsize T) ts p | None => None end
    end.

  (** The trees visited: any class of well-formed trees closed under members. *)
  Variable Ok : tree -> Prop.
  Hypothesis Ok_wf : forall T, Ok T -> wf T = true.
  Hypothesis Ok_kids : forall T k, Ok T -> In k (kids T) -> Ok k.
  (** An invariant of the payload at an index. *)
  Variable Inv : nat -> P -> Prop.

  Hypothesis Hinv : forall i T p p', Ok T -> at_pos t i [T] -> Inv i p ->
    F i T p = Some p' -> Inv (i + tsize T) p'.

  Hypothesis Hcb : forall self i T p, Ok T -> at_pos t i [T] -> Inv i p ->
    (forall p, Inv (i + 1) p ->
       self (i + 1) (length (kids T)) p = fold_trees (i + 1) (kids T) p) ->
    cb self i (root T) p = F i T p.

  Lemma visit_loop_ok : forall n ts b fuel p,
    fsize ts <= n -> (forall T, In T ts -> Ok T) -> at_pos t b ts ->
    length t < fuel + b -> Inv b p -> visit_loop fuel cb t b (length ts) p = fold_trees b ts p.
  Proof.
    induction n as [|n IH]; intros ts b fuel p Hn W A Hf I.
    - destruct ts as [|T ts].
      + pose proof (at_pos_bound _ _ _ A). rewrite fsize_nil in *.
        destruct fuel; [lia|]. cbn [visit_loop length fold_trees]. destruct (b <? length t); reflexivity.
      + rewrite fsize_cons in Hn. pose proof (tsize_pos T). lia.
    - destruct ts as [|T ts].
      + pose proof (at_pos_bound _ _ _ A). rewrite fsize_nil in *.
        destruct fuel; [lia|]. cbn [visit_loop length fold_trees]. destruct (b <? length t); reflexivity.
      + pose proof (at_pos_bound _ _ _ A) as B.
        rewrite fsize_cons in Hn, B. rewrite (tsize_eq T) in Hn, B.
        destruct fuel as [|fuel]; [lia|].
        apply at_pos_cons in A as [A1 A2].
        assert (WT : Ok T) by (apply W; now left).
        cbn [visit_loop length fold_trees].
        replace (b <? length t) with true by (symmetry; apply Nat.ltb_lt; lia).
        rewrite (at_pos_root _ _ _ A1). rewrite (root_not_empty _ (Ok_wf _ WT)).
        rewrite (Hcb _ b T p WT A1 I).
        * destruct (F b T p) as [p'|] eqn:EF; [|reflexivity].
          rewrite (node_len_ok _ _ _ (Ok_wf _ WT) A1). apply IH.
          -- lia.
          -- intros; apply W; now right.
          -- exact A2.
          -- rewrite (tsize_eq T). lia.
          -- eapply Hinv; eauto.
        * intros q Iq. replace (b + 1 <=? length t) with true by (symmetry; apply Nat.leb_le; lia).
          apply IH.
          -- lia.
          -- intros k Hk. eapply Ok_kids; eauto.
          -- now apply at_pos_kids.
          -- lia.
          -- exact Iq.
  Qed.

  Lemma list_nodes_ok : forall ts b p,
    (forall T, In T ts -> Ok T) -> at_pos t b ts -> Inv b p ->
    list_nodes cb t b (length ts) p = fold_trees b ts p.
  Proof.
    intros ts b p W A I. unfold list_nodes.
    pose proof (at_pos_bound _ _ _ A).
    replace (b <=? length t) with true by (symmetry; apply Nat.leb_le; lia).
    eapply visit_loop_ok; eauto. lia.
  Qed.

  (** Asking for more nodes than there are entries visits all of them. *)
  Lemma visit_loop_all : forall ts b fuel p count,
    (forall T, In T ts -> Ok T) -> at_pos t b ts -> b + fsize ts = length t ->
    length ts <= count -> length t < fuel + b -> Inv b p ->
    visit_loop fuel cb t b count p = fold_trees b ts p.
  Proof.
    induction ts as [|T ts IH]; intros b fuel p count W A E C Hf I.
    - rewrite fsize_nil in E. destruct fuel; [lia|]. cbn [visit_loop fold_trees].
      replace (b <? length t) with false by (symmetry; apply Nat.ltb_ge; lia). reflexivity.
    - rewrite fsize_cons in E. pose proof (tsize_eq T) as Et.
      destruct fuel as [|fuel]; [lia|]. destruct count as [|count]; [cbn in C; lia|].
      apply at_pos_cons in A as [A1 A2].
      assert (WT : Ok T) by (apply W; now left).
      cbn [visit_loop fold_trees].
      replace (b <? length t) with true by (symmetry; apply Nat.ltb_lt; lia).
      rewrite (at_pos_root _ _ _ A1). rewrite (root_not_empty _ (Ok_wf _ WT)).
      rewrite (Hcb _ b T p WT A1 I).
      + destruct (F b T p) as [p'|] eqn:EF; [|reflexivity].
        rewrite (node_len_ok _ _ _ (Ok_wf _ WT) A1). apply IH.
        * intros; apply W; now right.
        * exact A2.
        * lia.
        * cbn in C; lia.
        * lia.
        * eapply Hinv; eauto.
      + intros q Iq. replace (b + 1 <=? length t) with true by (symmetry; apply Nat.leb_le; lia).
        eapply visit_loop_ok with (n := fsize (kids T)).
        * lia.
        * intros k Hk. eapply Ok_kids; eauto.
        * now apply at_pos_kids.
        * lia.
        * exact Iq.
  Qed.

  Lemma list_nodes_all : forall ts p count,
    (forall T, In T ts -> Ok T) -> t = flats ts -> length ts <= count -> Inv 0 p ->
    list_nodes cb t 0 count p = fold_trees 0 ts p.
  Proof.
    intros ts p count W E C I. unfold list_nodes. rewrite Nat.leb_refl || (cbn [Nat.leb]).
    apply visit_loop_all; auto.
    - rewrite E. apply at_pos_flats.
    - rewrite E. reflexivity.
    - lia.
  Qed.
End VISITOK.

Lemma length_le_fsize : forall ts, length ts <= fsize ts.
Proof.
  induction ts as [|T ts IH]; [cbn; lia|]. rewrite fsize_cons. pose proof (tsize_pos T). cbn. lia.
Qed.
