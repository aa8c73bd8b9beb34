(** C38: the flat vector, the recursive lengths, the slot counts, the iterators and
    the type tree all describe the same tree. *)

From Coq Require Import ZArith Lia Bool List.
From Verif Require Import IrType.
Import ListNotations.
Open Scope nat_scope.

(** ** Specification *)

Definition zsum (l : list Z) : Z := fold_right Z.add 0%Z l.

(** Slots of a tree: one for the node itself, plus those of the members; an array
    has room for every element. *)
Fixpoint tslots (T : tree) : Z :=
  match T with
  | TLeaf _ _ _ => 1
  | TAgg _ _ ms => 1 + zsum (map tslots ms)
  | TArr _ n e => 1 + n * tslots e
  end%Z.

(** Every node of a forest with the index of its entry, parents first. *)
Fixpoint places (i : nat) (T : tree) : list (nat * tree) :=
  (i, T) ::
  match T with
  | TLeaf _ _ _ => []
  | TAgg _ _ ms =>
    (fix go i ms := match ms with
                    | [] => []
                    | m :: ms => places i m ++ go (i + tsize m) ms
                    end) (i + 1) ms
  | TArr _ _ e => places (i + 1) e
  end.

Fixpoint places_list (i : nat) (ts : list tree) : list (nat * tree) :=
  match ts with
  | [] => []
  | T :: ts => places i T ++ places_list (i + tsize T) ts
  end.

(** Every node with its parent's index, its slot relative to the parent and its
    slot width. *)
Fixpoint records (parent : option nat) (i : nat) (slot : Z) (T : tree) : list tnode :=
  {| tn_index := i; tn_parent := parent; tn_slot := slot; tn_width := tslots T |} ::
  match T with
  | TLeaf _ _ _ => []
  | TAgg _ _ ms =>
    (fix go j slot ms :=
       match ms with
       | [] => []
       | m :: ms => records (Some i) j slot m ++ go (j + tsize m) (slot + tslots m)%Z ms
       end) (i + 1) 1%Z ms
  | TArr _ _ e => records (Some i) (i + 1) 1%Z e
  end.

Fixpoint records_list (parent : option nat) (i : nat) (slot : Z) (ts : list tree) : list tnode :=
  match ts with
  | [] => []
  | T :: ts => records parent i slot T ++ records_list parent (i + tsize T) (slot + tslots T)%Z ts
  end.

(** ** Facts *)

Lemma places_eq : forall i T, places i T = (i, T) :: places_list (i + 1) (kids T).
Proof.
  intros i [c a p|un a ms|a n e]; cbn [places kids places_list]; try reflexivity.
  now rewrite app_nil_r.
Qed.

Lemma records_eq : forall par i s T,
  records par i s T =
  {| tn_index := i; tn_parent := par; tn_slot := s; tn_width := tslots T |} ::
  records_list (Some i) (i + 1) 1 (kids T).
Proof.
  intros par i s [c a p|un a ms|a n e]; cbn [records kids records_list]; try reflexivity.
  - f_equal. generalize (i + 1). generalize 1%Z. induction ms; intros; cbn; congruence.
  - now rewrite app_nil_r.
Qed.

Lemma tslots_pos : forall T, wf T = true -> (1 <= tslots T)%Z.
Proof.
  induction T as [T IH] using tree_ind2. intros W.
  assert (K : forall k, In k (kids T) -> (1 <= tslots k)%Z)
    by (intros; apply IH; [assumption|eapply wf_kids; eauto]).
  destruct T as [c a p|un a ms|a n e]; cbn [tslots kids] in *.
  - lia.
  - assert (0 <= zsum (map tslots ms))%Z; [|lia].
    clear -K. induction ms as [|m ms IH]; cbn; [lia|].
    pose proof (K m (or_introl eq_refl)).
    assert (0 <= zsum (map tslots ms))%Z by (apply IH; intros; apply K; now right).
    unfold zsum in *. lia.
  - cbn in W. apply andb_true_iff in W as [W _]. apply Z.leb_le in W.
    specialize (K e (or_introl eq_refl)). nia.
Qed.

Lemma places_at : forall t n ts b, fsize ts <= n -> at_pos t b ts ->
  forall i T, In (i, T) (places_list b ts) -> at_pos t i [T].
Proof.
  intros t. induction n as [|n IH]; intros ts b Hn A i T I.
  - destruct ts as [|x ts]; [destruct I|]. rewrite fsize_cons in Hn.
    pose proof (tsize_pos x). lia.
  - destruct ts as [|x ts]; [destruct I|]. rewrite fsize_cons in Hn.
    rewrite (tsize_eq x) in Hn.
    apply at_pos_cons in A as [A1 A2]. cbn [places_list] in I.
    apply in_app_or in I as [I|I].
    + rewrite places_eq in I. destruct I as [E|I].
      * injection E as <- <-. exact A1.
      * eapply (IH (kids x) (b + 1)); eauto; [lia|]. now apply at_pos_kids.
    + eapply (IH ts (b + tsize x)); eauto. lia.
Qed.

Lemma places_wf : forall n ts b, fsize ts <= n -> (forall T, In T ts -> wf T = true) ->
  forall i T, In (i, T) (places_list b ts) -> wf T = true.
Proof.
  induction n as [|n IH]; intros ts b Hn W i T I.
  - destruct ts as [|x ts]; [destruct I|]. rewrite fsize_cons in Hn.
    pose proof (tsize_pos x). lia.
  - destruct ts as [|x ts]; [destruct I|]. rewrite fsize_cons, (tsize_eq x) in Hn.
    assert (Wx : wf x = true) by (apply W; now left).
    cbn [places_list] in I. apply in_app_or in I as [I|I].
    + rewrite places_eq in I. destruct I as [E|I].
      * injection E as <- <-. exact Wx.
      * eapply (IH (kids x)); eauto; [lia|]. intros; eapply wf_kids; eauto.
    + eapply (IH ts); eauto; [lia|]. intros; apply W; now right.
Qed.

Lemma places_seq : forall n ts b, fsize ts <= n ->
  map fst (places_list b ts) = seq b (fsize ts).
Proof.
  induction n as [|n IH]; intros ts b Hn; destruct ts as [|x ts]; try reflexivity.
  - rewrite fsize_cons in Hn. pose proof (tsize_pos x). lia.
  - rewrite fsize_cons in *. rewrite (tsize_eq x) in *. cbn [places_list].
    rewrite map_app, places_eq. cbn [map fst]. rewrite (IH (kids x)), (IH ts) by lia.
    rewrite seq_app. cbn [seq]. rewrite (tsize_eq x).
    replace (b + 1) with (S b) by lia. reflexivity.
Qed.

(** ** Slots *)

Section SLOTS.
  Variable t : irtype.

  Definition F_slots (i : nat) (T : tree) (n : Z) : option Z := Some (n + tslots T)%Z.

  Lemma fold_slots : forall ts b n,
    fold_trees F_slots b ts n = Some (n + zsum (map tslots ts))%Z.
  Proof.
    induction ts as [|T ts IH]; intros; cbn [fold_trees F_slots map zsum fold_right].
    - f_equal. lia.
    - unfold F_slots at 1. rewrite IH. f_equal. unfold zsum. lia.
  Qed.

  Lemma slots_cb_ok : forall self i T p, wf T = true -> at_pos t i [T] -> True ->
    (forall p, True -> self (i + 1) (length (kids T)) p = fold_trees F_slots (i + 1) (kids T) p) ->
    slots_cb self i (root T) p = F_slots i T p.
  Proof.
    intros self i T p W _ _ H. unfold slots_cb, F_slots.
    destruct T as [c a q|un a ms|a n e]; cbn [root tc kids tslots tparam] in *.
    - cbn in W. destruct c; try discriminate W; reflexivity.
    - replace (pcount _) with (length ms) by (unfold pcount; cbn; now rewrite Nat2Z.id).
      destruct un; cbn [tc]; rewrite H, fold_slots by exact I; f_equal; lia.
    - change (length [e]) with 1 in H. rewrite H, fold_slots by exact I. cbn [map zsum fold_right].
      f_equal. lia.
  Qed.

  Lemma slots_list : forall ts b n, (forall T, In T ts -> wf T = true) -> at_pos t b ts ->
    list_nodes slots_cb t b (length ts) n = Some (n + zsum (map tslots ts))%Z.
  Proof.
    intros ts b n W A.
    rewrite (list_nodes_ok slots_cb t F_slots (fun T => wf T = true) (fun _ h => h) wf_kids (fun _ _ => True)
               (fun _ _ _ _ _ _ _ _ => I) slots_cb_ok) by auto.
    apply fold_slots.
  Qed.

  Lemma node_slots_ok : forall T b, wf T = true -> at_pos t b [T] -> node_slots t b = tslots T.
  Proof.
    intros T b W A. unfold node_slots.
    change 1 with (length [T]). rewrite slots_list; auto.
    - cbn [map zsum fold_right]. lia.
    - intros x [<-|[]]. exact W.
  Qed.
End SLOTS.

(** ** Number of root nodes *)

Lemma nodes_ok : forall ts, (forall T, In T ts -> wf T = true) -> nodes (flats ts) = length ts.
Proof.
  intros ts W. unfold nodes.
  rewrite (list_nodes_all count_cb (flats ts) (fun _ _ n => Some (S n)) (fun T => wf T = true) (fun _ h => h) wf_kids (fun _ _ => True)) with (ts := ts).
  - assert (G : forall ts b n, fold_trees (fun _ (_ : tree) n => Some (S n)) b ts n = Some (n + length ts)).
    { induction ts0; intros; cbn; [f_equal; lia|]. rewrite IHts0. f_equal; lia. }
    rewrite G. reflexivity.
  - auto.
  - reflexivity.
  - exact W.
  - reflexivity.
  - apply length_le_fsize.
  - exact I.
Qed.

(** ** The type tree *)

Definition tn_ok (i : nat) (p : option nat * Z * list tnode) : Prop :=
  forall r, In r (snd p) -> tn_index r < i.

Definition F_tree (i : nat) (T : tree) (p : option nat * Z * list tnode)
  : option (option nat * Z * list tnode) :=
  let '(par, slot, l) := p in Some (par, (slot + tslots T)%Z, l ++ records par i slot T).

Lemma fold_tree : forall ts b par slot l,
  fold_trees F_tree b ts (par, slot, l) =
  Some (par, (slot + zsum (map tslots ts))%Z, l ++ records_list par b slot ts).
Proof.
  induction ts as [|T ts IH]; intros; cbn [fold_trees records_list map zsum fold_right].
  - now rewrite Z.add_0_r, app_nil_r.
  - unfold F_tree at 1. rewrite IH. rewrite <- app_assoc.
    replace (slot + tslots T + zsum (map tslots ts))%Z
      with (slot + (tslots T + fold_right Z.add 0 (map tslots ts)))%Z by (unfold zsum; lia).
    reflexivity.
Qed.

Lemma records_index : forall n ts par b s, fsize ts <= n ->
  forall r, In r (records_list par b s ts) -> b <= tn_index r < b + fsize ts.
Proof.
  induction n as [|n IH]; intros ts par b s Hn r I; (destruct ts as [|x ts]; [destruct I|]);
    rewrite fsize_cons in Hn |- *; pose proof (tsize_eq x) as Ex; [lia|].
  cbn [records_list] in I. apply in_app_or in I as [I|I].
  - rewrite records_eq in I. destruct I as [<-|I]; cbn [tn_index]; [lia|].
    apply IH in I; lia.
  - apply IH in I; rewrite ?(tsize_eq x) in I; lia.
Qed.

Lemma set_width_other : forall i w l, (forall r, In r l -> tn_index r <> i) -> set_width i w l = l.
Proof.
  induction l as [|r l IH]; intros H; [reflexivity|]. cbn [set_width map].
  replace (tn_index r =? i) with false by (symmetry; apply Nat.eqb_neq; apply H; now left).
  f_equal. apply IH. intros; apply H; now right.
Qed.

Lemma set_width_app : forall i w a b, set_width i w (a ++ b) = set_width i w a ++ set_width i w b.
Proof. intros; apply map_app. Qed.

Lemma tree_cb_ok : forall t self i T p, wf T = true -> at_pos t i [T] -> tn_ok i p ->
  (forall p, tn_ok (i + 1) p ->
     self (i + 1) (length (kids T)) p = fold_trees F_tree (i + 1) (kids T) p) ->
  ttree_cb self i (root T) p = F_tree i T p.
Proof.
  intros t self i T [[par slot] l] W _ Ip H. unfold ttree_cb, F_tree.
  assert (J : tn_ok (i + 1) (Some i, 1%Z, l ++ [{| tn_index := i; tn_parent := par;
                                tn_slot := slot; tn_width := 1 |}])).
  { intros r Hr. cbn [snd] in Hr. apply in_app_or in Hr as [Hr|[<-|[]]]; cbn [tn_index]; [|lia].
    apply Ip in Hr. lia. }
  assert (SW : forall w, set_width i w
     ((l ++ [{| tn_index := i; tn_parent := par; tn_slot := slot; tn_width := 1 |}]) ++
      records_list (Some i) (i + 1) 1 (kids T)) =
     l ++ {| tn_index := i; tn_parent := par; tn_slot := slot; tn_width := w |} ::
          records_list (Some i) (i + 1) 1 (kids T)).
  { intros w. rewrite !set_width_app.
    rewrite (set_width_other i w l) by (intros r Hr; apply Ip in Hr; lia).
    rewrite (set_width_other i w (records_list _ _ _ _))
      by (intros r Hr; apply (records_index (fsize (kids T))) in Hr; lia).
    rewrite <- app_assoc. cbn [set_width map tn_index tn_parent tn_slot]. rewrite Nat.eqb_refl.
    reflexivity. }
  rewrite records_eq.
  destruct T as [c a q|un a ms|a n e]; cbn [root tc kids tslots tparam records_list] in *.
  - cbn in W. destruct c; try discriminate W; reflexivity.
  - replace (pcount _) with (length ms) by (unfold pcount; cbn; now rewrite Nat2Z.id).
    destruct un; cbn [tc]; rewrite H by exact J; rewrite fold_tree, SW; reflexivity.
  - change (length [e]) with 1 in H. rewrite H by exact J. rewrite fold_tree.
    cbn [map zsum fold_right records_list]. rewrite SW.
    replace ((1 + (tslots e + 0) - 1) * n + 1)%Z with (1 + n * tslots e)%Z by lia.
    reflexivity.
Qed.

Lemma tree_inv : forall t i T p p', wf T = true -> at_pos t i [T] -> tn_ok i p ->
  F_tree i T p = Some p' -> tn_ok (i + tsize T) p'.
Proof.
  intros t i T [[par slot] l] p' _ _ H E. injection E as <-. intros r Hr. cbn [snd] in Hr.
  apply in_app_or in Hr as [Hr|Hr].
  - apply H in Hr. pose proof (tsize_pos T). lia.
  - assert (X : In r (records_list par i slot [T])) by (cbn; rewrite app_nil_r; exact Hr).
    apply (records_index (fsize [T])) in X; [|lia]. rewrite fsize_cons, fsize_nil in X. lia.
Qed.

(** ** Iterators *)

Lemma goto_loop_ok : forall t l1 T l2 b fuel count slot,
  (forall x, In x (l1 ++ T :: l2) -> wf x = true) -> at_pos t b (l1 ++ T :: l2) ->
  length l1 < count -> length t < fuel + b ->
  goto_loop fuel t (b + fsize l1) b count slot =
  GYield (b + fsize l1) (slot + zsum (map tslots l1)).
Proof.
  intros t. induction l1 as [|x l1 IH]; intros T l2 b fuel count slot W A C Hf.
  - cbn [app] in *. rewrite fsize_nil, Nat.add_0_r. apply at_pos_cons in A as [A _].
    pose proof (at_pos_bound _ _ _ A) as B. rewrite fsize_cons, fsize_nil in B.
    pose proof (tsize_pos T).
    destruct fuel as [|fuel]; [lia|]. destruct count as [|count]; [cbn in C; lia|].
    cbn [goto_loop]. replace (b <? length t) with true by (symmetry; apply Nat.ltb_lt; lia).
    rewrite (at_pos_root _ _ _ A), root_not_empty by (apply W; now left).
    rewrite Nat.ltb_irrefl, Nat.eqb_refl. cbn [map zsum fold_right]. now rewrite Z.add_0_r.
  - cbn [app] in *. apply at_pos_cons in A as [A A2].
    pose proof (at_pos_bound _ _ _ A) as B. rewrite fsize_cons, fsize_nil in B.
    pose proof (tsize_pos x).
    destruct fuel as [|fuel]; [lia|]. destruct count as [|count]; [cbn in C; lia|].
    assert (Wx : wf x = true) by (apply W; now left).
    cbn [goto_loop]. replace (b <? length t) with true by (symmetry; apply Nat.ltb_lt; lia).
    rewrite (at_pos_root _ _ _ A), root_not_empty by exact Wx.
    rewrite fsize_cons.
    replace (b <? b + (tsize x + fsize l1)) with true by (symmetry; apply Nat.ltb_lt; lia).
    rewrite (node_len_ok _ _ _ Wx A), (node_slots_ok _ _ _ Wx A).
    replace (b + (tsize x + fsize l1)) with (b + tsize x + fsize l1) by lia.
    rewrite (IH T l2).
    + f_equal. cbn [map zsum fold_right]. unfold zsum. lia.
    + intros y Hy; apply W; now right.
    + exact A2.
    + cbn in C; lia.
    + lia.
Qed.

(** ** Theorems *)

(** Every entry of the flat vector is the root of exactly one subtree, and the
    recursive length and the slot count computed from the flat vector at its index
    are those of that subtree. *)
Theorem c38_every_entry_is_its_subtree :
  forall ts, (forall T, In T ts -> wf T = true) ->
    map fst (places_list 0 ts) = seq 0 (length (flats ts)) /\
    forall i T, In (i, T) (places_list 0 ts) ->
      nth_error (flats ts) i = Some (root T) /\
      node_len (flats ts) i = length (flatten T) /\
      node_slots (flats ts) i = tslots T /\
      subnodes (flats ts) i = 1 + length (kids T).
Proof.
  intros ts W. split; [apply (places_seq (fsize ts)); auto|].
  intros i T I.
  assert (A : at_pos (flats ts) i [T]) by (eapply places_at; eauto using at_pos_flats).
  assert (WT : wf T = true) by (eapply places_wf; eauto).
  split; [now apply at_pos_root|]. split; [now apply node_len_ok|]. split; [now apply node_slots_ok|].
  unfold subnodes. rewrite (at_pos_root _ _ _ A).
  destruct T as [c a p|un a ms|a n e]; cbn [root tc kids].
  - cbn in WT. destruct c; try discriminate WT; reflexivity.
  - replace (pcount _) with (length ms) by (unfold pcount; cbn; now rewrite Nat2Z.id).
    destruct un; cbn; lia.
  - reflexivity.
Qed.

(** The visitor started on the members of a node calls its callback on each member
    exactly once, in order, at the member's index: here with a callback that records
    its calls. *)
Definition record_cb : @callback (list (nat * entry)) := fun _ i e l => Some (l ++ [(i, e)]).

Fixpoint member_indices (i : nat) (ts : list tree) : list (nat * entry) :=
  match ts with [] => [] | T :: ts => (i, root T) :: member_indices (i + tsize T) ts end.

Theorem c38_visits_each_member_once :
  forall ts, (forall T, In T ts -> wf T = true) ->
    list_nodes record_cb (flats ts) 0 (nodes (flats ts)) [] = Some (member_indices 0 ts) /\
    forall i T, In (i, T) (places_list 0 ts) ->
      list_nodes record_cb (flats ts) (i + 1) (length (kids T)) [] =
      Some (member_indices (i + 1) (kids T)).
Proof.
  intros ts W.
  assert (G : forall ks b, (forall T, In T ks -> wf T = true) -> at_pos (flats ts) b ks ->
            list_nodes record_cb (flats ts) b (length ks) [] = Some (member_indices b ks)).
  { intros ks b Wk A.
    rewrite (list_nodes_ok record_cb (flats ts) (fun i T l => Some (l ++ [(i, root T)]))
               (fun T => wf T = true) (fun _ h => h) wf_kids (fun _ _ => True)); auto.
    assert (F : forall ks b l, fold_trees (fun i T l => Some (l ++ [(i, root T)])) b ks l
                            = Some (l ++ member_indices b ks)).
    { induction ks0 as [|T ks0 IH]; intros; cbn [fold_trees member_indices].
      - now rewrite app_nil_r.
      - rewrite IH, <- app_assoc. reflexivity. }
    now rewrite F. }
  split.
  - rewrite nodes_ok by exact W. apply G; auto using at_pos_flats.
  - intros i T I. apply G.
    + intros k Hk. eapply wf_kids; eauto. eapply places_wf; eauto.
    + apply at_pos_kids. eapply places_at; eauto using at_pos_flats.
Qed.

Theorem c38_counts :
  forall ts, (forall T, In T ts -> wf T = true) ->
    nodes (flats ts) = length ts /\ total_slots (flats ts) = zsum (map tslots ts).
Proof.
  intros ts W. split; [now apply nodes_ok|].
  unfold total_slots. rewrite nodes_ok by exact W. rewrite slots_list; auto using at_pos_flats.
Qed.

(** The type tree built from the flat vector is the tree. *)
Theorem c38_type_tree_is_the_tree :
  forall ts, (forall T, In T ts -> wf T = true) ->
    type_tree (flats ts) = Some (records_list None 0 0 ts).
Proof.
  intros ts W. unfold type_tree. rewrite nodes_ok by exact W.
  rewrite (list_nodes_ok ttree_cb (flats ts) F_tree (fun T => wf T = true) (fun _ h => h) wf_kids tn_ok (tree_inv (flats ts)) (tree_cb_ok (flats ts)));
    auto using at_pos_flats.
  - rewrite fold_tree. reflexivity.
  - intros r [].
Qed.

(** In the type tree, the slot ranges of the members of an aggregate follow one
    another from slot 1 to the end of the aggregate: they are disjoint and inside
    it.  For an array, [n] consecutive copies of the element range fill it. *)
Theorem c38_members_tile_their_parent :
  forall un al l1 T l2, wf (TAgg un al (l1 ++ T :: l2)) = true ->
    let par := TAgg un al (l1 ++ T :: l2) in
    let slot := (1 + zsum (map tslots l1))%Z in
    (forall p i s, In {| tn_index := i + 1 + fsize l1; tn_parent := Some i;
                    tn_slot := slot; tn_width := tslots T |} (records p i s par)) /\
    (1 <= slot)%Z /\ (slot + tslots T <= tslots par)%Z /\
    (l2 = [] -> slot + tslots T = tslots par)%Z.
Proof.
  intros un al l1 T l2 W par slot.
  assert (Wm : forall x, In x (l1 ++ T :: l2) -> (1 <= tslots x)%Z)
    by (intros; apply tslots_pos; eapply wf_kids; eauto).
  assert (Z0 : forall l, (forall x, In x l -> (1 <= tslots x)%Z) -> (0 <= zsum (map tslots l))%Z).
  { induction l as [|x l IH]; intros H; cbn; [lia|].
    pose proof (H x (or_introl eq_refl)).
    assert (0 <= zsum (map tslots l))%Z by (apply IH; intros; apply H; now right).
    unfold zsum in *; lia. }
  assert (Zapp : forall a b, zsum (a ++ b) = (zsum a + zsum b)%Z).
  { induction a; intros; cbn; [reflexivity|]. unfold zsum in *. rewrite IHa. lia. }
  pose proof (Z0 l1 (fun x h => Wm x (in_or_app _ _ _ (or_introl h)))).
  pose proof (Z0 l2 (fun x h => Wm x (in_or_app l1 (T :: l2) x (or_intror (in_cons T x l2 h))))) as P2.
  split; [|split; [|split]].
  - intros p i s. rewrite records_eq. right. unfold par; cbn [kids].
    assert (G : forall l1 b s, In {| tn_index := b + fsize l1; tn_parent := Some i;
               tn_slot := s + zsum (map tslots l1); tn_width := tslots T |}
              (records_list (Some i) b s (l1 ++ T :: l2))).
    { induction l0 as [|x l0 IH]; intros b s0; cbn [app records_list map zsum fold_right].
      - rewrite fsize_nil, Nat.add_0_r, Z.add_0_r. rewrite records_eq. now left.
      - apply in_or_app. right. rewrite fsize_cons.
        replace (b + (tsize x + fsize l0)) with (b + tsize x + fsize l0) by lia.
        replace (s0 + (tslots x + fold_right Z.add 0 (map tslots l0)))%Z
          with (s0 + tslots x + zsum (map tslots l0))%Z by (unfold zsum; lia).
        apply IH. }
    apply G.
  - unfold slot. lia.
  - unfold slot, par. cbn [tslots]. rewrite map_app, Zapp. cbn [map zsum fold_right].
    unfold zsum in *; lia.
  - intros ->. unfold slot, par. cbn [tslots]. rewrite map_app, Zapp. cbn [map zsum fold_right].
    unfold zsum in *; lia.
Qed.

(** The iterator reaches the i-th root and the i-th member at the right index and
    slot. *)
Theorem c38_goto_root :
  forall l1 T l2, (forall x, In x (l1 ++ T :: l2) -> wf x = true) ->
    goto (flats (l1 ++ T :: l2)) (length (flats l1)) =
    Some (length (flats l1), zsum (map tslots l1)).
Proof.
  intros l1 T l2 W. unfold goto.
  assert (length l1 < length (flats (l1 ++ T :: l2))).
  { rewrite flats_app, app_length. pose proof (length_le_fsize l1). unfold fsize in *.
    rewrite flats_cons, app_length. pose proof (tsize_pos T). unfold tsize in *. lia. }
  pose proof (goto_loop_ok (flats (l1 ++ T :: l2)) l1 T l2 0
                (S (length (flats (l1 ++ T :: l2)))) (length (flats (l1 ++ T :: l2))) 0 W
                (at_pos_flats _) ltac:(assumption) ltac:(lia)) as G.
  cbn [Nat.add] in G. unfold fsize in G. rewrite G. f_equal.
Qed.

Theorem c38_goto_field :
  forall ts i un al l1 T l2 s, (forall x, In x ts -> wf x = true) ->
    In (i, TAgg un al (l1 ++ T :: l2)) (places_list 0 ts) ->
    goto_field (flats ts) (i, s) (i + 1 + length (flats l1)) =
    Some (i + 1 + length (flats l1), (s + (1 + zsum (map tslots l1)))%Z).
Proof.
  intros ts i un al l1 T l2 s W I.
  assert (A : at_pos (flats ts) i [TAgg un al (l1 ++ T :: l2)])
    by (eapply places_at; eauto using at_pos_flats).
  assert (WT : wf (TAgg un al (l1 ++ T :: l2)) = true) by (eapply places_wf; eauto).
  pose proof (at_pos_bound _ _ _ A) as B. rewrite fsize_cons, fsize_nil in B.
  unfold goto_field. rewrite (at_pos_root _ _ _ A).
  replace (is_su (root (TAgg un al (l1 ++ T :: l2)))) with true by (destruct un; reflexivity).
  replace (i + 1 <=? length (flats ts)) with true
    by (symmetry; apply Nat.leb_le; pose proof (tsize_pos (TAgg un al (l1 ++ T :: l2))); lia).
  rewrite (node_len_ok _ _ _ WT A).
  pose proof (goto_loop_ok (flats ts) l1 T l2 (i + 1) (S (length (flats ts)))
                (tsize (TAgg un al (l1 ++ T :: l2))) (1 + s)) as G.
  unfold fsize in G. rewrite G.
  - do 2 f_equal. lia.
  - intros x Hx. eapply wf_kids; [exact WT|exact Hx].
  - apply (at_pos_kids _ _ _ A).
  - rewrite tsize_eq. cbn [kids]. pose proof (length_le_fsize (l1 ++ T :: l2)).
    rewrite app_length in *. cbn in *. lia.
  - lia.
Qed.

(** Copying one node of another type appends exactly that subtree. *)
Theorem c38_append_subtree :
  forall dst ts i T, (forall x, In x ts -> wf x = true) -> In (i, T) (places_list 0 ts) ->
    append_e (flats dst) (flats ts) i = Some (flats (dst ++ [T])).
Proof.
  intros dst ts i T W I.
  assert (A : at_pos (flats ts) i [T]) by (eapply places_at; eauto using at_pos_flats).
  assert (WT : wf T = true) by (eapply places_wf; eauto).
  unfold append_e. rewrite (node_len_ok _ _ _ WT A).
  pose proof (tsize_pos T). pose proof (at_pos_bound _ _ _ A) as B. rewrite fsize_cons, fsize_nil in B.
  replace (tsize T =? 0) with false by (symmetry; apply Nat.eqb_neq; lia).
  replace (i + tsize T <=? length (flats ts)) with true by (symmetry; apply Nat.leb_le; lia).
  destruct A as (pre & post & E & L). rewrite flats_app. do 2 f_equal. rewrite E, <- L.
  rewrite skipn_app, skipn_all, Nat.sub_diag. cbn [app skipn].
  change (tsize T) with (length (flatten T)).
  unfold flats; cbn [flat_map]. rewrite app_nil_r. rewrite firstn_app, firstn_all, Nat.sub_diag.
  cbn [firstn]. now rewrite app_nil_r.
Qed.

(** Moving an iterator to an element of an array does not reach the element: the
    index is doubled instead of incremented. *)
Theorem c38_goto_index_refuted :
  exists ts i al n e, (forall x, In x ts -> wf x = true) /\
    In (i, TArr al n e) (places_list 0 ts) /\ (0 < n)%Z /\
    forall s j sl, goto_index (flats ts) (i, s) 0 = Some (j, sl) -> j <> i + 1.
Proof.
  exists [TAgg false 0 [TLeaf CInt 0 0; TLeaf CInt 0 0; TArr 0 3 (TLeaf CChar 0 0)]], 3, 0%Z, 3%Z,
         (TLeaf CChar 0 0).
  split; [|split; [|split]].
  - intros x [<-|[]]. reflexivity.
  - cbn. tauto.
  - reflexivity.
  - intros s j sl H. cbn in H. injection H as <- _. lia.
Qed.

(** A concrete type: struct { int a; union { float f; char c[3]; } u; long b; }. *)
Definition sample : tree :=
  TAgg false 0 [TLeaf CInt 0 0; TAgg true 0 [TLeaf CFloat32 0 0; TArr 0 3 (TLeaf CChar 0 0)];
                TLeaf CLong 0 0].
Example c38_sample_wf : wf sample = true. Proof. reflexivity. Qed.
Example c38_sample : node_len (flats [sample; TLeaf CInt 0 0]) 2 = 4 /\
  node_slots (flats [sample; TLeaf CInt 0 0]) 0 = 9%Z /\
  goto_field (flats [sample; TLeaf CInt 0 0]) (0, 0%Z) 6 = Some (6, 8%Z).
Proof. repeat split. Qed.
Example c38_sample_places : In (2, TAgg true 0 [TLeaf CFloat32 0 0; TArr 0 3 (TLeaf CChar 0 0)])
                               (places_list 0 [sample; TLeaf CInt 0 0]).
Proof. cbn. tauto. Qed.

Print Assumptions c38_every_entry_is_its_subtree.
Print Assumptions c38_visits_each_member_once.
Print Assumptions c38_counts.
Print Assumptions c38_type_tree_is_the_tree.
Print Assumptions c38_members_tile_their_parent.
Print Assumptions c38_goto_root.
Print Assumptions c38_goto_field.
Print Assumptions c38_append_subtree.
Print Assumptions c38_goto_index_refuted.
