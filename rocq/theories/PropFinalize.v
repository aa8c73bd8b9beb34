(** C37: finalization of static data finds every initialised scalar. *)

From Coq Require Import ZArith Lia Bool List Sorted.
From Coq Require Import ZifyBool.
From Verif Require Import Bits HashtreeModel IrType PropIrType LayoutModel IrData PropIrData.
Import ListNotations.
Open Scope Z_scope.

(** ** Specification: the slots of the parts of an object *)

Fixpoint mslots (ms : list tree) (s : Z) : list (tree * Z) :=
  match ms with
  | [] => []
  | m :: ms => (m, s) :: mslots ms (s + tslots m)
  end.

(** [m] at slot [s1] is a member or element of [T] at slot [s]. *)
Definition child (T : tree) (s : Z) (m : tree) (s1 : Z) : Prop :=
  match T with
  | TLeaf _ _ _ => False
  | TAgg _ _ ms => In (m, s1) (mslots ms (s + 1))
  | TArr _ n e => m = e /\ exists k, 0 <= k < n /\ s1 = s + 1 + k * tslots e
  end.

Inductive node_at : tree -> Z -> tree -> Z -> Prop :=
| na_here : forall T s, node_at T s T s
| na_in : forall T s m s1 T' s', child T s m s1 -> node_at m s1 T' s' -> node_at T s T' s'.

(** Nodes that can be given a value: scalars, memory, and whole arrays (strings). *)
Definition takes_value (T : tree) : bool :=
  match T with
  | TLeaf (CPad | CBuiltin) _ _ => false
  | TLeaf _ _ _ => true
  | TAgg _ _ _ => false
  | TArr _ _ _ => true
  end.

Section SPEC.
  Variable v0 : Z -> slotv.

  Definition given (s : Z) : Prop := sv (v0 s) <> VUndef.

  (** Something inside [T] was explicitly initialised. *)
  Definition initialised (T : tree) (s : Z) : Prop :=
    exists T' s', node_at T s T' s' /\ takes_value T' = true /\ given s'.

  Definition contents (T : tree) (s : Z) : Prop :=
    exists m s1, child T s m s1 /\ initialised m s1.

  (** Initializers that make sense: no value for a structure, union or va_list as
      such, and no array with both a value of its own and initialised elements. *)
  Definition consistent (T : tree) (s : Z) : Prop :=
    forall T' s', node_at T s T' s' ->
      match T' with
      | TAgg _ _ _ | TLeaf CBuiltin _ _ => ~ given s'
      | TLeaf _ _ _ => True
      | TArr _ _ _ => given s' -> ~ contents T' s'
      end.
End SPEC.

(** Every part that reaches into a block of 128 slots in use begins in a block in use. *)
Definition headed (used : Z -> Prop) (T : tree) (s : Z) : Prop :=
  forall T' s' b, node_at T s T' s' -> used b -> s' < (b + 1) * CAP -> b * CAP < s' + tslots T' ->
    used (s' / CAP).

(** ** Finalization on trees *)

Section TREE.
  Variable ids : list Z.

  Fixpoint fin_tree (T : tree) (p : fparam) : option fparam :=
    match T with
    | TLeaf c _ param => fin_leaf ids c param p
    | TAgg _ _ ms =>
      let go :=
        match (fix gol ms q :=
                 match ms with
                 | [] => Some q
                 | m :: ms => match fin_tree m q with Some q => gol ms q | None => None end
                 end) ms (sub p) with
        | Some q => Some (fin_agg_end ids p q)
        | None => None
        end in
      match fget ids (f_vals p) (f_slot p) with
      | Some v => if is_undef (sv v) then go else None
      | None => go
      end
    | TArr _ n e =>
      match fin_loop (fin_tree e) (Z.to_nat n) (tslots e) n (f_slot p + 1 + tslots e * n) 0 (sub p) with
      | Some q => fin_arr_end ids p q
      | None => None
      end
    end.

  Fixpoint fin_list (ms : list tree) (q : fparam) : option fparam :=
    match ms with
    | [] => Some q
    | m :: ms => match fin_tree m q with Some q => fin_list ms q | None => None end
    end.

  Lemma fin_tree_agg : forall un al ms p, fin_tree (TAgg un al ms) p =
    let go := match fin_list ms (sub p) with Some q => Some (fin_agg_end ids p q) | None => None end in
    match fget ids (f_vals p) (f_slot p) with
    | Some v => if is_undef (sv v) then go else None
    | None => go
    end.
  Proof. reflexivity. Qed.

  Lemma fold_fin : forall ts b p, fold_trees (fun _ T => fin_tree T) b ts p = fin_list ts p.
  Proof.
    induction ts as [|T ts IH]; intros; cbn [fold_trees fin_list]; [reflexivity|].
    destruct (fin_tree T p); auto.
  Qed.

  Lemma fin_loop_ext : forall f g, (forall q, f q = g q) -> forall fuel es n en i q,
    fin_loop f fuel es n en i q = fin_loop g fuel es n en i q.
  Proof.
    intros f g E. induction fuel as [|fuel IH]; intros; cbn [fin_loop]; [reflexivity|].
    destruct (i <? n); [|reflexivity]. destruct (skip_to (f_iter q) (f_slot q)); [reflexivity|].
    rewrite E. cbn [f_slot f_def f_iter f_vals].
    destruct (_ <? _); [destruct (0 <? _); apply IH|]. destruct (g _); [apply IH|reflexivity].
  Qed.

  Lemma fin_cb_ok : forall t self i T p, wf T = true -> at_pos t i [T] -> True ->
    (forall p, True -> self (i + 1)%nat (length (kids T)) p =
                       fold_trees (fun _ T => fin_tree T) (i + 1)%nat (kids T) p) ->
    fin_cb ids t self i (root T) p = fin_tree T p.
  Proof.
    intros t self i T p W A _ H. unfold fin_cb.
    destruct T as [c a q|un a ms|a n e].
    - cbn [root tc tparam fin_tree]. destruct c; try discriminate W; reflexivity.
    - rewrite fin_tree_agg. cbn [root tc kids] in *.
      replace (pcount _) with (length ms) by (unfold pcount; cbn; now rewrite Nat2Z.id).
      rewrite H, fold_fin by exact I. destruct un; reflexivity.
    - cbn [root tc tparam kids fin_tree] in *.
      assert (We : wf e = true) by (eapply wf_kids; [exact W|now left]).
      rewrite (node_slots_ok t e (i + 1)) by (auto; apply (at_pos_kids t i (TArr a n e) A)).
      rewrite (fin_loop_ext _ (fin_tree e)); [reflexivity|].
      intros q. change 1%nat with (length [e]) at 2. rewrite H by exact I.
      cbn [fold_trees]. destruct (fin_tree e q); reflexivity.
  Qed.

  Lemma finalize_tree : forall ts vals, (forall T, In T ts -> wf T = true) ->
    finalize (flats ts) ids vals =
    match fin_list ts {| f_slot := 0; f_def := false; f_iter := ids; f_vals := vals |} with
    | Some p => Some (f_def p, f_vals p)
    | None => None
    end.
  Proof.
    intros ts vals W. unfold finalize.
    rewrite (list_nodes_all (fin_cb ids (flats ts)) (flats ts) (fun _ T => fin_tree T) (fun T => wf T = true)
               (fun _ h => h) wf_kids (fun _ _ => True) (fun _ _ _ _ _ _ _ _ => I) (fin_cb_ok (flats ts)) ts);
      auto; [now rewrite fold_fin|]. apply length_le_fsize.
  Qed.
End TREE.

(** ** Slot ranges *)

Lemma mslots_range : forall ms s m s1, (forall x, In x ms -> wf x = true) -> In (m, s1) (mslots ms s) ->
  In m ms /\ s <= s1 /\ s1 + tslots m <= s + zsum (map tslots ms).
Proof.
  induction ms as [|x ms IH]; intros s m s1 W I; [destruct I|]. cbn [mslots map zsum fold_right] in *.
  assert (N : forall l, (forall x, In x l -> wf x = true) -> 0 <= zsum (map tslots l)).
  { clear. induction l as [|y l IHl]; intros W; [cbn; lia|]. cbn [map zsum fold_right].
    pose proof (tslots_pos y (W y (or_introl eq_refl))).
    assert (0 <= zsum (map tslots l)) by (apply IHl; intros; apply W; now right). unfold zsum in *. lia. }
  pose proof (tslots_pos x (W x (or_introl eq_refl))). destruct I as [E|I].
  - injection E as <- <-. specialize (N ms (fun y h => W y (or_intror h))).
    split; [now left|]. unfold zsum in *. lia.
  - destruct (IH _ _ _ (fun y h => W y (or_intror h)) I) as (I1 & I2 & I3).
    split; [now right|]. unfold zsum in *. lia.
Qed.

Lemma child_range : forall T s m s1, wf T = true -> child T s m s1 ->
  wf m = true /\ s + 1 <= s1 /\ s1 + tslots m <= s + tslots T.
Proof.
  intros [c a p|un a ms|a n e] s m s1 W C; cbn [child tslots] in *.
  - destruct C.
  - destruct (mslots_range ms (s + 1) m s1) as (I1 & I2 & I3); auto.
    { intros x Hx. eapply wf_kids; eauto. }
    split; [eapply wf_kids; eauto|lia].
  - destruct C as (-> & k & Hk & ->).
    assert (We : wf e = true) by (eapply wf_kids; [exact W|now left]).
    pose proof (tslots_pos e We). split; [exact We|nia].
Qed.

Lemma node_range : forall T s T' s', node_at T s T' s' -> wf T = true ->
  wf T' = true /\ s <= s' /\ s' + tslots T' <= s + tslots T.
Proof.
  intros T s T' s' H. induction H as [T s|T s m s1 T' s' C N IH]; intros W.
  - split; [exact W|lia].
  - destruct (child_range T s m s1 W C) as (Wm & L1 & L2). destruct (IH Wm) as (? & ? & ?).
    split; [assumption|lia].
Qed.

Section MAIN.
  Variable ids : list Z.
  Variable v0 : Z -> slotv.
  Hypothesis nodef : forall x, sdef (v0 x) = false.
  Variable lim : Z.
  Hypothesis absent : forall x, 0 <= x < lim -> ~ In (x / CAP) ids -> v0 x = undef.
  Hypothesis sorted : StronglySorted Z.lt ids.
  Lemma init_step : forall T s, initialised v0 T s <->
    (takes_value T = true /\ given v0 s) \/ contents v0 T s.
  Proof.
    intros T s. split.
    - intros (T' & s' & N & V & G). inversion N; subst; [left; auto|].
      right. exists m, s1. split; [assumption|]. exists T', s'. auto.
    - intros [[V G]|(m & s1 & C & (T' & s' & N & V & G))].
      + exists T, s. split; [constructor|auto].
      + exists T', s'. split; [econstructor; eauto|auto].
  Qed.

  Definition exhausted (s : Z) : Prop := forall b, In b ids -> (b + 1) * CAP <= s.

  Lemma exh_absent : forall s x, exhausted s -> s <= x -> ~ In (x / CAP) ids.
  Proof.
    intros s x E H I. specialize (E _ I). destruct (split_slot x) as [Ex Mx]. unfold CAP in *. lia.
  Qed.

  Lemma exh_fget : forall s x vals, exhausted s -> s <= x -> fget ids vals x = None.
  Proof.
    intros s x vals E H. unfold fget. destruct (existsb (Z.eqb (x / CAP)) ids) eqn:X; [|reflexivity].
    apply existsb_exists in X as (b & I & Eb). apply Z.eqb_eq in Eb. subst b.
    exfalso. eapply exh_absent; eauto.
  Qed.

  Lemma exh_init : forall T s x, wf T = true -> 0 <= x -> x + tslots T <= lim ->
    exhausted s -> s <= x -> ~ initialised v0 T x.
  Proof.
    intros T s x W H0 HL E H (T' & s' & N & V & G). destruct (node_range _ _ _ _ N W) as (W' & L & L').
    pose proof (tslots_pos T' W').
    apply G. rewrite (absent s'); [reflexivity|lia|]. eapply exh_absent; eauto. lia.
  Qed.

  Definition iter_ok (p : fparam) : Prop :=
    exists pre, ids = pre ++ f_iter p /\ Forall (fun b => (b + 1) * CAP <= f_slot p) pre.

  Lemma skip_spec : forall it slot, exists pre, it = pre ++ skip_to it slot /\
    Forall (fun b => (b + 1) * CAP <= slot) pre /\
    match skip_to it slot with [] => True | b :: _ => slot < (b + 1) * CAP end.
  Proof.
    induction it as [|b it IH]; intros slot; cbn [skip_to].
    - exists []. repeat split. constructor.
    - destruct (Z.leb_spec ((b + 1) * CAP) slot).
      + destruct (IH slot) as (pre & E & F & L). exists (b :: pre). split; [cbn; congruence|].
        split; [constructor; auto|exact L].
      + exists []. split; [reflexivity|]. split; [constructor|lia].
  Qed.

  Lemma exh_skip : forall p, iter_ok p -> exhausted (f_slot p) -> skip_to (f_iter p) (f_slot p) = [].
  Proof.
    intros p (pre & E & F) X. destruct (skip_spec (f_iter p) (f_slot p)) as (pre2 & E2 & F2 & L).
    destruct (skip_to (f_iter p) (f_slot p)) as [|b r]; [reflexivity|].
    exfalso. assert (I : In b ids) by (rewrite E, E2; apply in_or_app; right; apply in_or_app; right; now left).
    specialize (X _ I). lia.
  Qed.

  Definition leaf_ok (T : tree) : Prop :=
    match T with TLeaf CBuiltin _ q => q = 0 | _ => True end.

  Fixpoint builtins_ok (T : tree) : bool :=
    match T with
    | TLeaf CBuiltin _ q => q =? 0
    | TLeaf _ _ _ => true
    | TAgg _ _ ms => forallb builtins_ok ms
    | TArr _ _ e => builtins_ok e
    end.

  (** Past the last block in use nothing happens. *)
  Definition quiet (p p' : fparam) (k : Z) : Prop :=
    f_slot p <= f_slot p' <= f_slot p + k /\ f_def p' = f_def p /\ f_vals p' = f_vals p /\ iter_ok p'.

  Lemma iter_ok_more : forall p slot def vals, iter_ok p -> f_slot p <= slot ->
    iter_ok {| f_slot := slot; f_def := def; f_iter := f_iter p; f_vals := vals |}.
  Proof.
    intros p slot def vals (pre & E & F) H. exists pre. cbn. split; [exact E|].
    eapply Forall_impl; [|exact F]. cbn. intros. lia.
  Qed.

  Lemma exh_tree : forall T p, wf T = true -> builtins_ok T = true -> iter_ok p -> exhausted (f_slot p) ->
    exists p', fin_tree ids T p = Some p' /\ quiet p p' (tslots T).
  Proof.
    induction T as [T IH] using tree_ind2. intros p W B It X.
    destruct T as [c a q|un a ms|a n e].
    - cbn [fin_tree builtins_ok tslots] in *. unfold fin_leaf.
      rewrite (exh_fget (f_slot p)) by (auto; lia).
      assert (Q : quiet p (advance p) 1).
      { unfold quiet, advance; cbn. split; [lia|]. split; [reflexivity|]. split; [reflexivity|].
        apply iter_ok_more; [exact It|lia]. }
      destruct c; try discriminate W; try (exists (advance p); split; [reflexivity|exact Q]).
      rewrite B. exists (advance p). split; [reflexivity|exact Q].
    - rewrite fin_tree_agg. cbn zeta. rewrite (exh_fget (f_slot p)) by (auto; lia).
      assert (L : forall l q, (forall x, In x l -> In x ms) -> iter_ok q -> exhausted (f_slot q) ->
        exists q', fin_list ids l q = Some q' /\ quiet q q' (zsum (map tslots l))).
      { induction l as [|x l IHl]; intros q Hin Iq Xq; cbn [fin_list map zsum fold_right].
        - exists q. split; [reflexivity|]. unfold quiet. repeat split; auto; lia.
        - assert (Ix : In x ms) by (apply Hin; now left).
          destruct (IH x Ix q) as (q1 & E1 & S1 & D1 & V1 & I1); auto.
          { eapply wf_kids; eauto. }
          { cbn [builtins_ok] in B. rewrite forallb_forall in B. auto. }
          rewrite E1. destruct (IHl q1) as (q2 & E2 & S2 & D2 & V2 & I2).
          { intros y Hy. apply Hin. now right. }
          { exact I1. }
          { intros b Hb. specialize (Xq b Hb). lia. }
          exists q2. split; [exact E2|]. unfold quiet, zsum in *. split; [lia|].
          split; [congruence|]. split; [congruence|exact I2]. }
      destruct (L ms (sub p)) as (q & E & S1 & D1 & V1 & I1); auto.
      { apply iter_ok_more; [exact It|lia]. }
      { intros b Hb. specialize (X b Hb). cbn. lia. }
      rewrite E. eexists. split; [reflexivity|]. unfold fin_agg_end.
      rewrite (exh_fget (f_slot p)) by (auto; lia). unfold quiet; cbn [f_slot f_def f_vals tslots] in *.
      cbn [sub f_slot f_def f_vals] in *. split; [lia|]. split; [rewrite D1; apply orb_false_r|].
      split; [exact V1|]. destruct I1 as (pre & P1 & P2). exists pre. auto.
    - cbn [fin_tree]. assert (We : wf e = true) by (eapply wf_kids; [exact W|now left]).
      pose proof (tslots_pos e We) as Pe. cbn [wf] in W. apply andb_true_iff in W as [Wn _].
      assert (Is : iter_ok (sub p)) by (apply iter_ok_more; [exact It|lia]).
      assert (Xs : exhausted (f_slot (sub p))) by (intros b Hb; specialize (X b Hb); cbn; lia).
      destruct (Z.to_nat n) as [|fuel] eqn:En.
      + cbn [fin_loop]. replace (0 <? n) with false by lia. unfold fin_arr_end.
        rewrite (exh_fget (f_slot p)) by (auto; lia). eexists. split; [reflexivity|].
        unfold quiet; cbn [f_slot f_def f_iter f_vals sub tslots]. split; [nia|]. split; [reflexivity|]. split; [reflexivity|].
        destruct Is as (pre & P1 & P2). exists pre. auto.
      + cbn [fin_loop]. destruct (0 <? n) eqn:En0.
        * rewrite (exh_skip _ Is Xs). unfold fin_arr_end. rewrite (exh_fget (f_slot p)) by (auto; lia).
          eexists. split; [reflexivity|]. unfold quiet; cbn [f_slot f_def f_iter f_vals sub tslots]. split; [nia|]. split; [reflexivity|].
          split; [reflexivity|]. exists ids. split; [now rewrite app_nil_r|].
          apply Forall_forall. exact Xs.
        * lia.
  Qed.

  (** ** The state while the tree at slot [s] is about to be visited *)
  Record inv (p : fparam) (s : Z) : Prop := {
    i_slot : f_slot p = s \/ (f_slot p <= s /\ exhausted (f_slot p));
    i_pos : 0 <= f_slot p;
    i_iter : iter_ok p;
    i_vals : forall x, s <= x -> f_vals p x = v0 x }.

  (** What finalization records in a slot. *)
  Definition recorded (vals : Z -> slotv) (T : tree) (s : Z) : Prop :=
    (sdef (vals s) = true <-> initialised v0 T s) /\
    ((contents v0 T s /\ sv (vals s) = VAgg) \/ (~ contents v0 T s /\ sv (vals s) = sv (v0 s))).

  Record post (T : tree) (p p' : fparam) (s : Z) : Prop := {
    p_inv : inv p' (s + tslots T);
    p_def : f_def p' = true <-> f_def p = true \/ initialised v0 T s;
    p_other : forall x, x < s \/ s + tslots T <= x -> f_vals p' x = f_vals p x;
    p_nodes : forall T' s', node_at T s T' s' -> recorded (f_vals p') T' s' }.

  (** Nothing of the slots from [s] on, [k] many, is in use. *)
  Definition void (s k : Z) : Prop := forall x, s <= x < s + k -> ~ In (x / CAP) ids.

  Lemma void_headed : forall T s, headed (fun b => In b ids) T s -> ~ In (s / CAP) ids -> void s (tslots T).
  Proof.
    intros T s H N x Hx I. apply N. destruct (split_slot x) as [Ex Mx].
    apply (H T s (x / CAP) (na_here _ _) I); unfold CAP in *; lia.
  Qed.

  Lemma void_fget : forall s vals, ~ In (s / CAP) ids -> fget ids vals s = None.
  Proof.
    intros s vals N. unfold fget. destruct (existsb (Z.eqb (s / CAP)) ids) eqn:X; [|reflexivity].
    apply existsb_exists in X as (b & I & Eb). apply Z.eqb_eq in Eb. subst b. contradiction.
  Qed.

  Lemma void_init : forall T s, wf T = true -> 0 <= s -> s + tslots T <= lim -> void s (tslots T) -> ~ initialised v0 T s.
  Proof.
    intros T s W H0 HL V (T' & s' & N & _ & G). destruct (node_range _ _ _ _ N W) as (W' & L & L').
    pose proof (tslots_pos T' W'). apply G. rewrite (absent s'); [reflexivity|lia|]. apply V. lia.
  Qed.

  Lemma void_part : forall T s T' s', wf T = true -> node_at T s T' s' -> void s (tslots T) -> void s' (tslots T').
  Proof. intros T s T' s' W N V x Hx. destruct (node_range _ _ _ _ N W) as (W' & L & L'). apply V. lia. Qed.

  (** The first block not left behind, seen from a slot. *)
  Lemma skip_next : forall p b r, iter_ok p -> skip_to (f_iter p) (f_slot p) = b :: r ->
    In b ids /\ f_slot p < (b + 1) * CAP /\ (forall c, In c ids -> c < b -> (c + 1) * CAP <= f_slot p) /\
    exists pre, ids = pre ++ b :: r /\ Forall (fun b => (b + 1) * CAP <= f_slot p) pre.
  Proof.
    intros p b r (pre & E & F) Sk. destruct (skip_spec (f_iter p) (f_slot p)) as (pre2 & E2 & F2 & L). rewrite Sk in *.
    assert (E3 : ids = (pre ++ pre2) ++ b :: r) by (rewrite E, E2 at 1; apply app_assoc).
    assert (F3 : Forall (fun b => (b + 1) * CAP <= f_slot p) (pre ++ pre2)) by (apply Forall_app; auto).
    split; [rewrite E3; apply in_or_app; right; now left|]. split; [exact L|]. split; [|exists (pre ++ pre2); auto].
    intros c Ic Lc. rewrite E3 in Ic. apply in_app_or in Ic as [Ic|Ic].
    - rewrite Forall_forall in F3. now apply F3.
    - assert (Sb : StronglySorted Z.lt (b :: r)).
      { rewrite E3 in sorted. clear -sorted. induction (pre ++ pre2); [exact sorted|]. apply IHl. now inversion sorted. }
      inversion Sb as [|x y Sr Fr]; subst. destruct Ic as [<-|Ic]; [lia|]. rewrite Forall_forall in Fr. apply Fr in Ic. lia.
  Qed.

  Lemma skip_none : forall p, iter_ok p -> skip_to (f_iter p) (f_slot p) = [] -> exhausted (f_slot p).
  Proof.
    intros p (pre & E & F) Sk. destruct (skip_spec (f_iter p) (f_slot p)) as (pre2 & E2 & F2 & L). rewrite Sk, app_nil_r in E2.
    intros b Hb. rewrite E, E2 in Hb. rewrite Forall_forall in F, F2. apply in_app_or in Hb as [Hb|Hb]; auto.
  Qed.

  (** A part none of which is in use is passed over. *)
  Definition passed (p p' : fparam) (k : Z) : Prop :=
    (f_slot p' = f_slot p + k \/ (f_slot p <= f_slot p' <= f_slot p + k /\ exhausted (f_slot p'))) /\
    f_def p' = f_def p /\ f_vals p' = f_vals p /\ iter_ok p'.

  Lemma void_tree : forall T p, wf T = true -> builtins_ok T = true -> iter_ok p -> void (f_slot p) (tslots T) ->
    exists p', fin_tree ids T p = Some p' /\ passed p p' (tslots T).
  Proof.
    induction T as [T IH] using tree_ind2. intros p W B It V. pose proof (tslots_pos T W) as Pt.
    assert (Nx : ~ In (f_slot p / CAP) ids) by (apply V; lia).
    destruct T as [c a q|un a ms|a n e].
    - cbn [fin_tree builtins_ok tslots] in *. unfold fin_leaf. rewrite (void_fget _ _ Nx).
      assert (Q : passed p (advance p) 1).
      { unfold passed, advance; cbn. split; [left; lia|]. split; [reflexivity|]. split; [reflexivity|].
        apply iter_ok_more; [exact It|lia]. }
      destruct c; try discriminate W; try (exists (advance p); split; [reflexivity|exact Q]).
      rewrite B. exists (advance p). split; [reflexivity|exact Q].
    - rewrite fin_tree_agg. cbn zeta. rewrite (void_fget _ _ Nx).
      assert (Wm : forall x, In x ms -> wf x = true) by (intros; eapply wf_kids; eauto).
      assert (L : forall l q, (forall x, In x l -> In x ms) -> iter_ok q -> void (f_slot q) (zsum (map tslots l)) ->
        exists q', fin_list ids l q = Some q' /\ passed q q' (zsum (map tslots l))).
      { induction l as [|x l IHl]; intros q Hin Iq Vq; cbn [fin_list map zsum fold_right] in *.
        - exists q. split; [reflexivity|]. unfold passed. split; [left; lia|auto].
        - assert (Ix : In x ms) by (apply Hin; now left). pose proof (tslots_pos x (Wm x Ix)) as Px.
          assert (Bx : builtins_ok x = true) by (cbn [builtins_ok] in B; rewrite forallb_forall in B; auto).
          assert (Zl : 0 <= fold_right Z.add 0 (map tslots l)).
          { assert (Wl : forall y, In y l -> wf y = true) by (intros; apply Wm, Hin; now right).
            clear -Wl. induction l as [|y l IHl]; [cbn; lia|]. cbn [map fold_right].
            pose proof (tslots_pos y (Wl y (or_introl eq_refl))).
            assert (0 <= fold_right Z.add 0 (map tslots l)) by (apply IHl; intros; apply Wl; now right). lia. }
          destruct (IH x Ix q (Wm x Ix) Bx Iq) as (q1 & E1 & S1 & D1 & V1 & I1).
          { intros y Hy. apply Vq. unfold zsum in *. lia. }
          rewrite E1. destruct S1 as [S1|[S1 X1]].
          + destruct (IHl q1) as (q2 & E2 & S2 & D2 & V2 & I2).
            { intros y Hy. apply Hin. now right. }
            { exact I1. }
            { intros y Hy. apply Vq. unfold zsum in *. lia. }
            exists q2. split; [exact E2|]. unfold passed, zsum in *. split; [|split; [congruence|split; [congruence|exact I2]]].
            destruct S2 as [S2|[S2 X2]]; [left; lia|right; split; [lia|exact X2]].
          + assert (Ll : exists q2, fin_list ids l q1 = Some q2 /\ quiet q1 q2 (zsum (map tslots l))).
            { assert (Hl : forall y, In y l -> In y ms) by (intros; apply Hin; now right). clear -Hl B Wm I1 X1.
              revert q1 I1 X1. induction l as [|y l IHl]; intros q1 I1 X1; cbn [fin_list map zsum fold_right].
              - exists q1. split; [reflexivity|]. unfold quiet. repeat split; auto; lia.
              - assert (Iy : In y ms) by (apply Hl; now left).
                assert (By : builtins_ok y = true) by (cbn [builtins_ok] in B; rewrite forallb_forall in B; auto).
                destruct (exh_tree y q1 (Wm y Iy) By I1 X1) as (q2 & E2 & S2 & D2 & V2 & I2). rewrite E2.
                destruct (IHl (fun z h => Hl z (or_intror h)) q2 I2) as (q3 & E3 & S3 & D3 & V3 & I3).
                { intros b Hb. specialize (X1 b Hb). lia. }
                exists q3. split; [exact E3|]. unfold quiet, zsum in *. split; [lia|].
                split; [congruence|]. split; [congruence|exact I3]. }
            destruct Ll as (q2 & E2 & S2 & D2 & V2 & I2).
            exists q2. split; [exact E2|]. unfold passed, zsum in *. split; [|split; [congruence|split; [congruence|exact I2]]].
            right. split; [lia|]. intros b Hb. specialize (X1 b Hb). lia. }
      destruct (L ms (sub p)) as (q & E & S1 & D1 & V1 & I1); auto.
      { apply iter_ok_more; [exact It|lia]. }
      { intros x Hx. apply V. cbn [sub f_slot tslots] in *. lia. }
      rewrite E. eexists. split; [reflexivity|]. unfold fin_agg_end. rewrite (void_fget _ _ Nx).
      unfold passed; cbn [f_slot f_def f_vals tslots] in *. cbn [sub f_slot f_def f_vals] in *.
      split; [destruct S1 as [S1|[S1 X1]]; [left; lia|right; split; [lia|exact X1]]|].
      split; [rewrite D1; apply orb_false_r|].
      split; [exact V1|]. destruct I1 as (pre & P1 & P2). exists pre. auto.
    - cbn [fin_tree]. assert (We : wf e = true) by (eapply wf_kids; [exact W|now left]).
      pose proof (tslots_pos e We) as Pe. cbn [wf] in W. apply andb_true_iff in W as [Wn _].
      assert (Is : iter_ok (sub p)) by (apply iter_ok_more; [exact It|lia]).
      assert (End : forall q, f_def q = false -> f_vals q = f_vals p -> iter_ok q ->
        f_slot q = f_slot p + 1 + tslots e * n \/ (f_slot p + 1 <= f_slot q <= f_slot p + 1 + tslots e * n /\ exhausted (f_slot q)) ->
        exists p', fin_arr_end ids p q = Some p' /\ passed p p' (tslots (TArr a n e))).
      { intros q D1 V1 (pre & P1 & P2) S1. unfold fin_arr_end. rewrite (void_fget _ _ Nx). eexists. split; [reflexivity|].
        unfold passed. cbn [f_slot f_def f_vals tslots]. split; [destruct S1 as [S1|[S1 X1]]; [left; lia|right; split; [lia|exact X1]]|].
        split; [reflexivity|]. split; [exact V1|]. exists pre. auto. }
      destruct (Z.to_nat n) as [|fuel] eqn:En; cbn [fin_loop].
      + replace (0 <? n) with false by lia. apply End; auto. left. cbn. replace n with 0 by lia. lia.
      + replace (0 <? n) with true by lia. destruct (skip_to (f_iter (sub p)) (f_slot (sub p))) as [|b r] eqn:Sk.
        * pose proof (skip_none _ Is Sk) as X. apply End; auto.
          -- exists ids. split; [now rewrite app_nil_r|]. apply Forall_forall. exact X.
          -- right. split; [cbn; nia|exact X].
        * destruct (skip_next _ _ _ Is Sk) as (Ib & L1 & L2 & pre & E3 & F3).
          set (s := f_slot (sub p)) in *. assert (Es : s = f_slot p + 1) by reflexivity.
          set (en := f_slot p + 1 + tslots e * n).
          assert (Vb : en <= b * CAP).
          { destruct (Z.le_gt_cases en (b * CAP)) as [?|Lt]; [assumption|]. exfalso.
            destruct (Z.le_gt_cases (b * CAP) s) as [Le|Gt].
            - apply (V s); [cbn [tslots]; unfold en in *; nia|]. replace (s / CAP) with b; [exact Ib|].
              apply Z.div_unique with (r := s - b * CAP); unfold CAP in *; lia.
            - apply (V (b * CAP)); [cbn [tslots]; unfold en in *; lia|]. rewrite Z.div_mul by (unfold CAP; lia). exact Ib. }
          cbn [f_slot f_def f_iter f_vals]. fold s en. replace (s <? b * CAP) with true by (unfold en in *; nia).
          replace (Z.min en (b * CAP)) with en by lia.
          replace ((en - s) / tslots e) with n by (unfold en; rewrite Es; apply Z.div_unique_exact; lia).
          replace (0 <? n) with true by lia.
          assert (Fin : forall f q, fin_loop (fin_tree ids e) f (tslots e) n en (0 + n) q = Some q)
            by (intros [|f] q; cbn [fin_loop]; replace (0 + n <? n) with false by lia; reflexivity).
          rewrite Fin. apply End; cbn [f_slot f_def f_iter f_vals]; auto.
          -- exists pre. cbn. split; [exact E3|]. eapply Forall_impl; [|exact F3]. cbn. intros; nia.
          -- left. fold en. unfold en. lia.
  Qed.

  Lemma fget_in : forall s vals, In (s / CAP) ids -> fget ids vals s = Some (vals s).
  Proof.
    intros s vals H. unfold fget.
    replace (existsb (Z.eqb (s / CAP)) ids) with true; [reflexivity|].
    symmetry. apply existsb_exists. exists (s / CAP). split; [exact H|apply Z.eqb_refl].
  Qed.

  Lemma recorded_exh : forall T s vals t, wf T = true -> s + tslots T <= lim -> exhausted t -> t <= s -> 0 <= s ->
    vals s = v0 s -> recorded vals T s.
  Proof.
    intros T s vals t W HL X L P E.
    assert (NI : ~ initialised v0 T s) by (eapply exh_init; eauto).
    assert (NC : ~ contents v0 T s) by (intros C; apply NI, init_step; now right).
    split; [rewrite E, nodef; split; [discriminate|tauto]|]. right. split; [exact NC|now rewrite E].
  Qed.

  Lemma exh_post : forall T p s, wf T = true -> builtins_ok T = true -> s + tslots T <= lim ->
    inv p s -> exhausted (f_slot p) ->
    exists p', fin_tree ids T p = Some p' /\ post T p p' s.
  Proof.
    intros T p s W B HL I X. destruct (exh_tree T p W B (i_iter _ _ I) X) as (p' & E & S & D & V & It).
    pose proof (i_pos _ _ I) as P0.
    assert (Ls : f_slot p <= s) by (destruct (i_slot _ _ I) as [->|[? _]]; lia).
    pose proof (tslots_pos T W).
    exists p'. split; [exact E|]. constructor.
    - constructor.
      + right. split; [lia|]. intros b Hb. specialize (X b Hb). lia.
      + lia.
      + exact It.
      + intros x Hx. rewrite V. apply (i_vals _ _ I). lia.
    - rewrite D. split; [auto|]. intros [?|C]; [assumption|]. exfalso.
      eapply (exh_init T (f_slot p) s); eauto. lia.
    - intros x _. now rewrite V.
    - intros T' s' N. destruct (node_range _ _ _ _ N W) as (W' & L1 & L2).
      eapply recorded_exh; eauto; try lia. rewrite V. apply (i_vals _ _ I). lia.
  Qed.

  Lemma void_recorded : forall T s vals, wf T = true -> s + tslots T <= lim -> void s (tslots T) -> 0 <= s ->
    vals s = v0 s -> recorded vals T s.
  Proof.
    intros T s vals W HL V P E.
    assert (NI : ~ initialised v0 T s) by (eapply void_init; eauto).
    assert (NC : ~ contents v0 T s) by (intros C; apply NI, init_step; now right).
    split; [rewrite E, nodef; split; [discriminate|tauto]|]. right. split; [exact NC|now rewrite E].
  Qed.

  Lemma void_post : forall T p s, wf T = true -> builtins_ok T = true -> s + tslots T <= lim ->
    inv p s -> f_slot p = s -> void s (tslots T) ->
    exists p', fin_tree ids T p = Some p' /\ post T p p' s.
  Proof.
    intros T p s W B HL I Es V0. rewrite <- Es in V0.
    destruct (void_tree T p W B (i_iter _ _ I) V0) as (p' & E & S & D & V & It). rewrite Es in V0.
    pose proof (i_pos _ _ I) as P0. pose proof (tslots_pos T W).
    exists p'. split; [exact E|]. constructor.
    - constructor.
      + destruct S as [S|[S X]]; [left; lia|right; split; [lia|exact X]].
      + destruct S as [S|[S X]]; lia.
      + exact It.
      + intros x Hx. rewrite V. apply (i_vals _ _ I). lia.
    - rewrite D. split; [auto|]. intros [?|C]; [assumption|]. exfalso. exact (void_init T s W ltac:(lia) HL V0 C).
    - intros x _. now rewrite V.
    - intros T' s' N. destruct (node_range _ _ _ _ N W) as (W' & L1 & L2).
      apply void_recorded; [exact W'|lia|exact (void_part T s T' s' W N V0)|lia|]. rewrite V. apply (i_vals _ _ I). lia.
  Qed.

  Lemma recorded_same : forall vals vals' T s, vals s = vals' s -> recorded vals T s -> recorded vals' T s.
  Proof. intros vals vals' T s E H. unfold recorded in *. now rewrite <- E. Qed.

  Lemma fin_ok : forall T p s, wf T = true -> builtins_ok T = true -> s + tslots T <= lim ->
    consistent v0 T s -> headed (fun b => In b ids) T s -> inv p s ->
    exists p', fin_tree ids T p = Some p' /\ post T p p' s.
  Proof.
    induction T as [T IH] using tree_ind2. intros p s W B HL C Hd Iv.
    destruct (i_slot _ _ Iv) as [Es|[_ X]]; [|now apply exh_post].
    destruct (in_dec Z.eq_dec (f_slot p / CAP) ids) as [Here|Nx].
    2:{ apply void_post; auto. apply void_headed; [exact Hd|]. now rewrite <- Es. }
    pose proof (i_pos _ _ Iv) as P0. rewrite Es in Here, P0.
    assert (Vs : f_vals p s = v0 s) by (apply (i_vals _ _ Iv); lia).
    destruct T as [c a q|un a ms|a n e].
    - (* leaf *)
      assert (NC : ~ contents v0 (TLeaf c a q) s) by (intros (m & s1 & [] & _)).
      assert (Only : forall T' s', node_at (TLeaf c a q) s T' s' -> T' = TLeaf c a q /\ s' = s).
      { intros T' s' N. inversion N as [|x y m s1 u w Cd]; subst; [auto|destruct Cd]. }
      assert (Ad : inv (advance p) (s + 1)).
      { constructor; cbn.
        - left. lia.
        - lia.
        - apply iter_ok_more; [apply (i_iter _ _ Iv)|lia].
        - intros x Hx. apply (i_vals _ _ Iv). lia. }
      assert (Quiet : takes_value (TLeaf c a q) = false ->
        post (TLeaf c a q) p (advance p) s).
      { intros TV. assert (NI : ~ initialised v0 (TLeaf c a q) s).
        { intros I. apply init_step in I as [[TV2 _]|I]; [congruence|exact (NC I)]. }
        constructor; cbn [tslots].
        - exact Ad.
        - cbn. split; [auto|]. intros [?|?]; [assumption|contradiction].
        - reflexivity.
        - intros T' s' N. destruct (Only _ _ N) as [-> ->]. cbn [advance f_vals].
          split; [rewrite Vs, nodef; split; [discriminate|contradiction]|]. right. split; [exact NC|].
          now rewrite Vs. }
      cbn [fin_tree]. unfold fin_leaf. rewrite Es, (fget_in s _ Here), Vs.
      assert (Sc : takes_value (TLeaf c a q) = true ->
        let def := negb (is_undef (sv (v0 s))) in
        post (TLeaf c a q) p {| f_slot := s + 1; f_def := f_def p || def; f_iter := f_iter p;
                f_vals := vupd (f_vals p) s {| sv := sv (v0 s); sdef := def |} |} s).
      { intros TV def.
        assert (Di : def = true <-> initialised v0 (TLeaf c a q) s).
        { rewrite init_step. unfold def, given. destruct (sv (v0 s)); cbn; split; intros; try discriminate;
            try (left; split; [exact TV|congruence]); try reflexivity.
          exfalso. destruct H as [[_ H]|H]; [congruence|exact (NC H)]. }
        constructor; cbn [tslots f_slot f_def f_vals].
        - constructor; cbn.
          + left. reflexivity.
          + lia.
          + apply iter_ok_more; [apply (i_iter _ _ Iv)|lia].
          + intros x Hx. unfold vupd. replace (x =? s) with false by lia. apply (i_vals _ _ Iv). lia.
        - rewrite orb_true_iff, Di. reflexivity.
        - intros x Hx. unfold vupd. now replace (x =? s) with false by lia.
        - intros T' s' N. destruct (Only _ _ N) as [-> ->]. unfold recorded, vupd. rewrite Z.eqb_refl.
          cbn [sv sdef]. split; [exact Di|]. right. split; [exact NC|reflexivity]. }
      destruct c; try discriminate W; try (eexists; split; [reflexivity|apply Sc; reflexivity]).
      + eexists. split; [reflexivity|]. apply Quiet. reflexivity.
      + cbn [builtins_ok] in B. rewrite B. specialize (C _ _ (na_here _ _)). cbn in C.
        destruct (is_undef (sv (v0 s))) eqn:U.
        * eexists. split; [reflexivity|]. apply Quiet. reflexivity.
        * exfalso. apply C. unfold given. destruct (sv (v0 s)); try discriminate U; discriminate.
    - (* structure or union *)
      assert (Wm : forall x, In x ms -> wf x = true) by (intros; eapply wf_kids; eauto).
      assert (Bm : forall x, In x ms -> builtins_ok x = true).
      { cbn [builtins_ok] in B. now rewrite forallb_forall in B. }
      assert (U : is_undef (sv (v0 s)) = true).
      { specialize (C _ _ (na_here _ _)). cbn in C. unfold given in C.
        destruct (sv (v0 s)); try reflexivity; exfalso; apply C; discriminate. }
      rewrite fin_tree_agg. rewrite Es, (fget_in s _ Here), Vs, U. cbn zeta.
      assert (L : forall l q s1, (forall m s2, In (m, s2) (mslots l s1) -> child (TAgg un a ms) s m s2) ->
        (forall x, In x l -> In x ms) -> s1 + zsum (map tslots l) <= lim -> inv q s1 ->
        exists q', fin_list ids l q = Some q' /\ inv q' (s1 + zsum (map tslots l)) /\
          (f_def q' = true <-> f_def q = true \/ exists m s2, In (m, s2) (mslots l s1) /\ initialised v0 m s2) /\
          (forall x, x < s1 \/ s1 + zsum (map tslots l) <= x -> f_vals q' x = f_vals q x) /\
          (forall m s2 T' s', In (m, s2) (mslots l s1) -> node_at m s2 T' s' -> recorded (f_vals q') T' s')).
      { induction l as [|m l IHl]; intros q s1 Hch Hin Hl Iq; cbn [fin_list mslots map zsum fold_right] in *.
        - exists q. rewrite Z.add_0_r. split; [reflexivity|]. split; [exact Iq|]. split.
          + split; [auto|]. intros [?|(m & s2 & [] & _)]; assumption.
          + split; [reflexivity|]. intros m s2 T' s' [].
        - assert (Im : In m ms) by (apply Hin; now left).
          pose proof (tslots_pos m (Wm m Im)) as Pm.
          assert (Zl : 0 <= zsum (map tslots l)).
          { assert (Wl : forall x, In x l -> wf x = true) by (intros; apply Wm, Hin; now right).
            clear -Wl. induction l as [|y l IHl]; [cbn; lia|]. cbn [map zsum fold_right].
            pose proof (tslots_pos y (Wl y (or_introl eq_refl))).
            assert (0 <= zsum (map tslots l)) by (apply IHl; intros; apply Wl; now right).
            unfold zsum in *. lia. }
          destruct (IH m Im q s1) as (q1 & E1 & P1); auto.
          { unfold zsum in *. lia. }
          { intros T' s' N. apply C. econstructor; [|exact N]. apply Hch. now left. }
          { intros T' s' b N. apply Hd. econstructor; [|exact N]. apply Hch. now left. }
          rewrite E1. destruct (IHl q1 (s1 + tslots m)) as (q2 & E2 & I2 & D2 & O2 & N2).
          { intros x s2 Hx. apply Hch. now right. }
          { intros x Hx. apply Hin. now right. }
          { unfold zsum in *. lia. }
          { apply (p_inv _ _ _ _ P1). }
          exists q2. split; [exact E2|]. unfold zsum in *.
          split; [replace (s1 + (tslots m + fold_right Z.add 0 (map tslots l)))
                   with (s1 + tslots m + fold_right Z.add 0 (map tslots l)) by lia; exact I2|].
          split.
          { rewrite D2, (p_def _ _ _ _ P1). split.
            - intros [[?|Im1]|(x & s2 & I1 & I3)]; auto; right.
              + exists m, s1. split; [now left|exact Im1].
              + exists x, s2. split; [now right|exact I3].
            - intros [?|(x & s2 & [Ex|I1] & I3)]; auto.
              + injection Ex as <- <-. auto.
              + right. eauto. }
          split.
          { intros x Hx. rewrite O2 by lia. apply (p_other _ _ _ _ P1). lia. }
          intros x s2 T' s' [Ex|I1] N.
          + injection Ex as <- <-. destruct (node_range _ _ _ _ N (Wm m Im)) as (W' & L1 & L2).
            pose proof (tslots_pos T' W').
            eapply recorded_same; [|apply (p_nodes _ _ _ _ P1 _ _ N)]. symmetry. apply O2. lia.
          + eapply N2; eauto. }
      destruct (L ms (sub p) (s + 1)) as (q & E & Iq & Dq & Oq & Nq); auto.
      { cbn [tslots] in HL. lia. }
      { constructor; cbn.
        - left. lia.
        - lia.
        - apply iter_ok_more; [apply (i_iter _ _ Iv)|lia].
        - intros x Hx. apply (i_vals _ _ Iv). lia. }
      rewrite E. eexists. split; [reflexivity|]. unfold fin_agg_end.
      rewrite Es, (fget_in s _ Here).
      assert (Cq : f_def q = true <-> contents v0 (TAgg un a ms) s).
      { rewrite Dq. cbn [sub f_def]. unfold contents. cbn [child]. split; [intros [?|?]; [discriminate|assumption]|auto]. }
      assert (Ii : initialised v0 (TAgg un a ms) s <-> contents v0 (TAgg un a ms) s).
      { rewrite init_step. cbn [takes_value]. split; [intros [[? _]|?]; [discriminate|assumption]|auto]. }
      assert (Qs : f_vals q s = v0 s) by (rewrite Oq by lia; exact Vs).
      assert (Zm : 0 <= zsum (map tslots ms)).
      { pose proof (tslots_pos _ W) as Pt. cbn [tslots] in Pt. lia. }
      constructor; cbn [f_slot f_def f_iter f_vals].
      + replace (s + tslots (TAgg un a ms)) with (s + 1 + zsum (map tslots ms)) by (cbn [tslots]; lia).
        destruct Iq as [A1 A2 A3 A4]. constructor; cbn; auto.
        * intros x Hx. unfold vupd. replace (x =? s) with false by lia. apply A4. lia.
      + rewrite orb_true_iff, Cq, Ii. reflexivity.
      + intros x Hx. cbn [tslots] in Hx. unfold vupd. replace (x =? s) with false by lia.
        rewrite Oq by lia. reflexivity.
      + intros T' s' N. inversion N as [|x y m s1 u w Cd N']; subst.
        * unfold recorded, vupd. rewrite Z.eqb_refl. cbn [sv sdef]. rewrite Cq, Ii. split; [reflexivity|].
          destruct (f_def q) eqn:Dqe.
          -- left. split; [apply Cq; reflexivity|reflexivity].
          -- right. split; [intros X; apply Cq in X; discriminate X|]. now rewrite Qs.
        * destruct (child_range _ _ _ _ W Cd) as (Wm1 & L1 & L2).
          destruct (node_range _ _ _ _ N' Wm1) as (W' & L3 & L4).
          eapply recorded_same; [|eapply Nq; eauto]. unfold vupd. now replace (s' =? f_slot p) with false by lia.
    - (* array *)
      assert (We : wf e = true) by (eapply wf_kids; [exact W|now left]).
      assert (Be : builtins_ok e = true) by exact B.
      pose proof (tslots_pos e We) as Pe.
      assert (Wn : 0 <= n) by (cbn [wf] in W; apply andb_true_iff in W as [Wn _]; lia).
      set (at_ := fun k => s + 1 + k * tslots e).
      assert (L : forall fuel i q, 0 <= i <= n -> n - i <= Z.of_nat fuel -> inv q (at_ i) ->
        exists q', fin_loop (fin_tree ids e) fuel (tslots e) n (s + 1 + tslots e * n) i q = Some q' /\
          inv q' (at_ n) /\
          (f_def q' = true <-> f_def q = true \/ exists k, i <= k < n /\ initialised v0 e (at_ k)) /\
          (forall x, x < at_ i \/ at_ n <= x -> f_vals q' x = f_vals q x) /\
          (forall k T' s', i <= k < n -> node_at e (at_ k) T' s' -> recorded (f_vals q') T' s')).
      { induction fuel as [|fuel IHf]; intros i q Hi Hf Iq; cbn [fin_loop].
        - replace (i <? n) with false by lia. exists q. assert (i = n) by lia. subst i.
          split; [reflexivity|]. split; [exact Iq|]. split.
          + split; [auto|]. intros [?|(k & Hk & _)]; [assumption|lia].
          + split; [reflexivity|]. intros; lia.
        - destruct (Z.ltb_spec i n) as [Hin|Hin].
          2:{ exists q. assert (i = n) by lia. subst i. split; [reflexivity|]. split; [exact Iq|]. split.
              + split; [auto|]. intros [?|(k & Hk & _)]; [assumption|lia].
              + split; [reflexivity|]. intros; lia. }
          destruct (i_iter _ _ Iq) as (pre & Ei & Fi).
          destruct (skip_spec (f_iter q) (f_slot q)) as (pre2 & E2 & F2 & G2).
          pose proof (i_pos _ _ Iq) as Pq.
          destruct (skip_to (f_iter q) (f_slot q)) as [|b r] eqn:Sk.
          + (* no more blocks *)
            assert (X : exhausted (f_slot q)).
            { intros b Hb. rewrite Ei, E2, app_nil_r in Hb. apply in_app_or in Hb as [Hb|Hb].
              - rewrite Forall_forall in Fi. apply Fi in Hb. exact Hb.
              - rewrite Forall_forall in F2. apply F2 in Hb. exact Hb. }
            assert (Lq : f_slot q <= at_ i) by (destruct (i_slot _ _ Iq) as [->|[? _]]; lia).
            eexists. split; [reflexivity|]. cbn [f_slot f_def f_iter f_vals]. split.
            { constructor; cbn.
              - right. split; [unfold at_ in *; nia|exact X].
              - exact Pq.
              - exists ids. split; [now rewrite app_nil_r|]. apply Forall_forall. exact X.
              - intros x Hx. apply (i_vals _ _ Iq). unfold at_ in *; nia. }
            split.
            { split; [auto|]. intros [?|(k & Hk & I1)]; [assumption|]. exfalso.
              eapply (exh_init e (f_slot q) (at_ k)); eauto; cbn [tslots] in HL; unfold at_ in *; nia. }
            split; [reflexivity|]. intros k T' s' Hk N.
            destruct (node_range _ _ _ _ N We) as (W' & L1 & L2).
            eapply (recorded_exh T' s' _ (f_slot q)); eauto.
            * cbn [tslots] in HL. unfold at_ in *; nia.
            * unfold at_ in *; nia.
            * unfold at_ in *; nia.
            * apply (i_vals _ _ Iq). unfold at_ in *; nia.
          + assert (Ib : In b ids) by (rewrite Ei, E2; apply in_or_app; right; apply in_or_app; right; now left).
            assert (Eq : f_slot q = at_ i).
            { destruct (i_slot _ _ Iq) as [?|[_ X]]; [assumption|]. specialize (X b Ib). lia. }
            destruct (skip_next q b r (i_iter _ _ Iq) Sk) as (_ & L1 & L2 & pre3 & E3 & F3).
            assert (Hi2 : headed (fun b => In b ids) e (at_ i)).
            { intros T' s' c N. apply Hd. econstructor; [|exact N]. cbn [child]. split; [reflexivity|].
              exists i. split; [lia|reflexivity]. }
            cbn [f_slot f_def f_iter f_vals]. destruct (Z.ltb_spec (f_slot q) (b * CAP)) as [Lt|Ge].
            { (* elements not in use are skipped *)
              assert (Gap : forall x, f_slot q <= x -> x < b * CAP -> ~ In (x / CAP) ids).
              { intros x X1 X2 Ix. destruct (split_slot x) as [Ex Mx].
                assert (X3 : x / CAP < b) by (unfold CAP in *; lia). specialize (L2 _ Ix X3). unfold CAP in *; lia. }
              assert (V1 : void (at_ i) (tslots e)) by (apply void_headed; [exact Hi2|rewrite <- Eq; apply Gap; lia]).
              assert (Lb : at_ i + tslots e <= b * CAP).
              { destruct (Z.le_gt_cases (at_ i + tslots e) (b * CAP)) as [?|G]; [assumption|]. exfalso.
                apply (V1 (b * CAP)); [lia|]. rewrite Z.div_mul by (unfold CAP; lia). exact Ib. }
              set (en := s + 1 + tslots e * n). assert (Ee : en = at_ n) by (unfold en, at_; lia).
              set (u := (Z.min en (b * CAP) - f_slot q) / tslots e).
              assert (Hu : 1 <= u /\ u * tslots e <= Z.min en (b * CAP) - f_slot q).
              { split.
                - apply Z.div_le_lower_bound; [lia|]. rewrite Ee, Eq. unfold at_ in *; nia.
                - unfold u. rewrite Z.mul_comm. apply Z.mul_div_le. lia. }
              assert (Hu2 : i + u <= n) by (unfold at_ in *; nia).
              replace (0 <? u) with true by lia.
              assert (Su : f_slot q + u * tslots e = at_ (i + u)) by (unfold at_ in *; lia).
              destruct (IHf (i + u) {| f_slot := f_slot q + u * tslots e; f_def := f_def q; f_iter := b :: r; f_vals := f_vals q |})
                as (q2 & E4 & I4 & D4 & O4 & N4); [lia|lia| |].
              { constructor; cbn.
                - left. exact Su.
                - nia.
                - exists pre3. cbn. split; [exact E3|]. eapply Forall_impl; [|exact F3]. cbn. intros; nia.
                - intros x Hx. apply (i_vals _ _ Iq). unfold at_ in *; nia. }
              cbn [f_slot f_def f_iter f_vals] in *.
              assert (Vk : forall k, i <= k < i + u -> void (at_ k) (tslots e)).
              { intros k Hk x Hx. apply Gap; [unfold at_ in *; nia|]. unfold at_ in *; nia. }
              exists q2. split; [exact E4|]. split; [exact I4|]. split.
              { rewrite D4. split.
                - intros [?|(k & Hk & I5)]; [auto|]. right. exists k. split; [lia|exact I5].
                - intros [?|(k & Hk & I5)]; [auto|]. destruct (Z.lt_ge_cases k (i + u)) as [K|K].
                  + exfalso. assert (K1 : at_ i <= at_ k) by (unfold at_; nia). assert (K2 : at_ k + tslots e <= at_ n) by (unfold at_; nia).
                    assert (Ki : 0 <= at_ i) by (unfold at_; nia).
                    rewrite <- Ee in K2. unfold en in K2. cbn [tslots] in HL.
                    apply (void_init e (at_ k) We ltac:(lia) ltac:(lia) (Vk k ltac:(lia)) I5).
                  + right. exists k. split; [lia|exact I5]. }
              split.
              { intros x Hx. apply O4. unfold at_ in *; nia. }
              intros k T' s' Hk N. destruct (Z.lt_ge_cases k (i + u)) as [K|K].
              - destruct (node_range _ _ _ _ N We) as (W' & L3 & L4). pose proof (tslots_pos T' W').
                assert (K1 : at_ i <= at_ k) by (unfold at_; nia).
                assert (K2 : at_ k + tslots e <= at_ (i + u)) by (unfold at_; nia).
                assert (K3 : at_ (i + u) <= at_ n) by (unfold at_; nia).
                assert (Es' : f_vals q2 s' = v0 s') by (rewrite O4 by (left; lia); apply (i_vals _ _ Iq); lia).
                apply void_recorded; auto.
                + rewrite <- Ee in K3. unfold en in K3. cbn [tslots] in HL. lia.
                + eapply void_part; [exact We|exact N|]. apply Vk. lia.
                + unfold at_ in *; nia.
              - apply (N4 k); [lia|exact N]. }
            set (q0 := {| f_slot := f_slot q; f_def := f_def q; f_iter := b :: r; f_vals := f_vals q |}).
            assert (I0 : inv q0 (at_ i)).
            { destruct Iq as [B1 B2 B3 B4]. constructor; cbn; auto.
              exists (pre ++ pre2). split; [rewrite Ei, E2 at 1; now rewrite app_assoc|].
              apply Forall_app. split; assumption. }
            destruct (IH e (or_introl eq_refl) q0 (at_ i)) as (q1 & E1 & P1); auto.
            { cbn [tslots] in HL. unfold at_. nia. }
            { intros T' s' N. apply C. econstructor; [|exact N]. cbn [child]. split; [reflexivity|].
              exists i. split; [lia|reflexivity]. }
            rewrite E1.
            assert (St : at_ i + tslots e = at_ (i + 1)) by (unfold at_; lia).
            destruct (IHf (i + 1) q1) as (q2 & E5 & I3 & D3 & O3 & N3); [lia|lia| |].
            { rewrite <- St. apply (p_inv _ _ _ _ P1). }
            exists q2. split; [exact E5|]. split; [exact I3|]. split.
            { rewrite D3, (p_def _ _ _ _ P1). cbn [q0 f_def]. split.
              - intros [[?|I4]|(k & Hk & I4)]; auto; right.
                + exists i. split; [lia|exact I4].
                + exists k. split; [lia|exact I4].
              - intros [?|(k & Hk & I4)]; auto. destruct (Z.eq_dec k i) as [->|]; auto.
                right. exists k. split; [lia|exact I4]. }
            split.
            { intros x Hx. rewrite O3 by (unfold at_ in *; nia).
              rewrite (p_other _ _ _ _ P1) by (rewrite St; unfold at_ in *; nia). reflexivity. }
            intros k T' s' Hk N. destruct (Z.eq_dec k i) as [->|Nk].
            * destruct (node_range _ _ _ _ N We) as (W' & L3 & L4). pose proof (tslots_pos T' W').
              eapply recorded_same; [|apply (p_nodes _ _ _ _ P1 _ _ N)]. symmetry. apply O3. lia.
            * apply (N3 k); [lia|exact N]. }
      cbn [fin_tree]. rewrite Es.
      destruct (L (Z.to_nat n) 0 (sub p)) as (q & E & Iq & Dq & Oq & Nq); [lia|lia| |].
      { constructor; cbn.
        - left. unfold at_. lia.
        - lia.
        - apply iter_ok_more; [apply (i_iter _ _ Iv)|lia].
        - intros x Hx. apply (i_vals _ _ Iv). unfold at_ in Hx. lia. }
      rewrite E. unfold fin_arr_end. rewrite Es, (fget_in s _ Here).
      assert (Qs : f_vals q s = v0 s) by (rewrite Oq by (unfold at_; lia); exact Vs).
      assert (Cq : f_def q = true <-> contents v0 (TArr a n e) s).
      { rewrite Dq. cbn [sub f_def]. unfold contents. cbn [child]. split.
        - intros [?|(k & Hk & I1)]; [discriminate|]. exists e, (at_ k). split; [|exact I1].
          split; [reflexivity|]. exists k. auto.
        - intros (m & s1 & (-> & k & Hk & ->) & I1). right. exists k. auto. }
      assert (Conf : f_def q && negb (is_undef (sv (f_vals q s))) = false).
      { rewrite Qs. destruct (f_def q) eqn:Dqe; [|reflexivity]. cbn [andb].
        destruct (is_undef (sv (v0 s))) eqn:U; [reflexivity|]. exfalso.
        specialize (C _ _ (na_here _ _)). cbn in C. apply C; [|now apply Cq].
        unfold given. intros X. rewrite X in U. discriminate. }
      rewrite Conf. eexists. split; [reflexivity|].
      assert (Ii : f_def q || negb (is_undef (sv (f_vals q s))) = true <-> initialised v0 (TArr a n e) s).
      { rewrite orb_true_iff, Cq, init_step, Qs. unfold given. cbn [takes_value].
        destruct (sv (v0 s)) eqn:V; cbn; split; intros [X|X]; auto; try discriminate X;
          try (left; split; [reflexivity|discriminate]); try (destruct X; congruence). }
      constructor; cbn [f_slot f_def f_iter f_vals].
      + replace (s + tslots (TArr a n e)) with (at_ n) by (unfold at_; cbn [tslots]; lia).
        destruct Iq as [A1 A2 A3 A4]. constructor; cbn; auto.
        intros x Hx. unfold vupd. replace (x =? s) with false by (unfold at_ in *; nia). now apply A4.
      + rewrite orb_true_iff, Ii. reflexivity.
      + intros x Hx. cbn [tslots] in Hx. unfold vupd. replace (x =? s) with false by nia.
        rewrite Oq by (unfold at_; nia). reflexivity.
      + intros T' s' N. inversion N as [|x y m s1 u w Cd N']; subst.
        * unfold recorded, vupd. rewrite Z.eqb_refl. cbn [sv sdef]. rewrite Ii. split; [reflexivity|].
          destruct (f_def q) eqn:Dqe.
          -- left. split; [apply Cq; reflexivity|reflexivity].
          -- right. split; [intros X; apply Cq in X; discriminate X|]. now rewrite Qs.
        * destruct (child_range _ _ _ _ W Cd) as (Wm1 & L1 & L2).
          destruct (node_range _ _ _ _ N' Wm1) as (W' & L3 & L4).
          cbn [child] in Cd. destruct Cd as (-> & k & Hk & Es1). rewrite Es1 in N'.
          eapply recorded_same; [|exact (Nq k _ _ Hk N')]. unfold vupd.
          now replace (s' =? f_slot p) with false by lia.
  Qed.
End MAIN.

(** ** C37 *)

Lemma fin_list_ok : forall ids v0 lim, (forall x, sdef (v0 x) = false) ->
  (forall x, 0 <= x < lim -> ~ In (x / CAP) ids -> v0 x = undef) ->
  StronglySorted Z.lt ids ->
  forall l q s, (forall T, In T l -> wf T = true /\ builtins_ok T = true) ->
  s + zsum (map tslots l) <= lim -> (forall T s', In (T, s') (mslots l s) -> consistent v0 T s') ->
  (forall T s', In (T, s') (mslots l s) -> headed (fun b => In b ids) T s') ->
  inv ids v0 q s ->
  exists q', fin_list ids l q = Some q' /\ inv ids v0 q' (s + zsum (map tslots l)) /\
    (f_def q' = true <-> f_def q = true \/ exists m s2, In (m, s2) (mslots l s) /\ initialised v0 m s2) /\
    (forall x, x < s \/ s + zsum (map tslots l) <= x -> f_vals q' x = f_vals q x) /\
    (forall m s2 T' s', In (m, s2) (mslots l s) -> node_at m s2 T' s' -> recorded v0 (f_vals q') T' s').
Proof.
  intros ids v0 lim Hd Ha Hs.
  induction l as [|m l IHl]; intros q s W Hl C Hn Iq; cbn [fin_list mslots map zsum fold_right] in *.
  - exists q. rewrite Z.add_0_r. split; [reflexivity|]. split; [exact Iq|]. split.
    + split; [auto|]. intros [?|(m & s2 & [] & _)]; assumption.
    + split; [reflexivity|]. intros m s2 T' s' [].
  - destruct (W m (or_introl eq_refl)) as [Wm Bm].
    pose proof (tslots_pos m Wm) as Pm.
    assert (Zl : 0 <= zsum (map tslots l)).
    { assert (Wl : forall x, In x l -> wf x = true) by (intros; apply W; now right).
      clear -Wl. induction l as [|y l IHl]; [cbn; lia|]. cbn [map zsum fold_right].
      pose proof (tslots_pos y (Wl y (or_introl eq_refl))).
      assert (0 <= zsum (map tslots l)) by (apply IHl; intros; apply Wl; now right).
      unfold zsum in *. lia. }
    unfold zsum in *.
    destruct (fin_ok ids v0 Hd lim Ha Hs m q s) as (q1 & E1 & P1); auto; try lia.
    { apply C. now left. }
    { apply Hn. now left. }
    rewrite E1. destruct (IHl q1 (s + tslots m)) as (q2 & E2 & I2 & D2 & O2 & N2).
    { intros x Hx. apply W. now right. }
    { lia. }
    { intros x s2 Hx. apply C. now right. }
    { intros x s2 Hx. apply Hn. now right. }
    { apply (p_inv _ _ _ _ _ _ P1). }
    exists q2. split; [exact E2|].
    split; [replace (s + (tslots m + fold_right Z.add 0 (map tslots l)))
             with (s + tslots m + fold_right Z.add 0 (map tslots l)) by lia; exact I2|].
    split.
    { rewrite D2, (p_def _ _ _ _ _ _ P1). split.
      - intros [[?|Im1]|(x & s2 & I1 & I3)]; auto; right.
        + exists m, s. split; [now left|exact Im1].
        + exists x, s2. split; [now right|exact I3].
      - intros [?|(x & s2 & [Ex|I1] & I3)]; auto.
        + injection Ex as <- <-. auto.
        + right. eauto. }
    split.
    { intros x Hx. rewrite O2 by lia. apply (p_other _ _ _ _ _ _ P1). lia. }
    intros x s2 T' s' [Ex|I1] N.
    + injection Ex as <- <-. destruct (node_range _ _ _ _ N Wm) as (W' & L1 & L2).
      pose proof (tslots_pos T' W').
      eapply recorded_same; [|apply (p_nodes _ _ _ _ _ _ P1 _ _ N)]. symmetry. apply O2. lia.
    + eapply N2; eauto.
Qed.

(** After any writes to the slots of an object (or list of objects) finalization
    succeeds, reports "defined" exactly if something was initialised, and records for
    every part exactly whether anything in it was.  Missing: parts that begin in a block of
    slots nothing was written to and reach into one in use (see the refutations). *)
Theorem c37_initialised_objects_are_defined_partial :
  forall ts ops, Forall (fun op => in_range (fst op)) ops ->
    (forall T, In T ts -> wf T = true /\ builtins_ok T = true) ->
    zsum (map tslots ts) <= 2 ^ 59 ->
  exists d, writes data_alloc ops = Some d /\
    ((forall T s, In (T, s) (mslots ts 0) -> consistent (value_at d) T s) ->
     (forall T s, In (T, s) (mslots ts 0) -> headed (fun b => exists op, In op ops /\ b = fst op / CAP) T s) ->
     exists def vals, data_finalize (flats ts) d = Some (def, vals) /\
       (def = true <-> exists T s, In (T, s) (mslots ts 0) /\ initialised (value_at d) T s) /\
       (forall T s T' s', In (T, s) (mslots ts 0) -> node_at T s T' s' ->
          recorded (value_at d) vals T' s')).
Proof.
  intros ts ops R W L.
  destruct (writes_ok ops data_alloc _ holds_alloc eq_refl R) as (d & m & E & H & F & V & P).
  destruct (present_ok d m H) as [P1 P2]. exists d. split; [exact E|]. intros C D.
  assert (In_present : forall b, In b (present d) <-> exists op, In op ops /\ b = fst op / CAP).
  { intros b. rewrite P1, P. split; [intros [X|X]; [congruence|exact X]|auto]. }
  unfold data_finalize. rewrite finalize_tree by (intros; now apply W).
  destruct (fin_list_ok (present d) (value_at d) (2 ^ 59)) with (l := ts) (s := 0)
    (q := {| f_slot := 0; f_def := false; f_iter := present d; f_vals := value_at d |})
    as (q & Eq & _ & Dq & _ & Nq); auto.
  - intros x. unfold value_at, get_entry. rewrite (get_block_ok d m _ H).
    destruct (m (block_of x)) as [p|] eqn:Em; [|reflexivity].
    pose proof (V (block_of x * CAP + offset_of x)) as Vx. unfold view in Vx.
    assert (Ho : 0 <= offset_of x < CAP).
    { unfold offset_of. pose proof (Z.mod_pos_bound (u64 (x * ESIZE)) (CAP * ESIZE) ltac:(unfold CAP, ESIZE; lia)) as M.
      revert M. generalize (u64 (x * ESIZE) mod (CAP * ESIZE)). unfold CAP, ESIZE. intros z M.
      split; [apply Z.div_pos; lia|apply Z.div_lt_upper_bound; lia]. }
    replace ((block_of x * CAP + offset_of x) / CAP) with (block_of x) in Vx
      by (rewrite Z.div_add_l by (unfold CAP; lia); rewrite Z.div_small by exact Ho; lia).
    replace ((block_of x * CAP + offset_of x) mod CAP) with (offset_of x) in Vx
      by (rewrite Z.add_comm, Z.mod_add by (unfold CAP; lia); now rewrite Z.mod_small).
    rewrite Em in Vx. rewrite Vx. reflexivity.
  - intros x Hx Nx. rewrite (value_at_view d m x H Hx). unfold view.
    destruct (m (x / CAP)) eqn:Em; [|reflexivity]. exfalso. apply Nx. apply P1. congruence.
  - intros T s I T' s' b N Hb L1 L2. apply In_present. apply (D T s I T' s' b N); auto. now apply In_present.
  - constructor; cbn.
    + left. reflexivity.
    + lia.
    + exists []. split; [reflexivity|constructor].
    + reflexivity.
  - rewrite Eq. exists (f_def q), (f_vals q). split; [reflexivity|]. split; [|exact Nq].
    rewrite Dq. cbn. split; [intros [?|?]; [discriminate|assumption]|auto].
Qed.

(** In particular, objects of at most 128 slots. *)
Theorem c37_small_objects_are_defined :
  forall T ops, wf T = true -> builtins_ok T = true -> tslots T <= CAP ->
    Forall (fun op => 0 <= fst op < tslots T) ops ->
  exists d, writes data_alloc ops = Some d /\
    (consistent (value_at d) T 0 ->
     exists def vals, data_finalize (flats [T]) d = Some (def, vals) /\
       (def = true <-> initialised (value_at d) T 0)).
Proof.
  intros T ops W B L R.
  destruct (c37_initialised_objects_are_defined_partial [T] ops) as (d & E & H).
  - eapply Forall_impl; [|exact R]. cbn. unfold in_range, CAP in *. intros; lia.
  - intros x [<-|[]]. auto.
  - cbn. unfold CAP in L. lia.
  - exists d. split; [exact E|]. intros C. destruct H as (def & vals & F & D & _).
    + intros x s [X|[]]. now injection X as <- <-.
    + intros x s [X|[]] T' s' b N (op & I & ->) L1 L2. injection X as <- <-.
      destruct (node_range _ _ _ _ N W) as (W' & B1 & B2). pose proof (tslots_pos T' W').
      exists op. split; [exact I|]. rewrite Forall_forall in R. specialize (R _ I). cbn in R.
      rewrite !Z.div_small by lia. reflexivity.
    + exists def, vals. split; [exact F|]. rewrite D. cbn. split.
      * intros (x & s & [X|[]] & Ix). now injection X as <- <-.
      * intros Ix. exists T, 0. auto.
Qed.

(** int x[1000] = { [500] = 7 }: the array's own slot lies in a block nothing was
    written to, so the object counts as not defined and goes to .bss. *)
Definition sparse_array : tree := TArr 0 1000 (TLeaf CInt 0 0).

Theorem c37_initialised_objects_are_defined_refuted :
  ~ (forall T ops, wf T = true -> builtins_ok T = true ->
       Forall (fun op => 0 <= fst op < tslots T) ops ->
     forall d, writes data_alloc ops = Some d -> consistent (value_at d) T 0 ->
     initialised (value_at d) T 0 ->
     exists vals, data_finalize (flats [T]) d = Some (true, vals)).
Proof.
  intros H. destruct (c05_reads_back_last_write [(501, VInt 7)]) as (d & E & V).
  { repeat constructor; cbn; lia. }
  assert (V1 : forall i, in_range i -> i <> 501 -> sv (value_at d i) = VUndef).
  { intros i R N. rewrite V by exact R. unfold last_write. cbn [fold_left fst snd].
    now replace (501 =? i) with false by lia. }
  assert (Hd : option_map (fun d => option_map fst (data_finalize (flats [sparse_array]) d))
                 (writes data_alloc [(501, VInt 7)]) = Some (Some false)) by (vm_compute; reflexivity).
  destruct (H sparse_array [(501, VInt 7)]) with (d := d) as (vals & X); auto.
  - repeat constructor; cbn; lia.
  - intros T' s' N. destruct T' as [c a p|un a ms|a n e].
    + inversion N as [|x y m s1 u w C N']; subst. cbn in C. destruct C as (-> & k & Hk & ->).
      inversion N' as [|x y m s1 u w C N2]; subst; [exact I|destruct C].
    + inversion N as [|x y m s1 u w C N']; subst. cbn in C. destruct C as (-> & k & Hk & ->).
      inversion N' as [|x y m s1 u w C N2]; subst. destruct C.
    + inversion N as [|x y m s1 u w C N']; subst.
      * intros G. exfalso. apply G. apply V1; [split; lia|lia].
      * cbn in C. destruct C as (-> & k & Hk & ->).
        inversion N' as [|x y m s1 u w C N2]; subst. destruct C.
  - exists (TLeaf CInt 0 0), 501. split; [|split; [reflexivity|]].
    + econstructor; [|constructor]. split; [reflexivity|]. exists 500. split; [lia|reflexivity].
    + unfold given. rewrite V by (split; lia). discriminate.
  - rewrite E in Hd. cbn [option_map] in Hd. rewrite X in Hd. discriminate.
Qed.

(** struct { int a, b; } x[200] = { { 1, 2 }, [127].b = 3 }: an element that begins in a
    missing block and ends in one in use stops the traversal; the slot of [127].b is not
    marked. *)
Example c37_straddling_element :
  let T := TArr 0 200 (TAgg false 0 [TLeaf CInt 0 0; TLeaf CInt 0 0]) in
  option_map (fun d => option_map (fun r => (fst r, sdef (snd r 2), sv (snd r 384), sdef (snd r 384)))
    (data_finalize (flats [T]) d))
    (writes data_alloc [(2, VInt 1); (3, VInt 2); (1 + 127 * 3 + 2, VInt 3)]) =
  Some (Some (true, true, VInt 3, false)).
Proof. vm_compute. reflexivity. Qed.

(** struct { int a; union { char c; int u; } v[3]; char *s; } x = { .v[1].u = 5 }. *)
Definition sample : tree :=
  TAgg false 0 [TLeaf CInt 0 0; TArr 0 3 (TAgg true 0 [TLeaf CChar 0 0; TLeaf CInt 0 0]); TLeaf CWord 0 0].

Example c37_example :
  wf sample = true /\ builtins_ok sample = true /\ tslots sample = 13 /\
  option_map (fun d => option_map (fun r => (fst r, map (fun i => sdef (snd r (Z.of_nat i))) (seq 0 13)))
    (data_finalize (flats [sample]) d))
    (writes data_alloc [(8, VInt 5)]) =
  Some (Some (true, [true; false; true; false; false; false; true; false; true; false; false; false; false])).
Proof. repeat split; vm_compute; reflexivity. Qed.

Example c37_hypotheses :
  exists d, writes data_alloc [(8, VInt 5)] = Some d /\ consistent (value_at d) sample 0 /\
    initialised (value_at d) sample 0.
Proof.
  destruct (c05_reads_back_last_write [(8, VInt 5)]) as (d & E & V).
  { repeat constructor; cbn; lia. }
  exists d. split; [exact E|].
  assert (V1 : forall i, 0 <= i < 13 -> i <> 8 -> ~ given (value_at d) i).
  { intros i R N G. apply G. rewrite V by (split; lia). unfold last_write. cbn [fold_left fst snd].
    now replace (8 =? i) with false by lia. }
  split.
  - intros T' s' N. inversion N as [|x y m s1 u w C N1]; subst.
    { apply V1; lia. }
    cbn in C. destruct C as [C|[C|[C|[]]]]; injection C as <- <-.
    + inversion N1 as [|x y m s1 u w C N2]; subst; [exact I|destruct C].
    + inversion N1 as [|x y m s1 u w C N2]; subst.
      { intros G. exfalso. revert G. apply V1; lia. }
      cbv [child] in C. destruct C as (-> & k & Hk & Es). change (tslots _) with 3 in Es.
      assert (Es' : s1 = 3 + k * 3) by (rewrite Es; cbn [tslots]; lia). clear Es.
      inversion N2 as [|x y m s2 u w C N3]; subst; [apply V1; lia|].
      cbn in C. destruct C as [C|[C|[]]]; injection C as <- <-;
        (inversion N3 as [|x y m s1 u w C N4]; subst; [exact I|destruct C]).
    + inversion N1 as [|x y m s1 u w C N2]; subst; [exact I|destruct C].
  - exists (TLeaf CInt 0 0), 8. split; [|split; [reflexivity|]].
    + econstructor; [cbn; right; left; reflexivity|].
      econstructor; [cbn; split; [reflexivity|]; exists 1; split; [lia|reflexivity]|].
      econstructor; [cbn; right; left; reflexivity|]. apply na_here.
    + unfold given. rewrite V by (split; lia). discriminate.
Qed.

(** struct { int a, b; struct { int v; } x[1000]; } y = { 1, .x[500] = { 7 } }: blocks 1 to 6
    are not in use, no element straddles a block. *)
Definition gaps : tree := TAgg false 0 [TLeaf CInt 0 0; TLeaf CInt 0 0; TArr 0 1000 (TAgg false 0 [TLeaf CInt 0 0])].
Definition gaps_init : list (Z * dval) := [(1, VInt 1); (1005, VInt 7)].
Example c37_gaps : headed (fun b => exists op, In op gaps_init /\ b = fst op / CAP) gaps 0 /\
  option_map (fun d => option_map (fun r => (fst r, map (fun i => sdef (snd r i)) [0; 1; 2; 3; 4; 5; 1003; 1004; 1005; 1006]))
    (data_finalize (flats [gaps]) d)) (writes data_alloc gaps_init) =
  Some (Some (true, [true; true; false; true; false; false; false; true; true; false])).
Proof.
  split; [|vm_compute; reflexivity].
  assert (Z0 : forall s', 0 <= s' < CAP -> exists op, In op gaps_init /\ s' / CAP = fst op / CAP).
  { intros s' H. exists (1, VInt 1). split; [now left|]. rewrite !Z.div_small by (unfold CAP in *; cbn; lia). reflexivity. }
  assert (Same : forall s' w b, 0 <= s' -> s' / CAP = (s' + w - 1) / CAP -> s' < (b + 1) * CAP -> b * CAP < s' + w -> s' / CAP = b).
  { intros s' w b P E L1 L2. destruct (split_slot s') as [E1 M1]. destruct (split_slot (s' + w - 1)) as [E2 M2]. unfold CAP in *. lia. }
  intros T' s' b N U L1 L2. inversion N as [|x y m s1 u w C N1]; subst.
  { apply Z0. unfold CAP; lia. }
  cbn in C. destruct C as [C|[C|[C|[]]]]; injection C as <- <-.
  - inversion N1 as [|x y m s1 u w C N2]; subst; [apply Z0; unfold CAP; lia|destruct C].
  - inversion N1 as [|x y m s1 u w C N2]; subst; [apply Z0; unfold CAP; lia|destruct C].
  - inversion N1 as [|x y m s1 u w C N2]; subst; [apply Z0; unfold CAP; lia|].
    cbv [child] in C. destruct C as (-> & k & Hk & Es). change (tslots _) with 2 in Es.
    assert (Es' : s1 = 4 + k * 2) by lia. clear Es.
    inversion N2 as [|x y m s2 u w C N3]; subst.
    + rewrite (Same (4 + k * 2) 2 b); [exact U|lia| |exact L1|exact L2].
      change CAP with (2 * 64). rewrite <- !Z.div_div by lia. f_equal.
      replace (4 + k * 2) with ((2 + k) * 2) by lia. rewrite Z.div_mul by lia.
      apply Z.div_unique with (r := 1); lia.
    + cbn [child mslots In] in C. destruct C as [C|[]]. pose proof (f_equal fst C) as C1. pose proof (f_equal snd C) as C2.
      cbn [fst snd] in C1, C2. clear C. subst m s2.
      inversion N3 as [|x y m s1 u w C N4]; subst; [|destruct C].
      match type of L1 with ?v < _ => rewrite (Same v 1 b); [exact U|lia| |exact L1|exact L2] end. f_equal. lia.
Qed.

Print Assumptions c37_initialised_objects_are_defined_partial.
Print Assumptions c37_small_objects_are_defined.
Print Assumptions c37_initialised_objects_are_defined_refuted.
