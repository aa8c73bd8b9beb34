(** C36: the bytes of a static object. *)

From Coq Require Import ZArith Lia Bool List Sorted.
From Coq Require Import ZifyBool.
From Verif Require Import Bits HashtreeModel IrType PropIrType LayoutModel PropLayout IrData PropIrData
  StaticData PropFinalize StaticProofs.
Import ListNotations.
Open Scope Z_scope.

(** ** Specification *)

(** Where the initialisers of an object [T] at slot [s] go: node [x] with the value of
    slot [sx] is at byte [o].  Of a union, the first member anything of which is
    initialised. *)
Inductive goes (v : Z -> slotv) : tree -> Z -> Z -> tree -> Z -> Prop :=
| go_leaf : forall c a p s, goes v (TLeaf c a p) s 0 (TLeaf c a p) s
| go_whole : forall a n e s, given v s -> goes v (TArr a n e) s 0 (TArr a n e) s
| go_struct : forall a l1 m l2 s o x sx,
    goes v m (s + 1 + zsum (map tslots l1)) o x sx ->
    goes v (TAgg false a (l1 ++ m :: l2)) s (abi_offset l1 m + o) x sx
| go_union : forall a l1 m l2 s o x sx,
    (forall l m' r, l1 = l ++ m' :: r -> ~ initialised v m' (s + 1 + zsum (map tslots l))) ->
    initialised v m (s + 1 + zsum (map tslots l1)) ->
    goes v m (s + 1 + zsum (map tslots l1)) o x sx ->
    goes v (TAgg true a (l1 ++ m :: l2)) s o x sx
| go_elem : forall a n e k s o x sx, ~ given v s -> 0 <= k < n ->
    goes v e (s + 1 + k * tslots e) o x sx ->
    goes v (TArr a n e) s (k * abi_size e + o) x sx.

(** The initialisers suit the types of the objects they are for. *)
Definition suits (v : Z -> slotv) (T : tree) (s : Z) : Prop :=
  forall o x sx, goes v T s o x sx ->
    exists cs, node_value x (sv (v sx)) = Some cs /\ zlen cs <= abi_size x.

(** [bytes] is the object: the right size, every value at its place, zero elsewhere. *)
Record object_bytes (goes : Z -> tree -> Z -> Prop) (v : Z -> slotv) (T : tree) (bytes : list cell) : Prop := {
  ob_size : zlen bytes = abi_size T;
  ob_value : forall o x sx, goes o x sx -> 0 <= o /\ o + abi_size x <= abi_size T /\
    exists cs, node_value x (sv (v sx)) = Some cs /\
      forall k, 0 <= k < zlen cs -> get bytes (o + k) = get cs k;
  ob_zero : forall k, 0 <= k < abi_size T ->
    (forall o x sx cs, goes o x sx -> node_value x (sv (v sx)) = Some cs -> ~ o <= k < o + zlen cs) ->
    get bytes k = Byte 0 }.

(** ** Emission of finalized data *)

Lemma props_nodes : forall ts lv p,
  (forall T, In T ts -> valid T = true) ->
  list_nodes (props_cb lv) (flats ts) 0 (nodes (flats ts)) p =
  fold_trees (fun i _ p => Some (pad_aligned (fst p) (l_align (lv i)) + l_size (lv i),
                                 Z.max (snd p) (l_align (lv i)))) 0 ts p.
Proof.
  intros ts lv p V. rewrite nodes_ok by (intros; now apply valid_wf, V).
  apply (list_nodes_ok2 (props_cb lv) (flats ts) _ (fun T => valid T = true) valid_wf valid_kids).
  - intros. reflexivity.
  - exact V.
  - apply at_pos_flats.
Qed.

Theorem c36_emission :
  forall T ids vals, good T = true -> StronglySorted Z.lt ids ->
    (forall x, 0 <= x < tslots T -> ~ In (x / CAP) ids -> vals x = undef) ->
    typed vals T 0 ->
  exists bytes, (forall v0, static_data (flats [T]) ids vals v0 = Some (abi_align T, bytes)) /\
    object_bytes (placed vals T 0) vals T bytes.
Proof.
  intros T ids vals G Ss Ab Ty. destruct (good_split T G) as (V & _).
  assert (V1 : forall T', In T' [T] -> valid T' = true) by (intros T' [<-|[]]; exact V).
  destruct (member_ok T V) as (_ & _ & _ & Z0 & Al).
  destruct (emit_ok ids vals (tslots T) Ab Ss T G
    {| e_slot := 0; e_off := 0; e_iter := ids; e_out := [] |} 0 Ty eq_refl) as (p' & Ep & D).
  { lia. } { lia. } { exists []. split; [reflexivity|constructor]. }
  destruct D as [D1 D2 D3 _]. cbn [e_off e_out] in *.
  assert (B0 : base T 0 = 0).
  { unfold base. apply at_off_same; [exact V|]. apply Z.divide_0_r. }
  rewrite B0 in D2, D3. cbn [app] in D3. rewrite zeros_0 in D3 by lia. cbn [app] in D3.
  exists (image vals T 0). split.
  - intros v0. destruct (c33_sizes_and_alignments [T] v0 V1) as (lv & El & Hlv).
    assert (H0 : l_size (lv 0%nat) = abi_size T /\ l_align (lv 0%nat) = abi_align T).
    { apply (lay_at [T] V1 lv); [exact Hlv|exact V|apply at_pos_flats]. }
    unfold static_data. rewrite El, props_nodes by exact V1.
    rewrite (emit_nodes vals [T] V1 lv Hlv).
    cbn [fold_trees emit_list fst snd]. rewrite Ep. destruct H0 as [Hs Ha]. rewrite Hs, Ha.
    rewrite pad_roundup by exact Al. rewrite (roundup_same 0) by (try apply Z.divide_0_r; exact Al).
    rewrite D2, D3. rewrite Z.ltb_irrefl, app_nil_r. do 2 f_equal. lia.
  - constructor.
    + now apply image_len.
    + intros o x sx P. destruct (image_placed vals T 0 o x sx P V Ty) as (I1 & I2 & I3).
      destruct (Ty o x sx P) as (cs & Ec & Lc). fold (zlen cs) in Lc.
      split; [exact I1|]. split; [exact I2|]. exists cs. split; [exact Ec|]. intros k Hk.
      rewrite I3 by lia. unfold cells_of. now rewrite Ec.
    + intros k Hk N. destruct (image_rest vals T 0 k V Ty Hk) as [E|(o & x & sx & P & Ho)]; [exact E|].
      exfalso. destruct (Ty o x sx P) as (cs & Ec & _). unfold cells_of in Ho. rewrite Ec in Ho.
      exact (N o x sx cs P Ec Ho).
Qed.

(** ** From the initialisers written to the bytes emitted *)

Lemma mslots_app_in : forall l1 m l2 s, In (m, s + zsum (map tslots l1)) (mslots (l1 ++ m :: l2) s).
Proof.
  induction l1 as [|y l1 IH]; intros m l2 s; cbn [app mslots map].
  - left. f_equal. cbn. lia.
  - right. replace (s + zsum (tslots y :: map tslots l1)) with (s + tslots y + zsum (map tslots l1))
      by (unfold zsum; cbn [fold_right]; lia). apply IH.
Qed.

Lemma given_whole : forall v, v <> VAgg -> (whole_value v = true <-> v <> VUndef).
Proof. intros v H. destruct v; cbn; split; congruence. Qed.

Section LINK.
  Variables v0 vals : Z -> slotv.

  Lemma rec_arr : forall a n e s, recorded v0 vals (TArr a n e) s ->
    (given v0 s -> ~ contents v0 (TArr a n e) s) -> sv (v0 s) <> VAgg ->
    (whole_value (sv (vals s)) = true <-> given v0 s) /\
    (given v0 s -> sv (vals s) = sv (v0 s)).
  Proof.
    intros a n e s [_ R] C N. unfold given. destruct R as [[Co E]|[Nc E]]; rewrite E.
    - split; [|intros Gv; exfalso; exact (C Gv Co)]. cbn [whole_value]. split; [discriminate|].
      intros Gv. exfalso. exact (C Gv Co).
    - split; [now apply given_whole|reflexivity].
  Qed.

  Lemma suits_parts : forall T s, suits v0 T s -> forall a n e, T = TArr a n e -> sv (v0 s) <> VAgg.
  Proof.
    intros T s H a n e -> E.
    destruct (H 0 (TArr a n e) s) as (cs & Ec & _); [constructor; unfold given; rewrite E; discriminate|].
    rewrite E in Ec. discriminate Ec.
  Qed.

  (** Both descriptions of the places agree. *)
  Lemma placed_goes : forall T s o x sx, placed vals T s o x sx ->
    (forall T' s', node_at T s T' s' -> recorded v0 vals T' s') -> consistent v0 T s -> suits v0 T s ->
    goes v0 T s o x sx /\ sv (vals sx) = sv (v0 sx).
  Proof.
    intros T s o x sx P.
    induction P as [c a p s|a n e s Wv|a l1 m l2 s o x sx P IH|a l1 m l2 s o x sx F D P IH|a n e k s o x sx Wv Hk P IH];
      intros R C Su.
    - split; [constructor|]. destruct (R _ _ (na_here _ _)) as [_ [[(? & ? & [] & _) _]|[_ E]]]. exact E.
    - destruct (rec_arr a n e s (R _ _ (na_here _ _)) (C _ _ (na_here _ _)) (suits_parts _ _ Su a n e eq_refl)) as [W1 W2].
      apply W1 in Wv. split; [now constructor|auto].
    - assert (Ch : child (TAgg false a (l1 ++ m :: l2)) s m (s + 1 + zsum (map tslots l1))) by apply mslots_app_in.
      destruct IH as [I1 I2].
      + intros T' s' N. apply R. econstructor; eauto.
      + intros T' s' N. apply C. econstructor; eauto.
      + intros o' x' sx' Go. eapply Su. econstructor. exact Go.
      + split; [now constructor|exact I2].
    - assert (Ch : child (TAgg true a (l1 ++ m :: l2)) s m (s + 1 + zsum (map tslots l1))) by apply mslots_app_in.
      assert (N1 : forall l m' r, l1 = l ++ m' :: r -> ~ initialised v0 m' (s + 1 + zsum (map tslots l))).
      { intros l m' r E Ini. specialize (F l m' r E).
        assert (Rm : recorded v0 vals m' (s + 1 + zsum (map tslots l))).
        { apply R. econstructor; [|apply na_here]. subst l1. rewrite <- app_assoc. cbn [app]. apply mslots_app_in. }
        destruct Rm as [Rm _]. apply Rm in Ini. congruence. }
      assert (N2 : initialised v0 m (s + 1 + zsum (map tslots l1))).
      { destruct (R m (s + 1 + zsum (map tslots l1))) as [Rm _]; [econstructor; [exact Ch|apply na_here]|]. now apply Rm. }
      destruct IH as [I1 I2].
      + intros T' s' N. apply R. econstructor; eauto.
      + intros T' s' N. apply C. econstructor; eauto.
      + intros o' x' sx' Go. eapply Su. eapply go_union; eauto.
      + split; [eapply go_union; eauto|exact I2].
    - destruct (rec_arr a n e s (R _ _ (na_here _ _)) (C _ _ (na_here _ _)) (suits_parts _ _ Su a n e eq_refl)) as [W1 W2].
      assert (Ng : ~ given v0 s) by (intros Gv; apply W1 in Gv; congruence).
      assert (Ch : child (TArr a n e) s e (s + 1 + k * tslots e)) by (split; [reflexivity|]; exists k; auto).
      destruct IH as [I1 I2].
      + intros T' s' N. apply R. econstructor; eauto.
      + intros T' s' N. apply C. econstructor; eauto.
      + intros o' x' sx' Go. eapply Su. eapply go_elem; eauto.
      + split; [eapply go_elem; eauto|exact I2].
  Qed.

  Lemma goes_placed : forall T s o x sx, goes v0 T s o x sx ->
    (forall T' s', node_at T s T' s' -> recorded v0 vals T' s') -> consistent v0 T s -> suits v0 T s ->
    placed vals T s o x sx.
  Proof.
    intros T s o x sx P.
    induction P as [c a p s|a n e s Wv|a l1 m l2 s o x sx P IH|a l1 m l2 s o x sx F D P IH|a n e k s o x sx Wv Hk P IH];
      intros R C Su.
    - constructor.
    - destruct (rec_arr a n e s (R _ _ (na_here _ _)) (C _ _ (na_here _ _)) (suits_parts _ _ Su a n e eq_refl)) as [W1 W2].
      constructor. now apply W1.
    - assert (Ch : child (TAgg false a (l1 ++ m :: l2)) s m (s + 1 + zsum (map tslots l1))) by apply mslots_app_in.
      constructor. apply IH.
      + intros T' s' N. apply R. econstructor; eauto.
      + intros T' s' N. apply C. econstructor; eauto.
      + intros o' x' sx' Go. eapply Su. econstructor. exact Go.
    - assert (Ch : child (TAgg true a (l1 ++ m :: l2)) s m (s + 1 + zsum (map tslots l1))) by apply mslots_app_in.
      apply pl_union.
      + intros l m' r E.
        assert (Rm : recorded v0 vals m' (s + 1 + zsum (map tslots l))).
        { apply R. econstructor; [|apply na_here]. subst l1. rewrite <- app_assoc. cbn [app]. apply mslots_app_in. }
        destruct Rm as [Rm _]. destruct (sdef (vals (s + 1 + zsum (map tslots l)))) eqn:X; [|reflexivity].
        exfalso. apply (F l m' r E). now apply Rm.
      + destruct (R m (s + 1 + zsum (map tslots l1))) as [Rm _]; [econstructor; [exact Ch|apply na_here]|]. now apply Rm.
      + apply IH.
        * intros T' s' N. apply R. econstructor; eauto.
        * intros T' s' N. apply C. econstructor; eauto.
        * intros o' x' sx' Go. eapply Su. eapply go_union; eauto.
    - destruct (rec_arr a n e s (R _ _ (na_here _ _)) (C _ _ (na_here _ _)) (suits_parts _ _ Su a n e eq_refl)) as [W1 W2].
      assert (Ch : child (TArr a n e) s e (s + 1 + k * tslots e)) by (split; [reflexivity|]; exists k; auto).
      apply pl_elem; [|exact Hk|].
      + destruct (whole_value (sv (vals s))) eqn:X; [|reflexivity]. exfalso. apply Wv. now apply W1.
      + apply IH.
        * intros T' s' N. apply R. econstructor; eauto.
        * intros T' s' N. apply C. econstructor; eauto.
        * intros o' x' sx' Go. eapply Su. eapply go_elem; eauto.
  Qed.
End LINK.

(** Every slot belongs to some part of the object. *)
Lemma slot_node : forall T s x, wf T = true -> s <= x < s + tslots T -> exists T', node_at T s T' x.
Proof.
  induction T as [T IH] using tree_ind2. intros s x W H.
  destruct (Z.eq_dec x s) as [->|Ne]; [exists T; apply na_here|].
  destruct T as [c a p|un a ms|a n e]; cbn [tslots] in H.
  - lia.
  - assert (G : forall l s1, (forall m, In m l -> In m ms) -> s1 <= x < s1 + zsum (map tslots l) ->
      exists m s2, In (m, s2) (mslots l s1) /\ s2 <= x < s2 + tslots m).
    { induction l as [|m l IHl]; intros s1 Hi Hx; cbn [mslots map] in *; [cbn in Hx; lia|].
      assert (E : zsum (tslots m :: map tslots l) = tslots m + zsum (map tslots l)) by reflexivity.
      rewrite E in Hx. destruct (Z.lt_ge_cases x (s1 + tslots m)).
      - exists m, s1. split; [now left|lia].
      - destruct (IHl (s1 + tslots m)) as (m' & s2 & I & B); [intros; apply Hi; now right|lia|].
        exists m', s2. split; [now right|exact B]. }
    destruct (G ms (s + 1)) as (m & s2 & I & B); [auto|lia|].
    assert (Im : In m ms).
    { clear -I. revert I. generalize (s + 1). induction ms as [|y ms IHm]; intros z I; [destruct I|].
      destruct I as [E|I]; [left; congruence|right; eauto]. }
    destruct (IH m Im s2 x) as (T' & N); [eapply wf_kids; eauto|exact B|].
    exists T'. econstructor; [|exact N]. exact I.
  - assert (We : wf e = true) by (eapply wf_kids; [exact W|now left]).
    pose proof (tslots_pos e We) as Pe.
    set (k := (x - s - 1) / tslots e).
    assert (Hk : 0 <= k < n).
    { split; [apply Z.div_pos; lia|]. apply Z.div_lt_upper_bound; lia. }
    assert (Hx : s + 1 + k * tslots e <= x < s + 1 + k * tslots e + tslots e).
    { pose proof (Z.mul_div_le (x - s - 1) (tslots e) ltac:(lia)).
      pose proof (Z.mul_succ_div_gt (x - s - 1) (tslots e) ltac:(lia)). fold k in H0, H1. lia. }
    destruct (IH e (or_introl eq_refl) (s + 1 + k * tslots e) x We Hx) as (T' & N).
    exists T'. econstructor; [|exact N]. split; [reflexivity|]. exists k. split; [exact Hk|reflexivity].
Qed.

Lemma valid_builtins : forall T, valid T = true -> builtins_ok T = true.
Proof.
  induction T as [T IH] using tree_ind2. intros V.
  assert (K : forall k, In k (kids T) -> builtins_ok k = true)
    by (intros k I; apply IH; [exact I|eapply valid_kids; eauto]).
  destruct T as [c a p|un a ms|a n e]; cbn [builtins_ok].
  - destruct c; try reflexivity. pose proof (valid_lwf _ V) as L. unfold lwf in L.
    apply andb_true_iff in L as [_ L]. cbn in L. destruct (p =? 0); [reflexivity|discriminate L].
  - apply forallb_forall. exact K.
  - apply K. now left.
Qed.

Theorem c36_initialised_object_partial :
  forall T ops, good T = true -> tslots T <= 2 ^ 59 ->
    Forall (fun op => in_range (fst op)) ops ->
  exists d, writes data_alloc ops = Some d /\
    (consistent (value_at d) T 0 -> suits (value_at d) T 0 ->
     headed (fun b => exists op, In op ops /\ b = fst op / CAP) T 0 ->
     exists def vals bytes, data_finalize (flats [T]) d = Some (def, vals) /\
       (forall v, static_data (flats [T]) (present d) vals v = Some (abi_align T, bytes)) /\
       object_bytes (goes (value_at d) T 0) (value_at d) T bytes).
Proof.
  intros T ops G Ls R. destruct (good_split T G) as (V & _). pose proof (valid_wf T V) as W.
  pose proof (tslots_pos T W) as Tp.
  destruct (c37_initialised_objects_are_defined_partial [T] ops R) as (d & E & H).
  { intros x [<-|[]]. split; [exact W|now apply valid_builtins]. }
  { cbn [map]. unfold zsum. cbn [fold_right]. lia. }
  exists d. split; [exact E|]. intros C Su De.
  destruct H as (def & vals & F & _ & Rec).
  { intros x s [X|[]]. now injection X as <- <-. }
  { intros x s [X|[]]. now injection X as <- <-. }
  destruct (c05_blocks_listed_in_order ops R) as (d2 & E2 & Ss & Pr).
  rewrite E in E2. injection E2 as <-.
  destruct (c05_reads_back_last_write ops R) as (d2 & E2 & Rb).
  rewrite E in E2. injection E2 as <-.
  assert (Rc : forall T' s', node_at T 0 T' s' -> recorded (value_at d) vals T' s').
  { intros T' s' N. eapply Rec; [now left|exact N]. }
  assert (Pg : forall x, 0 <= x -> x < 2 ^ 59 -> given (value_at d) x -> In (x / CAP) (present d)).
  { intros x H1 H2 Gv. apply Pr. unfold given in Gv. rewrite Rb in Gv by (split; assumption).
    unfold last_write in Gv.
    assert (X : forall l a, fold_left (fun acc op => if fst op =? x then snd op else acc) l a <> VUndef ->
      a <> VUndef \/ exists op : Z * dval, In op l /\ fst op = x).
    { induction l as [|op l IHl]; intros a Ha; cbn [fold_left] in Ha; [now left|].
      destruct (IHl _ Ha) as [Y|(op' & I & Eo)].
      - destruct (Z.eqb_spec (fst op) x); [right; exists op; split; [now left|assumption]|now left].
      - right. exists op'. split; [now right|exact Eo]. }
    destruct (X ops VUndef Gv) as [Y|(op & I & Eo)]; [congruence|]. exists op. split; [exact I|now rewrite Eo]. }
  assert (Ab : forall x, 0 <= x < tslots T -> ~ In (x / CAP) (present d) -> vals x = undef).
  { intros x Hx Nx. destruct (slot_node T 0 x W ltac:(lia)) as (T' & N).
    assert (Wx : wf T' = true) by (destruct (node_range T 0 T' x N W) as (W' & _); exact W').
    assert (Ni : forall T2 s2, node_at T' x T2 s2 -> ~ given (value_at d) s2).
    { intros T2 s2 N2 Gv. apply Nx.
      destruct (node_range T 0 T' x N W) as (_ & A1 & A2).
      destruct (node_range T' x T2 s2 N2 Wx) as (W2 & B1 & B2). pose proof (tslots_pos T2 W2).
      pose proof (Pg s2 ltac:(lia) ltac:(lia) Gv) as I2. apply Pr in I2 as (op & I2 & Eo).
      apply Pr. apply (De T' x (s2 / CAP) N); [exists op; auto| |]; destruct (split_slot s2) as [Es Ms]; unfold CAP in *; lia. }
    assert (Tr : forall A s B s' C s'', node_at A s B s' -> node_at B s' C s'' -> node_at A s C s'').
    { intros A s B s' C0 s'' X. induction X; intros Y; [exact Y|]. econstructor; eauto. }
    assert (Nini : forall T2 s2, node_at T' x T2 s2 -> ~ initialised (value_at d) T2 s2).
    { intros T2 s2 N2 (T3 & s3 & N3 & _ & Gv). exact (Ni T3 s3 (Tr _ _ _ _ _ _ N2 N3) Gv). }
    destruct (Rc T' x N) as [R1 R2].
    assert (Sd : sdef (vals x) = false).
    { destruct (sdef (vals x)) eqn:Z1; [|reflexivity]. exfalso. apply (Nini T' x (na_here _ _)). now apply R1. }
    assert (Sv : sv (vals x) = VUndef).
    { destruct R2 as [[(m & s1 & Ch & Ini) _]|[_ E1]].
      - exfalso. assert (Nm : node_at T' x m s1) by (econstructor; [exact Ch|apply na_here]). exact (Nini m s1 Nm Ini).
      - rewrite E1. specialize (Ni T' x (na_here _ _)). unfold given in Ni.
        destruct (sv (value_at d x)); try reflexivity; exfalso; apply Ni; discriminate. }
    destruct (vals x) as [a b]. cbn in Sd, Sv. subst. reflexivity. }
  assert (Ty : typed vals T 0).
  { intros o x sx P. destruct (placed_goes (value_at d) vals T 0 o x sx P Rc C Su) as [Go Eq].
    rewrite Eq. exact (Su o x sx Go). }
  destruct (c36_emission T (present d) vals G Ss Ab Ty) as (bytes & Eb & [O1 O2 O3]).
  exists def, vals, bytes. split; [exact F|]. split; [exact Eb|]. constructor.
  - exact O1.
  - intros o x sx Go. pose proof (goes_placed (value_at d) vals T 0 o x sx Go Rc C Su) as P.
    destruct (placed_goes (value_at d) vals T 0 o x sx P Rc C Su) as [_ Eq].
    rewrite <- Eq. now apply O2.
  - intros k Hk N. apply O3; [exact Hk|]. intros o x sx cs P Ec.
    destruct (placed_goes (value_at d) vals T 0 o x sx P Rc C Su) as [Go Eq].
    rewrite Eq in Ec. exact (N o x sx cs Go Ec).
Qed.

(** Objects of at most 128 slots. *)
Theorem c36_small_object :
  forall T ops, good T = true -> tslots T <= CAP ->
    Forall (fun op => 0 <= fst op < tslots T) ops ->
  exists d, writes data_alloc ops = Some d /\
    (consistent (value_at d) T 0 -> suits (value_at d) T 0 ->
     exists def vals bytes, data_finalize (flats [T]) d = Some (def, vals) /\
       (forall v, static_data (flats [T]) (present d) vals v = Some (abi_align T, bytes)) /\
       object_bytes (goes (value_at d) T 0) (value_at d) T bytes).
Proof.
  intros T ops G L R.
  destruct (c36_initialised_object_partial T ops G) as (d & E & H).
  - unfold CAP in L. lia.
  - eapply Forall_impl; [|exact R]. cbn. unfold in_range, CAP in *. intros; lia.
  - exists d. split; [exact E|]. intros C Su. apply H; auto.
    destruct (good_split T G) as (V & _). pose proof (valid_wf T V) as W.
    intros T' s' b N (op & I & ->) L1 L2. destruct (node_range _ _ _ _ N W) as (W' & B1 & B2). pose proof (tslots_pos T' W').
    exists op. split; [exact I|]. rewrite Forall_forall in R. specialize (R _ I). cbn in R.
    rewrite !Z.div_small by lia. reflexivity.
Qed.

(** union { int a, b; } x[200] = { { 1 }, [127].b = 7 }: [127] begins in a block nothing
    was written to, finalization does not mark it, and 0 is emitted instead of 7. *)
Definition unions : tree := TArr 0 200 (TAgg true 0 [TLeaf CInt 0 0; TLeaf CInt 0 0]).
Definition unions_init : list (Z * dval) := [(2, VInt 1); (384, VInt 7)].

(** Byte [k] of what [fin] and [emit] make of the data. *)
Definition probe (fin : idata -> option (bool * (Z -> slotv)))
    (emit : idata -> (Z -> slotv) -> option (Z * list cell)) (k : Z) (d : idata) : option cell :=
  match fin d with
  | Some (_, vals) => match emit d vals with Some (_, bytes) => Some (get bytes k) | None => None end
  | None => None
  end.

Lemma probe_spec : forall fin emit k d c, probe fin emit k d = Some c ->
  exists def vals al bytes, fin d = Some (def, vals) /\ emit d vals = Some (al, bytes) /\ get bytes k = c.
Proof.
  intros fin emit k d c X. unfold probe in X.
  destruct (fin d) as [[def vals]|]; [|discriminate X].
  destruct (emit d vals) as [[al bytes]|] eqn:S; [|discriminate X].
  exists def, vals, al, bytes. split; [reflexivity|]. split; [exact S|congruence].
Qed.

Lemma unions_probed : option_map (probe (data_finalize (flats [unions]))
    (fun d vals => static_data (flats [unions]) (present d) vals (fun _ => mk 0 0 true)) 508)
  (writes data_alloc unions_init) = Some (Some (Byte 0)).
Proof. vm_compute. reflexivity. Qed.

Lemma option_map_some : forall A B (f : A -> B) o x y, o = Some x -> option_map f o = Some y -> f x = y.
Proof. intros A B f o x y -> H. now injection H. Qed.

Lemma unions_run : forall d, writes data_alloc unions_init = Some d ->
  exists def vals al bytes, data_finalize (flats [unions]) d = Some (def, vals) /\
    static_data (flats [unions]) (present d) vals (fun _ => mk 0 0 true) = Some (al, bytes) /\ get bytes 508 = Byte 0.
Proof.
  intros d E. exact (probe_spec _ _ _ _ _ (option_map_some _ _ _ _ _ _ E unions_probed)).
Qed.

Theorem c36_initialised_object_refuted :
  ~ (forall T ops, good T = true -> tslots T <= 2 ^ 59 ->
       Forall (fun op => 0 <= fst op < tslots T) ops ->
     forall d, writes data_alloc ops = Some d ->
     consistent (value_at d) T 0 -> suits (value_at d) T 0 ->
     forall def vals v al bytes, data_finalize (flats [T]) d = Some (def, vals) ->
       static_data (flats [T]) (present d) vals v = Some (al, bytes) ->
       object_bytes (goes (value_at d) T 0) (value_at d) T bytes).
Proof.
  intros H. destruct (c05_reads_back_last_write unions_init) as (d & E & V).
  { repeat constructor; cbn; lia. }
  assert (Vi : forall i, 0 <= i < 2 ^ 59 -> sv (value_at d i) = if 384 =? i then VInt 7 else if 2 =? i then VInt 1 else VUndef).
  { intros i Ri. rewrite V by exact Ri. reflexivity. }
  assert (Ng : forall i, 0 <= i < 2 ^ 59 -> i <> 2 -> i <> 384 -> ~ given (value_at d) i).
  { intros i Ri N2 N3 Gi. apply Gi. rewrite Vi by exact Ri.
    replace (384 =? i) with false by lia. now replace (2 =? i) with false by lia. }
  pose proof (unions_run d E) as W.
  destruct W as (def & vals & al & bytes & W1 & W2 & W3).
  assert (Goes : goes (value_at d) unions 0 (127 * 4 + 0) (TLeaf CInt 0 0) 384).
  { unfold unions. apply (go_elem (value_at d) 0 200 (TAgg true 0 [TLeaf CInt 0 0; TLeaf CInt 0 0]) 127 0 0 (TLeaf CInt 0 0) 384);
      [apply Ng; lia|lia|].
    apply (go_union (value_at d) 0 [TLeaf CInt 0 0] (TLeaf CInt 0 0) []).
    - intros l m' r El (T' & s' & N & _ & Gs). destruct l as [|y l]; [|destruct l; discriminate El].
      cbn [app] in El. injection El as <- _.
      inversion N as [|x y m s1 u w C N']; subst; [|destruct C]. revert Gs. apply Ng; cbn; lia.
    - exists (TLeaf CInt 0 0), 384. split; [apply na_here|]. split; [reflexivity|].
      unfold given. rewrite Vi by lia. cbn. discriminate.
    - apply go_leaf. }
  assert (OB : object_bytes (goes (value_at d) unions 0) (value_at d) unions bytes).
  { eapply (H unions unions_init); try exact E; try exact W1; try exact W2.
    - vm_compute. reflexivity.
    - vm_compute. discriminate.
    - repeat constructor; cbn; lia.
    - intros T' s' N. inversion N as [|x y m s1 u w C N']; subst.
      + intros Gs. exfalso. revert Gs. apply Ng; lia.
      + cbv [child unions] in C. destruct C as (-> & k & Hk & Es).
        assert (Es' : s1 = 1 + k * 3) by (rewrite Es; cbn [tslots map]; cbn; lia). clear Es.
        inversion N' as [|x y m s2 u w C N2]; subst.
        * assert (Y : (1 + k * 3) mod 3 = 1) by (rewrite Z.mod_add by lia; reflexivity).
          apply Ng; [lia| |]; intros X; rewrite X in Y; discriminate Y.
        * cbn in C. destruct C as [C|[C|[]]]; injection C as <- <-;
            (inversion N2 as [|x y m s1 u w C N3]; subst; [exact I|destruct C]).
    - assert (Leaf : forall v s o x sx, goes v (TLeaf CInt 0 0) s o x sx -> x = TLeaf CInt 0 0 /\ sx = s).
      { intros v s o x sx Go. inversion Go; subst. auto. }
      assert (Val : forall i, 0 <= i < 2 ^ 59 -> exists cs,
        node_value (TLeaf CInt 0 0) (sv (value_at d i)) = Some cs /\ zlen cs <= abi_size (TLeaf CInt 0 0)).
      { intros i Hi. rewrite Vi by exact Hi.
        destruct (384 =? i); [|destruct (2 =? i)]; eexists; (split; [reflexivity|]); vm_compute; discriminate. }
      assert (T3 : tslots (TAgg true 0 [TLeaf CInt 0 0; TLeaf CInt 0 0]) = 3) by reflexivity.
      intros o x sx Go. inversion Go as [|a n e s Gv| | |a n e k s o' x' sx' Gv Hk Go']; subst.
      + exfalso. revert Gv. apply Ng; lia.
      + inversion Go' as [| | |a l1 m l2 s o2 x' sx' F D Go2|]; subst.
        destruct l1 as [|y [|z l1]]; cbn [app] in *.
        * match goal with X : m :: l2 = _ |- _ => injection X as -> -> end.
          apply Leaf in Go2 as [-> ->]. apply Val. rewrite T3. cbn [map tslots zsum fold_right]. lia.
        * match goal with X : y :: m :: l2 = _ |- _ => injection X as -> -> -> end.
          apply Leaf in Go2 as [-> ->]. apply Val. rewrite T3. cbn [map tslots zsum fold_right]. lia.
        * destruct l1; discriminate. }
  destruct OB as [_ O2 _]. destruct (O2 _ _ _ Goes) as (_ & _ & cs & Ec & Hc).
  rewrite Vi in Ec by lia. cbn in Ec. injection Ec as <-.
  specialize (Hc 0 ltac:(vm_compute; split; congruence)). rewrite Z.add_0_r in Hc.
  change (127 * 4 + 0) with 508 in Hc. rewrite W3 in Hc. vm_compute in Hc. discriminate Hc.
Qed.

(** struct { char c; int i; } x = { .i = 0x01020304 } meets the hypotheses. *)
Definition pair_type : tree := TAgg false 0 [TLeaf CChar 0 0; TLeaf CInt 0 0].

Example c36_hypotheses :
  good pair_type = true /\ tslots pair_type <= CAP /\
  exists d, writes data_alloc [(2, VInt 0x01020304)] = Some d /\
    consistent (value_at d) pair_type 0 /\ suits (value_at d) pair_type 0.
Proof.
  split; [reflexivity|]. split; [vm_compute; discriminate|].
  destruct (c05_reads_back_last_write [(2, VInt 0x01020304)]) as (d & E & V).
  { repeat constructor; cbn; lia. }
  exists d. split; [exact E|].
  assert (Vi : forall i, 0 <= i < 2 ^ 59 -> sv (value_at d i) = if 2 =? i then VInt 0x01020304 else VUndef).
  { intros i Ri. rewrite V by exact Ri. reflexivity. }
  split.
  - intros T' s' N. inversion N as [|x y m s1 u w C N1]; subst.
    { intros G. apply G. now rewrite Vi by lia. }
    cbn in C. destruct C as [C|[C|[]]]; injection C as <- <-;
      (inversion N1 as [|x y m s1 u w C N2]; subst; [exact I|destruct C]).
  - intros o x sx Go. inversion Go as [| |a l1 m l2 s o2 x' sx' Go2| |]; subst.
    destruct l1 as [|y [|z l1]]; cbn [app] in *.
    + match goal with X : m :: l2 = _ |- _ => injection X as -> -> end. inversion Go2; subst.
      change (0 + 1 + zsum (map tslots [])) with 1. rewrite Vi by lia.
      eexists. split; [reflexivity|]. vm_compute. discriminate.
    + match goal with X : y :: m :: l2 = _ |- _ => injection X as -> -> -> end. inversion Go2; subst.
      change (0 + 1 + zsum (map tslots [TLeaf CChar 0 0])) with 2. rewrite Vi by lia.
      eexists. split; [reflexivity|]. vm_compute. discriminate.
    + destruct l1; discriminate.
Qed.

(** struct { char c; int i; union { short h; long l; } u[2]; char s[5]; char *p; } x =
    { 1, 0x01020304, { [1].l = -2 }, "ab", "cd" + 1 }. *)
Definition mixed : tree :=
  TAgg false 0 [TLeaf CChar 0 0; TLeaf CInt 0 0;
                TArr 0 2 (TAgg true 0 [TLeaf CShort 0 0; TLeaf CLong 0 0]);
                TArr 0 5 (TLeaf CChar 0 0); TLeaf CWord 0 0].

Example c36_example :
  good mixed = true /\
  option_map (fun d => match data_finalize (flats [mixed]) d with
      | Some (def, vals) => static_data (flats [mixed]) (present d) vals (fun _ => mk 0 0 true)
      | None => None end)
    (writes data_alloc [(1, VInt 1); (2, VInt 0x01020304); (9, VInt (-2)); (10, VStr [97; 98]); (16, VStrPtr 3 1)])
  = Some (Some (8,
      [Byte 1; Byte 0; Byte 0; Byte 0; Byte 4; Byte 3; Byte 2; Byte 1] ++
      repeat (Byte 0) 8 ++ [Byte 254] ++ repeat (Byte 255) 7 ++
      [Byte 97; Byte 98] ++ repeat (Byte 0) 6 ++ map (Addr (SString 3) 1) (seq 0 8))).
Proof. split; vm_compute; reflexivity. Qed.

Print Assumptions c36_emission.
Print Assumptions c36_initialised_object_partial.
Print Assumptions c36_small_object.
Print Assumptions c36_initialised_object_refuted.
