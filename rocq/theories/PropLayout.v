(** C33: the layout computed for structures, unions and arrays is the ABI's. *)

From Coq Require Import ZArith Lia Bool List.
From Coq Require Import ZifyBool.
From Verif Require Import IrType PropIrType LayoutModel.
Import ListNotations.
Open Scope Z_scope.

(** ** Specification: sizes and alignments in the System V ABI (figure 3.1 and
    "Aggregates and Unions"). *)

Definition roundup (x a : Z) : Z := ((x + a - 1) / a) * a.

(** Size and alignment of scalars; a run of [bits] bit-fields takes whole bytes and
    is not aligned; a va_list is three eightbytes. *)
Definition abi_leaf (c : tcode) (param : Z) : Z * Z :=
  match c with
  | CBool | CChar | CInt8 => (1, 1)
  | CShort | CInt16 => (2, 2)
  | CInt | CInt32 | CFloat32 => (4, 4)
  | CLong | CWord | CInt64 | CFloat64 => (8, 8)
  | CLongDouble => (16, 16)
  | CBits => (roundup param 8 / 8, 1)
  | CPad | CMemory => (param, 1)
  | CBuiltin => (24, 8)
  | CStruct | CUnion | CArray => (0, 1)
  end.

Definition is_bits (T : tree) : bool := match T with TLeaf CBits _ _ => true | _ => false end.

(** An explicit alignment on a member replaces its natural one. *)
Definition eff_align (T : tree) (natural : Z) : Z :=
  if talign (root T) =? 0 then natural else talign (root T).

(** The end of a sequence of members laid out one after the other; each member is
    (run of bit-fields?, size, alignment). *)
Definition place_end (off : Z) (m : bool * Z * Z) : Z :=
  let '(b, s, a) := m in (if b then off else roundup off a) + s.

Fixpoint abi (T : tree) : Z * Z :=
  match T with
  | TLeaf c _ p => abi_leaf c p
  | TAgg un _ ms =>
    let l := map (fun m => (is_bits m, fst (abi m), eff_align m (snd (abi m)))) ms in
    let al := fold_right (fun m x => Z.max (snd m) x) 0 l in
    let sz := if un then fold_right (fun m x => Z.max (snd (fst m)) x) 0 l
              else fold_left place_end l 0 in
    (roundup sz al, al)
  | TArr _ n e => (n * fst (abi e), eff_align e (snd (abi e)))
  end.

Definition abi_size (T : tree) : Z := fst (abi T).
Definition abi_align (T : tree) : Z := eff_align T (snd (abi T)).
Definition member (m : tree) : bool * Z * Z := (is_bits m, abi_size m, abi_align m).

(** Offset of the member [m] placed after the members [l]. *)
Definition members_end (l : list tree) : Z := fold_left place_end (map member l) 0.
Definition abi_offset (l : list tree) (m : tree) : Z :=
  if is_bits m then members_end l else roundup (members_end l) (abi_align m).

(** Types that can occur: known leaf codes, non-negative sizes and explicit
    alignments. *)
Fixpoint valid (T : tree) : bool :=
  lwf T && (0 <=? talign (root T)) &&
  match T with
  | TLeaf c _ p => 0 <=? p
  | TAgg _ _ ms => forallb valid ms
  | TArr _ _ e => valid e
  end.

(** ** Facts *)

Lemma pad_roundup : forall x a, 1 <= a -> pad_aligned x a = roundup x a.
Proof.
  intros x a Ha. unfold pad_aligned, roundup.
  replace (a =? 0) with false by lia.
  pose proof (Z.div_mod x a ltac:(lia)) as D. pose proof (Z.mod_pos_bound x a ltac:(lia)) as B.
  destruct (Z.eqb_spec (x mod a) 0) as [E|E]; cbn [negb].
  - rewrite E in D. replace (x + a - 1) with (a - 1 + (x / a) * a) by lia.
    rewrite Z.div_add by lia. rewrite (Z.div_small (a - 1)) by lia. lia.
  - replace (x + a - 1) with (x mod a - 1 + (x / a + 1) * a) by lia.
    rewrite Z.div_add by lia. rewrite (Z.div_small (x mod a - 1)) by lia. lia.
Qed.

Lemma roundup_mult : forall x a, (a | roundup x a).
Proof. intros. unfold roundup. apply Z.divide_factor_r. Qed.

Lemma roundup_ge : forall x a, 1 <= a -> x <= roundup x a < x + a.
Proof.
  intros x a Ha. unfold roundup.
  pose proof (Z.div_mod (x + a - 1) a ltac:(lia)) as D.
  pose proof (Z.mod_pos_bound (x + a - 1) a ltac:(lia)) as B. lia.
Qed.

Lemma valid_kids : forall T k, valid T = true -> In k (kids T) -> valid k = true.
Proof.
  intros [c a p|un a ms|a n e] k H I; cbn [kids] in I; cbn [valid] in H;
    apply andb_true_iff in H as [_ H].
  - destruct I.
  - rewrite forallb_forall in H. auto.
  - destruct I as [<-|[]]. exact H.
Qed.

Lemma valid_lwf : forall T, valid T = true -> lwf T = true.
Proof. intros []; cbn [valid]; intros H; apply andb_true_iff in H as [H _]; now apply andb_true_iff in H as [H _]. Qed.

Lemma valid_align : forall T, valid T = true -> 0 <= talign (root T).
Proof.
  intros []; cbn [valid]; intros H; apply andb_true_iff in H as [H _];
    apply andb_true_iff in H as [_ H]; now apply Z.leb_le.
Qed.

(** What placing one member does. *)
Lemma update_facts : forall c d T, is_bits T = match tc (root T) with CBits => true | _ => false end ->
  let al := eff_align T (l_align d) in
  let c' := upd1 c d T in let d' := upd2 c d T in
  l_size d' = l_size d /\ l_align d' = al /\
  c_agg c' = c_agg c /\
  c_maxal c' = Z.max (c_maxal c) al /\ c_maxsz c' = Z.max (c_maxsz c) (l_size d) /\
  l_off d' = (if c_agg c then if is_bits T then c_off c else pad_aligned (c_off c) al else c_off c) /\
  c_off c' = (if c_agg c then l_off d' + l_size d else c_off c).
Proof.
  intros c d T B. unfold upd1, upd2, update_compound, eff_align. rewrite B.
  destruct (talign (root T) =? 0), (c_agg c), (tc (root T)); cbn; auto 10.
Qed.

Lemma is_bits_root : forall T, wf T = true ->
  is_bits T = match tc (root T) with CBits => true | _ => false end.
Proof. intros [c a p|[] a ms|a n e] W; cbn; reflexivity. Qed.

Lemma eff_pos : forall T x, 0 <= talign (root T) -> 1 <= x -> 1 <= eff_align T x.
Proof. intros T x H1 H2. unfold eff_align. destruct (talign (root T) =? 0) eqn:E; lia. Qed.

Lemma leaf_facts : forall c a p s al, leaf_layout {| tc := c; talign := a; tparam := p |} = Some (s, al) ->
  0 <= p -> abi_leaf c p = (s, al) /\ 0 <= s /\ 1 <= al.
Proof.
  intros c a p s al H P. unfold leaf_layout in H. cbn [tc tparam] in H.
  assert (R : roundup p 8 / 8 = p / 8 + (if p mod 8 =? 0 then 0 else 1)).
  { rewrite <- pad_roundup by lia. unfold pad_aligned. replace (8 =? 0) with false by reflexivity.
    pose proof (Z.div_mod p 8 ltac:(lia)). pose proof (Z.mod_pos_bound p 8 ltac:(lia)).
    destruct (Z.eqb_spec (p mod 8) 0); cbn [negb]; [lia|].
    replace (p + (8 - p mod 8)) with ((p / 8 + 1) * 8) by lia. rewrite Z.div_mul; lia. }
  assert (0 <= p / 8) by (apply Z.div_pos; lia).
  destruct c; try discriminate H; cbn [abi_leaf];
    try (injection H as <- <-; repeat split; lia).
  - injection H as <- <-. rewrite R. repeat split; try lia. destruct (p mod 8 =? 0); lia.
  - destruct (p =? 0); [|discriminate]. injection H as <- <-. repeat split; lia.
Qed.

Section COMP.
  (** The accumulated state after members whose own layout is the ABI's. *)
  Variable ms : list tree.
  Hypothesis ok : forall m, In m ms ->
    wf m = true /\ l_size (own m) = abi_size m /\ eff_align m (l_align (own m)) = abi_align m /\
    0 <= abi_size m /\ 1 <= abi_align m.

  Lemma comp_after_ok : forall l c, (forall m, In m l -> In m ms) -> 0 <= c_maxal c -> 0 <= c_maxsz c ->
    let c' := comp_after c l in
    c_agg c' = c_agg c /\
    c_maxal c' = Z.max (c_maxal c) (fold_right (fun m x => Z.max (snd m) x) 0 (map member l)) /\
    c_maxsz c' = Z.max (c_maxsz c) (fold_right (fun m x => Z.max (snd (fst m)) x) 0 (map member l)) /\
    c_off c' = if c_agg c then fold_left place_end (map member l) (c_off c) else c_off c.
  Proof.
    induction l as [|m l IH]; intros c Hin Ha Hs.
    - cbn. repeat split; try lia. destruct (c_agg c); reflexivity.
    - destruct (ok m (Hin m (or_introl eq_refl))) as (W & Es & Ea & Ps & Pa).
      pose proof (update_facts c (own m) m (is_bits_root m W)) as U. cbn zeta in U.
      destruct U as (_ & _ & U1 & U2 & U3 & U4 & U5).
      rewrite Ea in *. rewrite Es in *.
      specialize (IH (upd1 c (own m) m) (fun x h => Hin x (or_intror h))). cbn zeta in IH.
      destruct IH as (I1 & I2 & I3 & I4); [lia|lia|].
      cbn [comp_after fold_left]. fold (comp_after (upd1 c (own m) m) l).
      cbn [map fold_right fold_left member snd fst].
      split; [congruence|]. split; [rewrite I2, U2; cbn [snd]; lia|].
      split; [rewrite I3, U3; cbn [snd fst]; lia|].
      rewrite I4, U1, U5, U4. destruct (c_agg c); [|reflexivity].
      rewrite pad_roundup by lia. reflexivity.
  Qed.
End COMP.

Lemma own_abi : forall T, valid T = true ->
  l_size (own T) = abi_size T /\ l_align (own T) = snd (abi T) /\ 0 <= abi_size T /\ 1 <= snd (abi T).
Proof.
  induction T as [T IH] using tree_ind2. intros V.
  pose proof (valid_lwf _ V) as L. apply andb_true_iff in L as [W C].
  destruct T as [c a p|un a ms|a n e].
  - cbn [own root codes_ok] in *. cbn [valid] in V. apply andb_true_iff in V as [_ V]. apply Z.leb_le in V.
    destruct (leaf_layout _) as [[s al]|] eqn:E; [|discriminate C].
    destruct (leaf_facts _ _ _ _ _ E V) as (H1 & H2 & H3).
    unfold abi_size. cbn [abi]. rewrite H1. cbn. auto.
  - assert (K : forall m, In m ms -> wf m = true /\ l_size (own m) = abi_size m /\
       eff_align m (l_align (own m)) = abi_align m /\ 0 <= abi_size m /\ 1 <= abi_align m).
    { intros m Hm. assert (Vm : valid m = true) by (eapply valid_kids; eauto).
      destruct (IH m Hm Vm) as (H1 & H2 & H3 & H4).
      split; [apply lwf_wf, valid_lwf, Vm|]. split; [exact H1|]. split; [unfold abi_align; now rewrite H2|].
      split; [exact H3|]. apply eff_pos; [now apply valid_align|exact H4]. }
    pose proof (comp_after_ok ms K ms (comp0 (negb un)) (fun m h => h) ltac:(cbn; lia) ltac:(cbn; lia)) as G.
    cbn zeta in G. cbn [comp0 c_agg c_maxal c_maxsz c_off] in G. destruct G as (_ & G2 & G3 & G4).
    assert (A1 : 1 <= fold_right (fun m x => Z.max (snd m) x) 0 (map member ms)).
    { cbn in W. apply andb_true_iff in W as [W _]. destruct ms as [|m ms]; [discriminate W|].
      cbn [map fold_right member snd]. destruct (K m (or_introl eq_refl)) as (_ & _ & _ & _ & P). lia. }
    assert (S0 : 0 <= fold_right (fun m x => Z.max (snd (fst m)) x) 0 (map member ms))
      by (clear; induction (map member ms); cbn; lia).
    assert (E0 : 0 <= fold_left place_end (map member ms) 0).
    { assert (X : forall l o, (forall m, In m l -> In m ms) -> 0 <= o ->
        0 <= fold_left place_end (map member l) o).
      { induction l as [|m l IHl]; intros o Hin Ho; cbn [map fold_left]; [exact Ho|].
        apply IHl; [intros; apply Hin; now right|]. unfold place_end, member.
        destruct (K m (Hin m (or_introl eq_refl))) as (_ & _ & _ & P1 & P2).
        destruct (is_bits m); [lia|]. pose proof (roundup_ge o (abi_align m) P2). lia. }
      apply X; [auto|lia]. }
    unfold abi_size. cbn [abi own fst snd].
    change (map (fun m => (is_bits m, fst (abi m), eff_align m (snd (abi m)))) ms) with (map member ms).
    change (fold_left (fun c m => fst (update_compound c (own m) (root m))) ms (comp0 (negb un)))
      with (comp_after (comp0 (negb un)) ms).
    set (n := comp_after (comp0 (negb un)) ms) in *.
    set (al := fold_right (fun m x => Z.max (snd m) x) 0 (map member ms)) in *.
    replace (c_maxal n) with al by lia. cbn [mk l_size l_align].
    rewrite pad_roundup by lia.
    replace (if un then c_maxsz n else c_off n)
      with (if un then fold_right (fun m x => Z.max (snd (fst m)) x) 0 (map member ms)
            else fold_left place_end (map member ms) 0)
      by (destruct un; cbn [negb] in *; lia).
    split; [reflexivity|]. split; [reflexivity|]. split; [|lia].
    destruct un; eapply Z.le_trans; [|apply roundup_ge; lia| |apply roundup_ge; lia]; lia.
  - assert (Ve : valid e = true) by (eapply valid_kids; [exact V|now left]).
    destruct (IH e (or_introl eq_refl) Ve) as (H1 & H2 & H3 & H4).
    assert (We : wf e = true) by (apply lwf_wf, valid_lwf, Ve).
    pose proof (update_facts (comp0 false) (own e) e (is_bits_root e We)) as U. cbn zeta in U.
    destruct U as (_ & _ & _ & U2 & U3 & _ & _). cbn [comp0 c_maxal c_maxsz] in U2, U3.
    pose proof (eff_pos e (snd (abi e)) (valid_align _ Ve) H4).
    unfold abi_size. cbn [abi own fst snd mk l_size l_align]. fold (upd1 (comp0 false) (own e) e).
    rewrite U2, U3, H1, H2. fold (abi_size e).
    cbn in W. apply andb_true_iff in W as [W _]. apply Z.leb_le in W.
    repeat split; try lia.
Qed.

(** The part of the vector that belongs to a node. *)
Lemma fill_place : forall n ts b c v i T, (fsize ts <= n)%nat -> In (i, T) (places_list b ts) ->
  exists c' v', forall j, (i <= j < i + tsize T)%nat -> fill_list ts b c v j = fill T i c' v' j.
Proof.
  induction n as [|n IH]; intros ts b c v i T Hn I; (destruct ts as [|x ts]; [destruct I|]);
    rewrite fsize_cons in Hn; pose proof (tsize_eq x) as E; [lia|].
  cbn [places_list] in I. cbn [fill_list]. apply in_app_or in I as [I|I].
  - assert (J : (b <= i /\ i + tsize T <= b + tsize x)%nat).
    { assert (P : forall n x i b, (tsize x <= n)%nat -> In (i, T) (places b x) ->
        (b <= i /\ i + tsize T <= b + tsize x)%nat).
      { clear. induction n as [|n IH]; intros x i b Hn I; [pose proof (tsize_pos x); lia|].
        rewrite places_eq in I. destruct I as [E|I].
        - injection E as <- <-. lia.
        - rewrite (tsize_eq x) in Hn |- *.
          assert (Q : forall ks k, (fsize ks <= n)%nat -> In (i, T) (places_list k ks) ->
                   (k <= i /\ i + tsize T <= k + fsize ks)%nat).
          { induction ks as [|y ks IHk]; intros k Hk Hi; [destruct Hi|].
            rewrite fsize_cons in *. cbn [places_list] in Hi. apply in_app_or in Hi as [Hi|Hi].
            - apply IH in Hi; [lia|]. assert (tsize y <= n)%nat by lia. assumption.
            - apply IHk in Hi; [|lia]. lia. }
          apply Q in I; lia. }
      eapply P; eauto. }
    rewrite places_eq in I. destruct I as [Ei|I].
    + injection Ei as <- <-. exists c, v. intros j Hj.
      eapply fill_list_outside; [apply le_n|lia].
    + assert (Hb : (b < i)%nat).
      { assert (In i (map fst (places_list (b + 1) (kids x))))
          by (apply (in_map fst) in I; exact I).
        rewrite (places_seq (fsize (kids x))) in H by lia. apply in_seq in H. lia. }
      destruct (IH (kids x) (b + 1)%nat (kid_comp x) v i T ltac:(lia) I) as (c' & v' & G).
      exists c', v'. intros j Hj. rewrite <- G by exact Hj.
      rewrite (fill_list_outside (fsize ts)) by lia.
      rewrite fill_eq. unfold vset. replace (Nat.eqb j b) with false by lia. reflexivity.
  - destruct (IH ts (b + tsize x)%nat (upd1 c (own x) x) (fill x b c v) i T ltac:(lia) I) as (c' & v' & G).
    exists c', v'. exact G.
Qed.

Lemma fill_root : forall T i c v, fill T i c v i = upd2 c (own T) T.
Proof. intros. rewrite fill_eq. unfold vset. now rewrite Nat.eqb_refl. Qed.

Lemma fill_member : forall T l1 m l2 i c v, kids T = l1 ++ m :: l2 ->
  fill T i c v (i + 1 + fsize l1)%nat = upd2 (comp_after (kid_comp T) l1) (own m) m.
Proof.
  intros T l1 m l2 i c v E. rewrite fill_eq, E. unfold vset.
  replace (Nat.eqb (i + 1 + fsize l1) i) with false by lia.
  rewrite fill_list_app. cbn [fill_list].
  rewrite (fill_list_outside (fsize l2)); [|lia|pose proof (tsize_pos m); lia].
  apply fill_root.
Qed.

Lemma places_valid : forall n ts b, (fsize ts <= n)%nat -> (forall T, In T ts -> valid T = true) ->
  forall i T, In (i, T) (places_list b ts) -> valid T = true.
Proof.
  induction n as [|n IH]; intros ts b Hn W i T I; (destruct ts as [|x ts]; [destruct I|]);
    rewrite fsize_cons, (tsize_eq x) in Hn; [lia|].
  assert (Wx : valid x = true) by (apply W; now left).
  cbn [places_list] in I. apply in_app_or in I as [I|I].
  - rewrite places_eq in I. destruct I as [E|I].
    + injection E as <- <-. exact Wx.
    + eapply (IH (kids x)); eauto; [lia|]. intros; eapply valid_kids; eauto.
  - eapply (IH ts); eauto; [lia|]. intros; apply W; now right.
Qed.

Lemma type_layout_ok : forall ts v0, (forall T, In T ts -> valid T = true) ->
  type_layout (flats ts) v0 = Some (fill_list ts 0 (comp0 true) v0).
Proof.
  intros ts v0 V. unfold type_layout.
  rewrite nodes_ok by (intros; apply lwf_wf, valid_lwf; auto).
  apply layout_of_ok; [intros; apply valid_lwf; auto|apply at_pos_flats].
Qed.

Lemma member_ok : forall m, valid m = true ->
  wf m = true /\ l_size (own m) = abi_size m /\ eff_align m (l_align (own m)) = abi_align m /\
  0 <= abi_size m /\ 1 <= abi_align m.
Proof.
  intros m V. destruct (own_abi m V) as (H1 & H2 & H3 & H4).
  split; [apply lwf_wf, valid_lwf, V|]. split; [exact H1|]. split; [unfold abi_align; now rewrite H2|].
  split; [exact H3|]. apply eff_pos; [now apply valid_align|exact H4].
Qed.

(** ** Theorems *)

(** The layout of a valid type never fails, and gives every node of the type the size
    and alignment of the ABI. *)
Theorem c33_sizes_and_alignments :
  forall ts v0, (forall T, In T ts -> valid T = true) ->
  exists v, type_layout (flats ts) v0 = Some v /\
    forall i T, In (i, T) (places_list 0 ts) ->
      l_size (v i) = abi_size T /\ l_align (v i) = abi_align T.
Proof.
  intros ts v0 V. exists (fill_list ts 0 (comp0 true) v0). split; [now apply type_layout_ok|].
  intros i T I.
  assert (VT : valid T = true) by (eapply places_valid; eauto).
  destruct (fill_place (fsize ts) ts 0 (comp0 true) v0 i T (le_n _) I) as (c & v' & G).
  rewrite G by (pose proof (tsize_pos T); lia). rewrite fill_root.
  destruct (member_ok T VT) as (W & Es & Ea & _ & _).
  pose proof (update_facts c (own T) T (is_bits_root T W)) as U. cbn zeta in U.
  destruct U as (U1 & U2 & _). split; congruence.
Qed.

(** Members of structures are placed one after the other, at the ABI offset; members
    of unions and array elements at offset 0. *)
Theorem c33_member_offsets :
  forall ts v0 v, (forall T, In T ts -> valid T = true) -> type_layout (flats ts) v0 = Some v ->
  (forall i al l1 m l2, In (i, TAgg false al (l1 ++ m :: l2)) (places_list 0 ts) ->
     l_off (v (i + 1 + length (flats l1))%nat) = abi_offset l1 m) /\
  (forall i al l1 m l2, In (i, TAgg true al (l1 ++ m :: l2)) (places_list 0 ts) ->
     l_off (v (i + 1 + length (flats l1))%nat) = 0) /\
  (forall i al n e, In (i, TArr al n e) (places_list 0 ts) -> l_off (v (i + 1)%nat) = 0).
Proof.
  intros ts v0 v V E. rewrite type_layout_ok in E by exact V. injection E as <-.
  assert (G : forall i T l1 m l2, In (i, T) (places_list 0 ts) -> kids T = l1 ++ m :: l2 ->
     fill_list ts 0 (comp0 true) v0 (i + 1 + fsize l1)%nat =
     upd2 (comp_after (kid_comp T) l1) (own m) m).
  { intros i T l1 m l2 I K.
    destruct (fill_place (fsize ts) ts 0 (comp0 true) v0 i T (le_n _) I) as (c & v' & G).
    rewrite G.
    - eapply fill_member; eauto.
    - rewrite tsize_eq, K. rewrite <- (Nat.add_0_r (fsize l1)) at 1 2.
      unfold fsize. rewrite flats_app, app_length. fold (fsize (m :: l2)). rewrite fsize_cons.
      pose proof (tsize_pos m). lia. }
  assert (Kv : forall i T, In (i, T) (places_list 0 ts) -> forall k, In k (kids T) -> valid k = true)
    by (intros; eapply valid_kids; eauto; eapply places_valid; eauto).
  split; [|split].
  - intros i al l1 m l2 I. fold (fsize l1). rewrite (G i _ l1 m l2 I eq_refl). cbn [kid_comp negb].
    assert (Km : forall x, In x (l1 ++ m :: l2) -> valid x = true) by (intros; eapply Kv; eauto).
    destruct (member_ok m (Km m ltac:(apply in_or_app; right; now left))) as (W & Es & Ea & _ & Pa).
    pose proof (update_facts (comp_after (comp0 true) l1) (own m) m (is_bits_root m W)) as U.
    cbn zeta in U. destruct U as (_ & _ & _ & _ & _ & U & _).
    pose proof (comp_after_ok l1 (fun x h => member_ok x (Km x (in_or_app _ _ _ (or_introl h))))
                  l1 (comp0 true) (fun x h => h) ltac:(cbn; lia) ltac:(cbn; lia)) as C.
    cbn zeta in C. destruct C as (C1 & _ & _ & C4). cbn [comp0 c_agg c_off] in C1, C4.
    rewrite U, C1, C4, Ea. unfold abi_offset, members_end. destruct (is_bits m); [reflexivity|].
    apply pad_roundup. exact Pa.
  - intros i al l1 m l2 I. fold (fsize l1). rewrite (G i _ l1 m l2 I eq_refl). cbn [kid_comp negb].
    assert (Km : forall x, In x (l1 ++ m :: l2) -> valid x = true) by (intros; eapply Kv; eauto).
    destruct (member_ok m (Km m ltac:(apply in_or_app; right; now left))) as (W & _).
    pose proof (update_facts (comp_after (comp0 false) l1) (own m) m (is_bits_root m W)) as U.
    cbn zeta in U. destruct U as (_ & _ & _ & _ & _ & U & _).
    pose proof (comp_after_ok l1 (fun x h => member_ok x (Km x (in_or_app _ _ _ (or_introl h))))
                  l1 (comp0 false) (fun x h => h) ltac:(cbn; lia) ltac:(cbn; lia)) as C.
    cbn zeta in C. destruct C as (C1 & _ & _ & C4). cbn [comp0 c_agg c_off] in C1, C4.
    rewrite U, C1, C4. reflexivity.
  - intros i al n e I. replace (i + 1)%nat with (i + 1 + fsize [])%nat by (rewrite fsize_nil; lia).
    rewrite (G i _ [] e [] I eq_refl). cbn [kid_comp comp_after fold_left].
    assert (We : wf e = true) by (apply lwf_wf, valid_lwf; eapply Kv; eauto; now left).
    pose proof (update_facts (comp0 false) (own e) e (is_bits_root e We)) as U.
    cbn zeta in U. destruct U as (_ & _ & _ & _ & _ & U & _). rewrite U. reflexivity.
Qed.

(** Consequences in the words of the property, about the ABI sizes and offsets that
    the two theorems above equate with the computed ones. *)
Lemma members_end_app : forall l1 l2,
  members_end (l1 ++ l2) = fold_left place_end (map member l2) (members_end l1).
Proof. intros. unfold members_end. now rewrite map_app, fold_left_app. Qed.

Lemma members_end_snoc : forall l m, members_end (l ++ [m]) = abi_offset l m + abi_size m.
Proof. intros. rewrite members_end_app. reflexivity. Qed.

Lemma members_end_mono : forall l2 l1, (forall m, In m l2 -> valid m = true) ->
  members_end l1 <= members_end (l1 ++ l2).
Proof.
  induction l2 as [|m l2 IH]; intros l1 V; [rewrite app_nil_r; lia|].
  replace (l1 ++ m :: l2) with ((l1 ++ [m]) ++ l2) by now rewrite <- app_assoc.
  eapply Z.le_trans; [|apply IH; intros; apply V; now right].
  rewrite members_end_snoc. destruct (member_ok m (V m (or_introl eq_refl))) as (_ & _ & _ & P1 & P2).
  unfold abi_offset. destruct (is_bits m); [lia|]. pose proof (roundup_ge (members_end l1) _ P2). lia.
Qed.

Theorem c33_structure_members_ordered_aligned_inside :
  forall al l1 m1 l2, valid (TAgg false al (l1 ++ m1 :: l2)) = true ->
  let S := TAgg false al (l1 ++ m1 :: l2) in
  0 <= abi_offset l1 m1 /\
  (is_bits m1 = false -> (abi_align m1 | abi_offset l1 m1)) /\
  (forall la m2 lb, l2 = la ++ m2 :: lb ->
     abi_offset l1 m1 + abi_size m1 <= abi_offset (l1 ++ m1 :: la) m2) /\
  abi_offset l1 m1 + abi_size m1 <= abi_size S /\
  (snd (abi S) | abi_size S) /\
  abi_align m1 <= snd (abi S).
Proof.
  intros al l1 m1 l2 V S.
  assert (Vm : forall x, In x (l1 ++ m1 :: l2) -> valid x = true) by (intros; eapply valid_kids; eauto).
  destruct (member_ok m1 (Vm m1 ltac:(apply in_or_app; right; now left))) as (_ & _ & _ & P1 & P2).
  assert (E1 : 0 <= members_end l1).
  { apply (members_end_mono l1 []). intros; apply Vm; apply in_or_app; now left. }
  assert (Off : members_end l1 <= abi_offset l1 m1).
  { unfold abi_offset. destruct (is_bits m1); [lia|]. pose proof (roundup_ge (members_end l1) _ P2). lia. }
  destruct (own_abi S V) as (_ & _ & _ & AS).
  split; [lia|]. split; [|split; [|split; [|split]]].
  - intros B. unfold abi_offset. rewrite B. apply roundup_mult.
  - intros la m2 lb ->.
    assert (V2 : valid m2 = true) by (apply Vm; apply in_or_app; right; right; apply in_or_app; right; now left).
    destruct (member_ok m2 V2) as (_ & _ & _ & Q1 & Q2).
    rewrite <- members_end_snoc.
    apply Z.le_trans with (members_end (l1 ++ m1 :: la)).
    + replace (l1 ++ m1 :: la) with ((l1 ++ [m1]) ++ la) by now rewrite <- app_assoc.
      apply members_end_mono. intros x Hx. apply Vm. apply in_or_app. right. right. apply in_or_app. now left.
    + unfold abi_offset. destruct (is_bits m2); [lia|].
      pose proof (roundup_ge (members_end (l1 ++ m1 :: la)) _ Q2). lia.
  - rewrite <- members_end_snoc.
    apply Z.le_trans with (members_end (l1 ++ m1 :: l2)).
    + replace (l1 ++ m1 :: l2) with ((l1 ++ [m1]) ++ l2) by now rewrite <- app_assoc.
      apply members_end_mono. intros x Hx. apply Vm. apply in_or_app. right. now right.
    + unfold S, abi_size. cbn [abi fst]. apply roundup_ge. exact AS.
  - unfold S, abi_size. cbn [abi fst snd]. apply roundup_mult.
  - unfold S. cbn [abi snd].
    change (map (fun m => (is_bits m, fst (abi m), eff_align m (snd (abi m)))) (l1 ++ m1 :: l2))
      with (map member (l1 ++ m1 :: l2)).
    clear. induction l1 as [|x l1 IH]; cbn [app map fold_right member snd] in *; lia.
Qed.

Theorem c33_union_covers_its_members :
  forall al l1 m l2, valid (TAgg true al (l1 ++ m :: l2)) = true ->
  let S := TAgg true al (l1 ++ m :: l2) in
  abi_size m <= abi_size S /\ (snd (abi S) | abi_size S) /\ abi_align m <= snd (abi S).
Proof.
  intros al l1 m l2 V S. destruct (own_abi S V) as (_ & _ & _ & AS).
  unfold S, abi_size in *. cbn [abi fst snd] in *.
  change (map (fun m => (is_bits m, fst (abi m), eff_align m (snd (abi m)))) (l1 ++ m :: l2))
      with (map member (l1 ++ m :: l2)) in *.
  split; [|split; [apply roundup_mult|]].
  - eapply Z.le_trans; [|apply roundup_ge; exact AS].
    fold (abi_size m). clear. induction l1 as [|x l1 IH]; cbn [app map fold_right member snd fst] in *; lia.
  - clear. induction l1 as [|x l1 IH]; cbn [app map fold_right member snd] in *; lia.
Qed.

(** Array elements are contiguous, and every one of them is aligned: the element size
    is a multiple of the element alignment.  (Element types carry no explicit
    alignment: type_translate.c:122 and :136.) *)
Fixpoint array_elems_natural (T : tree) : bool :=
  match T with
  | TLeaf _ _ _ => true
  | TAgg _ _ _ => true
  | TArr _ _ e => (talign (root e) =? 0) && array_elems_natural e
  end.

Lemma size_multiple : forall T, valid T = true -> array_elems_natural T = true ->
  (snd (abi T) | abi_size T).
Proof.
  induction T as [T IH] using tree_ind2. intros V N.
  destruct T as [c a p|un a ms|a n e]; unfold abi_size; cbn [abi fst snd].
  - destruct c; cbn; try apply Z.divide_1_l;
      solve [exists 1; reflexivity | exists 3; reflexivity].
  - apply roundup_mult.
  - cbn [array_elems_natural] in N. apply andb_true_iff in N as [N1 N2].
    unfold eff_align. rewrite N1. apply Z.divide_mul_r. apply IH; [now left| |exact N2].
    eapply valid_kids; [exact V|now left].
Qed.

Theorem c33_array_elements_contiguous_and_aligned :
  forall al n e, valid (TArr al n e) = true -> array_elems_natural (TArr al n e) = true ->
  let A := TArr al n e in
  abi_size A = n * abi_size e /\ snd (abi A) = abi_align e /\
  forall k, (abi_align e | k * abi_size e).
Proof.
  intros al n e V N A. cbn [array_elems_natural] in N. apply andb_true_iff in N as [N1 N2].
  split; [reflexivity|]. split; [reflexivity|]. intros k. apply Z.divide_mul_r.
  unfold abi_align, eff_align. rewrite N1. apply size_multiple; [|exact N2].
  eapply valid_kids; [exact V|now left].
Qed.

(** Placed at an address that is a multiple of its alignment, an object has each of
    its scalars at a multiple of that scalar's alignment, when all alignments are
    powers of two (structure alignments are the maximum of the member alignments). *)
Fixpoint pow2_aligned (T : tree) : bool :=
  ((talign (root T) =? 0) || existsb (fun k => talign (root T) =? 2 ^ Z.of_nat k) (seq 0 8)) &&
  match T with
  | TLeaf _ _ _ => true
  | TAgg _ _ ms => forallb pow2_aligned ms
  | TArr _ _ e => pow2_aligned e
  end.

(** Where the scalars of an object are: offset and leaf. *)
Inductive scalar_at : tree -> Z -> tree -> Prop :=
| sa_leaf : forall c a p, scalar_at (TLeaf c a p) 0 (TLeaf c a p)
| sa_struct : forall al l1 m l2 o x, scalar_at m o x ->
    scalar_at (TAgg false al (l1 ++ m :: l2)) (abi_offset l1 m + o) x
| sa_union : forall al l1 m l2 o x, scalar_at m o x ->
    scalar_at (TAgg true al (l1 ++ m :: l2)) o x
| sa_array : forall al n e k o x, 0 <= k < n -> scalar_at e o x ->
    scalar_at (TArr al n e) (k * abi_size e + o) x.

Fixpoint arrays_natural (T : tree) : bool :=
  match T with
  | TLeaf _ _ _ => true
  | TAgg _ _ ms => forallb arrays_natural ms
  | TArr _ _ e => array_elems_natural T && arrays_natural e
  end.

Definition is_pow2 (a : Z) : Prop := exists k, 0 <= k /\ a = 2 ^ k.

Lemma pow2_div : forall a b, is_pow2 a -> is_pow2 b -> a <= b -> (a | b).
Proof.
  intros a b (j & Hj & ->) (k & Hk & ->) H.
  assert (j <= k) by (apply Z.pow_le_mono_r_iff in H; lia).
  exists (2 ^ (k - j)). rewrite <- Z.pow_add_r by lia. f_equal. lia.
Qed.

Lemma pow2_eff : forall T x, pow2_aligned T = true -> is_pow2 x -> is_pow2 (eff_align T x).
Proof.
  intros T x H Hx. unfold eff_align. destruct (talign (root T) =? 0) eqn:E; [exact Hx|].
  assert (P : existsb (fun k => talign (root T) =? 2 ^ Z.of_nat k) (seq 0 8) = true).
  { destruct T; cbn [pow2_aligned] in H; apply andb_true_iff in H as [H _];
      apply orb_true_iff in H as [H|H]; congruence. }
  apply existsb_exists in P as (k & _ & P). apply Z.eqb_eq in P. exists (Z.of_nat k). lia.
Qed.

Lemma pow2_nat : forall T, valid T = true -> pow2_aligned T = true -> is_pow2 (snd (abi T)).
Proof.
  induction T as [T IH] using tree_ind2. intros V N.
  assert (Kp : forall k, In k (kids T) -> pow2_aligned k = true).
  { intros k Hk. destruct T as [c a p|un a ms|a n e]; cbn [kids pow2_aligned] in *;
      apply andb_true_iff in N as [_ N].
    - destruct Hk.
    - rewrite forallb_forall in N. auto.
    - destruct Hk as [<-|[]]. exact N. }
  assert (Ke : forall k, In k (kids T) -> is_pow2 (abi_align k)).
  { intros k Hk. apply pow2_eff; [auto|]. apply IH; auto. eapply valid_kids; eauto. }
  destruct T as [c a p|un a ms|a n e]; cbn [abi snd kids] in *.
  - destruct c; cbn;
      solve [exists 0; split; [lia|reflexivity] | exists 1; split; [lia|reflexivity] |
             exists 2; split; [lia|reflexivity] | exists 3; split; [lia|reflexivity] |
             exists 4; split; [lia|reflexivity]].
  - change (map (fun m => (is_bits m, fst (abi m), eff_align m (snd (abi m)))) ms) with (map member ms).
    assert (NE : ms <> []).
    { apply valid_lwf, lwf_wf in V. cbn in V. apply andb_true_iff in V as [V _]. now destruct ms. }
    clear -Ke NE. induction ms as [|m ms IH]; [congruence|].
    cbn [map fold_right member snd]. destruct ms as [|m' ms].
    + cbn. pose proof (Ke m (or_introl eq_refl)) as (k & Hk & E). rewrite E.
      rewrite Z.max_l by (apply Z.pow_nonneg; lia). exists k. auto.
    + assert (R : is_pow2 (fold_right (fun m x => Z.max (snd m) x) 0 (map member (m' :: ms))))
        by (apply IH; [intros; apply Ke; now right|congruence]).
      destruct (Z.max_spec (abi_align m) (fold_right (fun m x => Z.max (snd m) x) 0 (map member (m' :: ms))))
        as [[_ ->]|[_ ->]]; [exact R|]. apply Ke. now left.
  - apply Ke. now left.
Qed.

(** No explicit alignment weaker than the natural one (C17 6.7.5p4). *)
Fixpoint not_underaligned (T : tree) : bool :=
  ((talign (root T) =? 0) || (snd (abi T) <=? talign (root T))) &&
  match T with
  | TLeaf _ _ _ => true
  | TAgg _ _ ms => forallb not_underaligned ms
  | TArr _ _ e => not_underaligned e
  end.

Lemma eff_ge : forall T, not_underaligned T = true -> snd (abi T) <= abi_align T.
Proof.
  intros T H. unfold abi_align, eff_align.
  assert (P : ((talign (root T) =? 0) || (snd (abi T) <=? talign (root T)))%bool = true)
    by (destruct T; cbn [not_underaligned] in H; now apply andb_true_iff in H as [H _]).
  destruct (talign (root T) =? 0); lia.
Qed.

Lemma scalar_facts : forall T o x, scalar_at T o x -> valid T = true -> pow2_aligned T = true ->
  arrays_natural T = true -> not_underaligned T = true -> is_bits x = false ->
  0 <= o /\ o + abi_size x <= abi_size T /\ (abi_align x | o) /\ (abi_align x | abi_align T).
Proof.
  intros T o x H. induction H as [c a p|al l1 m l2 o x H IH|al l1 m l2 o x H IH|al n e k o x Hk H IH];
    intros V P A U B.
  - repeat split; try lia; [apply Z.divide_0_r|apply Z.divide_refl].
  - assert (Vm : valid m = true) by (eapply valid_kids; [exact V|apply in_or_app; right; now left]).
    pose proof (pow2_eff _ _ P (pow2_nat _ V P)) as PT.
    pose proof (eff_ge _ U) as GT.
    cbn [pow2_aligned arrays_natural not_underaligned] in P, A, U.
    apply andb_true_iff in P as [_ P]. apply andb_true_iff in U as [_ U].
    rewrite forallb_forall in P, A, U.
    assert (I : In m (l1 ++ m :: l2)) by (apply in_or_app; right; now left).
    destruct (IH Vm (P m I) (A m I) (U m I) B) as (I1 & I2 & I3 & I4).
    destruct (c33_structure_members_ordered_aligned_inside al l1 m l2 V) as (S1 & S2 & _ & S4 & _ & S6).
    assert (Bm : is_bits m = false).
    { destruct m as [c a p| |]; try reflexivity. inversion H; subst. exact B. }
    split; [lia|]. split; [lia|]. split.
    + apply Z.divide_add_r; [|exact I3]. eapply Z.divide_trans; [exact I4|exact (S2 Bm)].
    + eapply Z.divide_trans; [exact I4|].
      apply pow2_div; [|exact PT|eapply Z.le_trans; [exact S6|exact GT]].
      apply pow2_eff; [auto|]. apply pow2_nat; auto.
  - assert (Vm : valid m = true) by (eapply valid_kids; [exact V|apply in_or_app; right; now left]).
    pose proof (pow2_eff _ _ P (pow2_nat _ V P)) as PT.
    pose proof (eff_ge _ U) as GT.
    cbn [pow2_aligned arrays_natural not_underaligned] in P, A, U.
    apply andb_true_iff in P as [_ P]. apply andb_true_iff in U as [_ U].
    rewrite forallb_forall in P, A, U.
    assert (I : In m (l1 ++ m :: l2)) by (apply in_or_app; right; now left).
    destruct (IH Vm (P m I) (A m I) (U m I) B) as (I1 & I2 & I3 & I4).
    destruct (c33_union_covers_its_members al l1 m l2 V) as (S1 & _ & S3).
    split; [lia|]. split; [lia|]. split; [exact I3|].
    eapply Z.divide_trans; [exact I4|].
    apply pow2_div; [|exact PT|eapply Z.le_trans; [exact S3|exact GT]].
    apply pow2_eff; [auto|]. apply pow2_nat; auto.
  - assert (Ve : valid e = true) by (eapply valid_kids; [exact V|now left]).
    pose proof (pow2_eff _ _ P (pow2_nat _ V P)) as PT.
    pose proof (eff_ge _ U) as GT.
    cbn [pow2_aligned arrays_natural not_underaligned] in P, A, U.
    apply andb_true_iff in P as [_ P]. apply andb_true_iff in U as [_ U].
    apply andb_true_iff in A as [A1 A2].
    destruct (IH Ve P A2 U B) as (I1 & I2 & I3 & I4).
    destruct (c33_array_elements_contiguous_and_aligned al n e V A1) as (S1 & S2 & S3).
    destruct (own_abi e Ve) as (_ & _ & Z0 & _).
    split; [nia|]. split; [rewrite S1; nia|]. split.
    + apply Z.divide_add_r; [|exact I3]. eapply Z.divide_trans; [exact I4|apply S3].
    + eapply Z.divide_trans; [exact I4|]. rewrite S2 in GT.
      apply pow2_div; [|exact PT|exact GT]. apply pow2_eff; [auto|]. apply pow2_nat; auto.
Qed.

Theorem c33_scalars_inside_and_aligned :
  forall T o x base, valid T = true -> pow2_aligned T = true -> arrays_natural T = true ->
    not_underaligned T = true -> scalar_at T o x -> is_bits x = false ->
    (abi_align T | base) ->
    0 <= o /\ o + abi_size x <= abi_size T /\ (abi_align x | base + o).
Proof.
  intros T o x base V P A U H B D.
  destruct (scalar_facts T o x H V P A U B) as (H1 & H2 & H3 & H4).
  split; [exact H1|]. split; [exact H2|]. apply Z.divide_add_r; [|exact H3].
  eapply Z.divide_trans; eauto.
Qed.

(** struct { char a; struct { short b; double c; } d[3]; int e; union { char f[5]; long g; } h; } *)
Definition ex_layout : tree :=
  TAgg false 0
    [TLeaf CChar 0 0;
     TArr 0 3 (TAgg false 0 [TLeaf CShort 0 0; TLeaf CFloat64 0 0]);
     TLeaf CInt 0 0;
     TAgg true 0 [TArr 0 5 (TLeaf CChar 0 0); TLeaf CLong 0 0]].

Example ex_layout_ok :
  valid ex_layout = true /\ pow2_aligned ex_layout = true /\ arrays_natural ex_layout = true /\
  not_underaligned ex_layout = true /\ abi ex_layout = (72, 8) /\
  option_map (fun v => map (fun i => (l_size (v i), l_align (v i), l_off (v i))) (seq 0 10))
    (type_layout (flats [ex_layout]) (fun _ => mk 0 0 true)) =
  Some [(72, 8, 0); (1, 1, 0); (48, 8, 8); (16, 8, 0); (2, 2, 0); (8, 8, 8);
        (4, 4, 56); (8, 8, 64); (5, 1, 0); (1, 1, 0)].
Proof. vm_compute. repeat split. Qed.

Example ex_layout_scalar :
  scalar_at ex_layout (8 + (2 * 16 + 8)) (TLeaf CFloat64 0 0).
Proof.
  change 8 with (abi_offset [TLeaf CChar 0 0] (TArr 0 3 (TAgg false 0 [TLeaf CShort 0 0; TLeaf CFloat64 0 0]))) at 1.
  eapply (sa_struct 0 [TLeaf CChar 0 0]).
  change (2 * 16 + 8) with (2 * abi_size (TAgg false 0 [TLeaf CShort 0 0; TLeaf CFloat64 0 0]) +
    (abi_offset [TLeaf CShort 0 0] (TLeaf CFloat64 0 0) + 0)).
  apply sa_array; [lia|]. apply (sa_struct 0 [TLeaf CShort 0 0] _ []). constructor.
Qed.

Print Assumptions c33_sizes_and_alignments.
Print Assumptions c33_member_offsets.
Print Assumptions c33_structure_members_ordered_aligned_inside.
Print Assumptions c33_union_covers_its_members.
Print Assumptions c33_array_elements_contiguous_and_aligned.
Print Assumptions c33_scalars_inside_and_aligned.
