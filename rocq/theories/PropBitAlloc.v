(** C32: placement of bit-fields in structures and unions. *)

From Coq Require Import ZArith Lia Bool List.
From Coq Require Import ZifyBool.
From Verif Require Import IrType PropIrType LayoutModel PropLayout TypeTrans.
Import ListNotations.
Open Scope Z_scope.

(** ** Lists being edited in place *)

Lemma updn_app : forall {A} (f : A -> A) l1 x l2, updn (length l1) f (l1 ++ x :: l2) = l1 ++ f x :: l2.
Proof. induction l1; intros; cbn; [reflexivity|]. now rewrite IHl1. Qed.

(** ** Types the translation is given: known codes, non-negative explicit alignments
    and array lengths, at least one member that takes storage. *)
Definition scalar_code (c : tcode) : bool :=
  match c with
  | CBool | CChar | CShort | CInt | CLong | CWord | CFloat32 | CFloat64 | CLongDouble | CBuiltin => true
  | _ => false
  end.

Fixpoint cty_ok (y : cty) : bool :=
  match y with
  | YScalar c => scalar_code c
  | YArr n e => (0 <=? n) && cty_ok e
  | YVla => true
  | YAgg _ fs =>
    existsb (fun f => match f with FNormal _ _ => true | FBits _ _ _ w => negb (w =? 0) end) fs &&
    forallb (fun f => match f with
                      | FNormal a y => (0 <=? a) && cty_ok y
                      | FBits _ _ _ w => 0 <=? w
                      end) fs
  end.

Lemma cty_ind2 : forall P : cty -> Prop,
  (forall y, (match y with
              | YScalar _ | YVla => True
              | YArr _ e => P e
              | YAgg _ fs => forall a z, In (FNormal a z) fs -> P z
              end) -> P y) -> forall y, P y.
Proof.
  intros P H. fix IH 1. intros y. apply H. destruct y as [c|n e| |un fs]; [exact I|apply IH|exact I|].
  induction fs as [|f fs IHfs]; intros a z; [intros []|intros [E|I]].
  - destruct f as [a' z'|]; [|discriminate E]. injection E as _ E. rewrite <- E. apply (IH z').
  - exact (IHfs a z I).
Qed.

(** ** Arithmetic *)

Lemma land_pow2 : forall x k, 0 <= k -> Z.land x (2 ^ k - 1) = x mod 2 ^ k.
Proof. intros. rewrite Z.sub_1_r, <- Z.ones_equiv. now apply Z.land_ones. Qed.

Lemma props_pow2 : forall c size, bf_props c = Some size ->
  exists k, 3 <= k <= 6 /\ size = 2 ^ k.
Proof.
  intros c size H. destruct c; try discriminate H; injection H as <-;
    solve [exists 3; split; [lia|reflexivity]|exists 4; split; [lia|reflexivity]|
           exists 5; split; [lia|reflexivity]|exists 6; split; [lia|reflexivity]].
Qed.

Lemma props_mod : forall c size x, bf_props c = Some size -> Z.land x (size - 1) = x mod size.
Proof. intros c size x H. destruct (props_pow2 c size H) as (k & Hk & ->). apply land_pow2. lia. Qed.

Lemma props_pos : forall c size, bf_props c = Some size -> 8 <= size <= 64 /\ (8 | size).
Proof.
  intros c size H. destruct c; try discriminate H; injection H as <-; (split; [lia|]);
    solve [exists 1; reflexivity|exists 2; reflexivity|exists 4; reflexivity|exists 8; reflexivity].
Qed.

Definition nbytes (bits : Z) : Z := (bits + 7) / 8.

Lemma bits_size : forall p, 0 <= p -> abi_size (TLeaf CBits 0 p) = nbytes p.
Proof.
  intros p H. unfold abi_size, nbytes. cbn [abi abi_leaf fst]. unfold roundup.
  rewrite Z.div_mul by lia. f_equal. lia.
Qed.

(** Alignments as they come out when the source gives none: powers of two, none weaker
    than the natural one, and no alignment on array elements. *)
Definition good (T : tree) : bool := pow2_aligned T && arrays_natural T && not_underaligned T.

Lemma good_param : forall a p q, good (TLeaf CBits a p) = good (TLeaf CBits a q).
Proof. reflexivity. Qed.

Lemma good_agg : forall un ms, (forall m, In m ms -> good m = true) -> good (TAgg un 0 ms) = true.
Proof.
  intros un ms H. unfold good in *. cbn [pow2_aligned arrays_natural not_underaligned].
  replace (talign (root (TAgg un 0 ms))) with 0 by (destruct un; reflexivity). cbn [Z.eqb orb andb].
  repeat (apply andb_true_iff; split); apply forallb_forall; intros m Hm; specialize (H m Hm);
    apply andb_true_iff in H as [H H3]; apply andb_true_iff in H as [H1 H2]; assumption.
Qed.

Lemma good_arr : forall n e, good e = true -> talign (root e) = 0 -> good (TArr 0 n e) = true.
Proof.
  intros n e G E. unfold good in *. cbn [pow2_aligned arrays_natural not_underaligned root talign Z.eqb orb andb].
  apply andb_true_iff in G as [G G3]. apply andb_true_iff in G as [G1 G2].
  rewrite G1, G2, G3. cbn [array_elems_natural]. rewrite E. cbn [Z.eqb andb].
  assert (X : array_elems_natural e = true).
  { destruct e as [| |a' n' e']; try reflexivity. cbn [arrays_natural] in G2.
    now apply andb_true_iff in G2 as [G2 _]. }
  rewrite X. reflexivity.
Qed.

(** ** The offset reached so far *)

Definition base (un : bool) (l : list tree) : Z := if un then 0 else 8 * members_end l.

Section MAXCB.
  Variable t : irtype.
  Variable v : vec.
  Definition F_max (i : nat) (T : tree) (p : Z) : option Z := Some (Z.max p (l_off (v i) + l_size (v i))).

  Lemma max_list : forall ts b p, (forall T, In T ts -> wf T = true) -> at_pos t b ts ->
    list_nodes (max_cb v) t b (length ts) p = fold_trees F_max b ts p.
  Proof.
    intros ts b p W A.
    apply (list_nodes_ok (max_cb v) t F_max (fun T => wf T = true) (fun T h => h) wf_kids
             (fun _ _ => True)); auto.
  Qed.
End MAXCB.

Lemma max_members : forall v l2 l1 i, (forall m, In m (l1 ++ l2) -> valid m = true) ->
  (forall a m c, l2 = a ++ m :: c ->
     l_off (v (i + fsize a)%nat) = abi_offset (l1 ++ a) m /\ l_size (v (i + fsize a)%nat) = abi_size m) ->
  fold_trees (F_max v) i l2 (members_end l1) = Some (members_end (l1 ++ l2)).
Proof.
  induction l2 as [|m l2 IH]; intros l1 i V H; cbn [fold_trees].
  - now rewrite app_nil_r.
  - unfold F_max at 1. destruct (H [] m l2 eq_refl) as [E1 E2].
    rewrite fsize_nil, Nat.add_0_r in E1, E2. rewrite app_nil_r in E1. rewrite E1, E2.
    assert (Vm : valid m = true) by (apply V; apply in_or_app; right; now left).
    assert (M : members_end l1 <= members_end (l1 ++ [m]))
      by (apply members_end_mono; intros x [<-|[]]; exact Vm).
    rewrite <- members_end_snoc. rewrite Z.max_r by exact M.
    replace (l1 ++ m :: l2) with ((l1 ++ [m]) ++ l2) by now rewrite <- app_assoc.
    apply IH.
    + intros x Hx. apply V. rewrite <- app_assoc in Hx. exact Hx.
    + intros a m' c ->. destruct (H (m :: a) m' c eq_refl) as [G1 G2].
      rewrite fsize_cons in G1, G2. rewrite <- app_assoc. cbn [app].
      replace (i + tsize m + fsize a)%nat with (i + (tsize m + fsize a))%nat by lia. auto.
Qed.

Definition hdr (un : bool) (al : Z) (n : nat) : entry :=
  {| tc := agg_code un; talign := al; tparam := Z.of_nat n |}.

Lemma agg_flat : forall un al ms, hdr un al (length ms) :: flats ms = flatten (TAgg un al ms).
Proof. intros [] al ms; reflexivity. Qed.

Lemma agg_at : forall b un al ms, at_pos (b ++ hdr un al (length ms) :: flats ms) (length b) [TAgg un al ms].
Proof.
  intros. rewrite agg_flat. exists b, []. cbn. now rewrite !app_nil_r.
Qed.

Lemma agg_valid : forall un al ms, 0 <= al -> ms <> [] -> (forall m, In m ms -> valid m = true) ->
  valid (TAgg un al ms) = true.
Proof.
  intros un al ms A N V. cbn [valid root talign].
  assert (W : lwf (TAgg un al ms) = true).
  { unfold lwf. apply andb_true_iff. split.
    - cbn [wf]. destruct ms; [congruence|]. cbn [length]. apply andb_true_iff. split; [reflexivity|].
      apply forallb_forall. intros m Hm. apply lwf_wf, valid_lwf. auto.
    - cbn [codes_ok]. apply forallb_forall. intros m Hm. specialize (V m Hm).
      apply valid_lwf in V. now apply andb_true_iff in V as [_ V]. }
  rewrite W. cbn [andb]. apply andb_true_iff. split; [destruct un; cbn; lia|].
  apply forallb_forall. auto.
Qed.

Lemma current_offset_ok : forall b un al ms, 0 <= al -> (forall m, In m ms -> valid m = true) ->
  exists o, struct_current_offset (b ++ hdr un al (length ms) :: flats ms) (length b) = Some o /\
            o * 8 = base un ms.
Proof.
  intros b un al ms A V. unfold struct_current_offset.
  rewrite nth_error_app2, Nat.sub_diag by lia. cbn [nth_error hdr tparam tc].
  destruct ms as [|m0 ms0] eqn:Em.
  { exists 0. split; [reflexivity|]. destruct un; reflexivity. }
  rewrite <- Em in *. replace (0 <? Z.of_nat (length ms)) with true by (subst; cbn [length]; lia).
  destruct un; cbn [agg_code andb].
  { exists 0. split; reflexivity. }
  assert (VT : valid (TAgg false al ms) = true) by (apply agg_valid; auto; subst; discriminate).
  pose proof (layout_of_ok (b ++ hdr false al (length ms) :: flats ms) [TAgg false al ms] (length b)
                (fun _ => mk 0 0 true)) as L.
  cbn [length] in L. rewrite L; [|intros T [<-|[]]; now apply valid_lwf|apply agg_at].
  replace (pcount (hdr false al (length ms))) with (length ms)
    by (unfold pcount, hdr; cbn [tparam]; now rewrite Nat2Z.id).
  set (v := fill_list _ _ _ _).
  rewrite max_list.
  - change 0 with (members_end []) at 1. rewrite max_members.
    + exists (members_end ms). split; [reflexivity|]. unfold base. lia.
    + exact V.
    + intros a m c E.
      assert (G : v (length b + 1 + fsize a)%nat = upd2 (comp_after (comp0 true) a) (own m) m).
      { unfold v. cbn [fill_list].
        rewrite (fill_member (TAgg false al ms) a m c) by exact E. reflexivity. }
      rewrite G. cbn [app].
      assert (Va : forall x, In x a -> valid x = true)
        by (intros x Hx; apply V; rewrite E; apply in_or_app; now left).
      assert (Vm : valid m = true) by (apply V; rewrite E; apply in_or_app; right; now left).
      destruct (member_ok m Vm) as (W & Es & Ea & _ & Pa).
      pose proof (update_facts (comp_after (comp0 true) a) (own m) m (is_bits_root m W)) as U.
      cbn zeta in U. destruct U as (U1 & _ & _ & _ & _ & U & _).
      pose proof (comp_after_ok a (fun x h => member_ok x (Va x h))
                    a (comp0 true) (fun x h => h) ltac:(cbn; lia) ltac:(cbn; lia)) as C.
      cbn zeta in C. destruct C as (C1 & _ & _ & C4). cbn [comp0 c_agg c_off] in C1, C4.
      split; [|congruence].
      rewrite U, C1, C4, Ea. unfold abi_offset, members_end. destruct (is_bits m); [reflexivity|].
      apply pad_roundup. exact Pa.
  - intros T HT. apply lwf_wf, valid_lwf. auto.
  - pose proof (at_pos_kids _ _ _ (agg_at b false al ms)) as K. exact K.
Qed.

(** ** The invariant of the loop over the members *)

Definition limit (un : bool) (ms : list tree) (run : option (Z * Z)) : Z :=
  match run with Some (_, t) => t | None => 8 * members_end ms end.

(** A placed bit-field: its entry is one of the members, the field lies inside it, and
    it does not cross a boundary of its declared type. *)
Definition placed (un : bool) (ix : nat) (ms : list tree) (f : bfield) (pos : Z) : Prop :=
  exists l1 a p l2 size,
    ms = l1 ++ TLeaf CBits a p :: l2 /\ bf_entry f = (ix + 1 + fsize l1)%nat /\
    pos = base un l1 + bf_off f /\
    0 <= bf_off f /\ 0 < bf_width f /\ bf_off f + bf_width f <= p /\
    bf_props (bf_code f) = Some size /\ pos mod size + bf_width f <= size /\
    (un = true -> bf_off f = 0).

Inductive ordered : list (Z * Z) -> Prop :=
| ord_nil : ordered []
| ord_cons : forall p w l, (forall q x, In (q, x) l -> p + w <= q) -> ordered l -> ordered ((p, w) :: l).

Lemma ordered_snoc : forall l p w, ordered l -> (forall q x, In (q, x) l -> q + x <= p) ->
  ordered (l ++ [(p, w)]).
Proof.
  induction l as [|[q x] l IH]; intros p w O H; cbn [app].
  - constructor; [intros ? ? []|constructor].
  - inversion O as [|? ? ? H1 H2]; subst. constructor.
    + intros q' x' I. apply in_app_or in I as [I|[E|[]]]; [eauto|].
      injection E as <- <-. apply H. now left.
    + apply IH; [exact H2|]. intros. apply H. now right.
Qed.

Record inv (na un : bool) (al : Z) (b : irtype) (ms : list tree) (st : tstate) (ps : list Z) : Prop := {
  i_b : ts_b st = b ++ hdr un al (length ms) :: flats ms;
  i_v : forall m, In m ms -> valid m = true;
  i_g : na = true -> forall m, In m ms -> good m = true;
  i_run : forall h t, ts_run st = Some (h, t) ->
    exists l a, ms = l ++ [TLeaf CBits a (t - h)] /\ ts_store st = (length b + 1 + fsize l)%nat /\
                h = base un l /\ h < t;
  i_out : Forall2 (placed un (length b) ms) (ts_out st) ps;
  i_ord : un = false -> ordered (combine ps (map bf_width (ts_out st)));
  i_lim : un = false -> forall q x, In (q, x) (combine ps (map bf_width (ts_out st))) ->
    q + x <= limit un ms (ts_run st)
}.

Lemma base_snoc_bits : forall l a p, 0 <= p ->
  base false (l ++ [TLeaf CBits a p]) = base false l + 8 * nbytes p.
Proof.
  intros l a p H. unfold base. rewrite members_end_snoc. unfold abi_offset. cbn [is_bits].
  change (abi_size (TLeaf CBits a p)) with (abi_size (TLeaf CBits 0 p)). rewrite bits_size by exact H. lia.
Qed.

Lemma nbytes_ge : forall p, p <= 8 * nbytes p.
Proof. intros. unfold nbytes. pose proof (Z.div_mod (p + 7) 8 ltac:(lia)). pose proof (Z.mod_pos_bound (p + 7) 8 ltac:(lia)). lia. Qed.

Lemma limit_le : forall na un al b ms st ps, inv na un al b ms st ps -> un = false ->
  limit un ms (ts_run st) <= 8 * members_end ms.
Proof.
  intros na un al b ms st ps I ->. destruct (ts_run st) as [[h t]|] eqn:E; [|cbn; lia].
  destruct (i_run _ _ _ _ _ _ _ I _ _ E) as (l & a & -> & _ & Eh & Hh). cbn [limit].
  change (8 * members_end (l ++ [TLeaf CBits a (t - h)])) with (base false (l ++ [TLeaf CBits a (t - h)])).
  rewrite base_snoc_bits by lia. pose proof (nbytes_ge (t - h)). lia.
Qed.

(** Placed fields stay placed when members are appended, or the last BITS entry grows. *)
Lemma placed_app : forall un ix ms extra f p, placed un ix ms f p -> placed un ix (ms ++ extra) f p.
Proof.
  intros un ix ms extra f p (l1 & a & q & l2 & size & -> & H). exists l1, a, q, (l2 ++ extra), size.
  split; [now rewrite <- app_assoc|exact H].
Qed.

Lemma placed_grow : forall un ix l a q a' q' f p, q <= q' ->
  placed un ix (l ++ [TLeaf CBits a q]) f p -> placed un ix (l ++ [TLeaf CBits a' q']) f p.
Proof.
  intros un ix l a q a' q' f p Hq (l1 & a1 & q1 & l2 & size & E & H1 & H2 & H3 & H4 & H5 & H6).
  destruct l2 as [|x l2] using rev_ind.
  - apply app_inj_tail in E as [<- E]. injection E as <- <-.
    exists l, a', q', [], size. split; [reflexivity|]. split; [exact H1|]. split; [exact H2|].
    split; [exact H3|]. split; [exact H4|]. split; [lia|exact H6].
  - clear IHl2. replace (l1 ++ TLeaf CBits a1 q1 :: l2 ++ [x]) with ((l1 ++ TLeaf CBits a1 q1 :: l2) ++ [x]) in E
      by now rewrite <- app_assoc.
    apply app_inj_tail in E as [-> _].
    exists l1, a1, q1, (l2 ++ [TLeaf CBits a' q']), size.
    split; [now rewrite <- app_assoc|]. split; [exact H1|]. split; [exact H2|].
    split; [exact H3|]. split; [exact H4|]. split; [lia|exact H6].
Qed.

Lemma Forall2_imp : forall {A B} (P Q : A -> B -> Prop) l1 l2, (forall a b, P a b -> Q a b) ->
  Forall2 P l1 l2 -> Forall2 Q l1 l2.
Proof. intros A B P Q l1 l2 H F. induction F; constructor; auto. Qed.

Lemma combine_snoc : forall {A B} (l1 : list A) (l2 : list B) a b, length l1 = length l2 ->
  combine (l1 ++ [a]) (l2 ++ [b]) = combine l1 l2 ++ [(a, b)].
Proof. induction l1; destruct l2; cbn; intros; try discriminate; [reflexivity|]. f_equal. apply IHl1. lia. Qed.

Lemma inv_lengths : forall na un al b ms st ps, inv na un al b ms st ps ->
  length ps = length (map bf_width (ts_out st)).
Proof. intros. pose proof (i_out _ _ _ _ _ _ _ H) as F. rewrite map_length. clear -F. induction F; cbn [length]; lia. Qed.

Lemma bits_good : forall (named : bool) a size c p, bf_props c = Some size -> good (TLeaf CBits a 0) = true ->
  good (TLeaf CBits (if named then size / 8 else 0) p) = true /\
  good (TLeaf CBits (if named then Z.max a (size / 8) else a) p) = true.
Proof.
  intros named a size c p P G. unfold good in *. cbn [pow2_aligned arrays_natural not_underaligned root talign andb] in *.
  assert (Q : size = 8 \/ size = 16 \/ size = 32 \/ size = 64)
    by (destruct c; try discriminate P; injection P as <-; auto).
  assert (A : a = 0 \/ In a [1; 2; 4; 8; 16; 32; 64; 128]).
  { clear -G. cbn in G. destruct (a =? 0) eqn:E; [left; lia|right].
    repeat rewrite andb_true_r in G. apply andb_true_iff in G as [G _]. cbn in G |- *. lia. }
  cbn [abi abi_leaf snd].
  destruct A as [->|A]; [|cbn in A; destruct A as [<-|[<-|[<-|[<-|[<-|[<-|[<-|[<-|[]]]]]]]]]];
    destruct Q as [->|[->|[->| ->]]]; destruct named; split; reflexivity.
Qed.

Lemma bits_valid : forall a p, 0 <= a -> 0 <= p -> valid (TLeaf CBits a p) = true.
Proof. intros a p A P. cbn. apply andb_true_iff. split; lia. Qed.

Lemma inc_hdr : forall un al n, inc_param (hdr un al n) = hdr un al (S n).
Proof. intros. unfold inc_param, hdr. cbn [tc talign tparam]. f_equal. lia. Qed.

(** Appending a member and counting it. *)
Lemma append_member : forall b un al ms T,
  updn (length b) inc_param ((b ++ hdr un al (length ms) :: flats ms) ++ flatten T) =
  b ++ hdr un al (length (ms ++ [T])) :: flats (ms ++ [T]).
Proof.
  intros. rewrite <- app_assoc. cbn [app]. rewrite updn_app, inc_hdr, flats_app, app_length.
  cbn [length]. rewrite Nat.add_1_r. unfold flats at 3. cbn [flat_map]. now rewrite app_nil_r.
Qed.

Lemma reset_inv : forall na un al b ms st ps, inv na un al b ms st ps -> inv na un al b ms (reset st) ps.
Proof.
  intros na un al b ms st ps I. pose proof (limit_le _ _ _ _ _ _ _ I) as L. destruct I as [Ib Iv Ig Ir Io Id Il].
  constructor; cbn [reset ts_b ts_run ts_out]; auto; [discriminate|].
  intros E q x H. specialize (Il E q x H). specialize (L E). cbn [limit]. lia.
Qed.

(** The BITS entry and position of a new run. *)
Lemma fresh_inv : forall na un al b ms st ps named c w e off run, 0 <= al -> 0 < w ->
  inv na un al b ms st ps ->
  bf_next (ts_b st) (length b) named c w = Some (e, off, run) ->
  exists ms' ps' a p,
  ms' = ms ++ [TLeaf CBits a p] /\ ps' = ps ++ [base un ms + off] /\
  (off = 0 \/ exists size, bf_props c = Some size /\ (size | base un ms + off)) /\
  inv na un al b ms'
    {| ts_b := updn (length b) inc_param (ts_b st ++ [e]); ts_run := Some run;
       ts_store := length (ts_b st);
       ts_out := ts_out st ++ [{| bf_entry := length (ts_b st); bf_off := off; bf_width := w; bf_code := c |}] |}
    ps'.
Proof.
  intros na un al b ms st ps named c w e off run A Hw I H. unfold bf_next in H.
  replace (w =? 0) with false in H by lia.
  pose proof (limit_le _ _ _ _ _ _ _ I) as L. pose proof (inv_lengths _ _ _ _ _ _ _ I) as LL.
  destruct I as [Ib Iv Ig Ir Io Id Il].
  destruct (current_offset_ok b un al ms A Iv) as (o & Eo & Eb).
  rewrite Ib in H. rewrite Eo in H.
  destruct (bf_props c) as [size|] eqn:P; [|discriminate H].
  destruct (props_pos c size P) as (Hs & Ds).
  destruct (size <? w) eqn:Ew; [discriminate H|]. rewrite (props_mod c size (o * 8) P) in H. rewrite Eb in H.
  set (cur := base un ms) in *.
  set (tail := if size <? cur mod size + w then pad_aligned cur size else cur) in *.
  assert (T1 : cur <= tail /\ tail mod size + w <= size /\ (tail = cur \/ (size | tail))).
  { unfold tail. destruct (size <? cur mod size + w) eqn:E; [|split; [lia|split; [lia|now left]]].
    rewrite pad_roundup by lia. pose proof (roundup_ge cur size ltac:(lia)).
    pose proof (roundup_mult cur size) as D. apply Z.mod_divide in D as D'; [|lia]. split; [lia|].
    split; [lia|now right]. }
  destruct T1 as (T1 & T2 & T3).
  injection H as <- <- <-.
  exists (ms ++ [TLeaf CBits (if named then size / 8 else 0) (tail + w - cur)]), (ps ++ [cur + (tail - cur)]),
    (if named then size / 8 else 0), (tail + w - cur).
  split; [reflexivity|]. split; [reflexivity|]. split.
  { destruct T3 as [E|D]; [left; lia|]. right. exists size. split; [reflexivity|].
    now replace (cur + (tail - cur)) with tail by lia. }
  assert (Len : length (ts_b st) = (length b + 1 + fsize ms)%nat).
  { rewrite Ib, app_length. cbn [length]. unfold fsize. lia. }
  constructor; cbn [ts_b ts_run ts_store ts_out].
  - rewrite Ib. apply (append_member b un al ms (TLeaf CBits (if named then size / 8 else 0) (tail + w - cur))).
  - intros m Hm. apply in_app_or in Hm as [Hm|[<-|[]]]; [auto|].
    apply bits_valid; [destruct named; [apply Z.div_pos; lia|lia]|lia].
  - intros N m Hm. apply in_app_or in Hm as [Hm|[<-|[]]]; [auto|].
    apply (bits_good named 0 size c _ P eq_refl).
  - intros h t E. injection E as <- <-.
    exists ms, (if named then size / 8 else 0). split; [reflexivity|]. split; [exact Len|]. split; [reflexivity|lia].
  - apply Forall2_app; [eapply Forall2_imp; [|exact Io]; intros; now apply placed_app|].
    constructor; [|constructor].
    exists ms, (if named then size / 8 else 0), (tail + w - cur), [], size. cbn [bf_entry bf_off bf_width bf_code].
    split; [reflexivity|]. split; [exact Len|]. split; [reflexivity|]. split; [lia|]. split; [lia|].
    split; [lia|]. split; [exact P|]. split; [now replace (cur + (tail - cur)) with tail by lia|].
    intros ->. unfold tail, cur, base. rewrite Z.mod_0_l by lia. replace (size <? 0 + w) with false by lia. reflexivity.
  - intros E. rewrite map_app. cbn [map bf_width]. rewrite combine_snoc by exact LL.
    apply ordered_snoc; [auto|]. intros q x Hq. specialize (Il E q x Hq). specialize (L E).
    unfold cur, base in T1. subst un. unfold cur, base. lia.
  - intros E q x Hq. cbn [limit]. rewrite map_app in Hq. cbn [map bf_width] in Hq.
    rewrite combine_snoc in Hq by exact LL. apply in_app_or in Hq as [Hq|[Hq|[]]].
    + specialize (Il E q x Hq). specialize (L E). subst un. unfold cur, base in T1. lia.
    + injection Hq as <- <-. lia.
Qed.

Lemma colocated_inv : forall na un al b ms st ps named c w e off h t e' run', 0 < w -> un = false ->
  inv na un al b ms st ps -> ts_run st = Some (h, t) -> nth_error (ts_b st) (ts_store st) = Some e ->
  bf_colocated (h, t) named c w e = CoOk e' off run' ->
  exists ms' ps', ps' = ps ++ [t] /\ ms' <> [] /\
  inv na un al b ms'
    {| ts_b := updn (ts_store st) (fun _ => e') (ts_b st); ts_run := Some run';
       ts_store := ts_store st;
       ts_out := ts_out st ++ [{| bf_entry := ts_store st; bf_off := off; bf_width := w; bf_code := c |}] |}
    ps'.
Proof.
  intros na un al b ms st ps named c w e off h t e' run' Hw Hun I Er En H. unfold bf_colocated in H.
  replace (w =? 0) with false in H by lia.
  destruct (bf_props c) as [size|] eqn:P; [|discriminate H].
  destruct (props_pos c size P) as (Hs & Ds).
  destruct (size <? w) eqn:Ew; [discriminate H|]. rewrite (props_mod c size t P) in H.
  destruct (t mod size + w <=? size) eqn:Es; [|discriminate H]. injection H as <- <- <-.
  pose proof (inv_lengths _ _ _ _ _ _ _ I) as LL.
  destruct I as [Ib Iv Ig Ir Io Id Il].
  destruct (Ir h t Er) as (l & a & Ems & Est & Eh & Hh).
  assert (Hb : ts_b st = (b ++ hdr un al (length ms) :: flats l) ++ [{| tc := CBits; talign := a; tparam := t - h |}]).
  { rewrite Ib, Ems, flats_app. rewrite <- app_assoc. reflexivity. }
  assert (Hl : ts_store st = length (b ++ hdr un al (length ms) :: flats l)).
  { rewrite app_length. cbn [length]. unfold fsize in Est. lia. }
  assert (Ee : e = {| tc := CBits; talign := a; tparam := t - h |}).
  { rewrite Hb, Hl in En. rewrite nth_error_app2, Nat.sub_diag in En by lia. now injection En. }
  subst e. cbn [tc talign tparam].
  assert (Va : 0 <= a).
  { specialize (Iv (TLeaf CBits a (t - h))). rewrite Ems in Iv.
    apply (valid_align (TLeaf CBits a (t - h))), Iv. apply in_or_app. right. now left. }
  set (a' := if named then Z.max a (size / 8) else a).
  exists (l ++ [TLeaf CBits a' (t + w - h)]), (ps ++ [t]).
  split; [reflexivity|]. split; [now destruct l|].
  constructor; cbn [ts_b ts_run ts_store ts_out].
  - rewrite Hb, Hl, updn_app, flats_app. rewrite <- app_assoc. cbn [app].
    replace (length (l ++ [TLeaf CBits a' (t + w - h)])) with (length ms)
      by (rewrite Ems, !app_length; reflexivity).
    reflexivity.
  - intros m Hm. apply in_app_or in Hm as [Hm|[<-|[]]].
    + apply Iv. rewrite Ems. apply in_or_app. now left.
    + apply bits_valid; [unfold a'; destruct named; lia|lia].
  - intros N m Hm. apply in_app_or in Hm as [Hm|[<-|[]]].
    + apply Ig; [exact N|]. rewrite Ems. apply in_or_app. now left.
    + apply (bits_good named a size c _ P).
      rewrite (good_param a 0 (t - h)). apply Ig; [exact N|]. rewrite Ems. apply in_or_app. right. now left.
  - intros h' t' E. injection E as <- <-. exists l, a'. split; [reflexivity|]. split; [exact Est|]. split; [exact Eh|lia].
  - rewrite Ems in Io. apply Forall2_app.
    + eapply Forall2_imp; [|exact Io]. intros f p. apply placed_grow. lia.
    + constructor; [|constructor].
      exists l, a', (t + w - h), [], size. cbn [bf_entry bf_off bf_width bf_code].
      split; [reflexivity|]. split; [exact Est|]. split; [lia|]. split; [lia|]. split; [lia|].
      split; [lia|]. split; [exact P|]. split; [lia|congruence].
  - intros E. rewrite map_app. cbn [map bf_width]. rewrite combine_snoc by exact LL.
    apply ordered_snoc; [auto|]. intros q x Hq. specialize (Il E q x Hq). rewrite Er in Il. exact Il.
  - intros E q x Hq. cbn [limit]. rewrite map_app in Hq. cbn [map bf_width] in Hq.
    rewrite combine_snoc in Hq by exact LL. apply in_app_or in Hq as [Hq|[Hq|[]]].
    + specialize (Il E q x Hq). rewrite Er in Il. cbn [limit] in Il. lia.
    + injection Hq as <- <-. lia.
Qed.

(** The bit-fields a member list declares: declared type and width (as uint8_t). *)
Fixpoint declared (fs : list field) : list (tcode * Z) :=
  match fs with
  | [] => []
  | FBits _ _ c w :: fs => if w =? 0 then declared fs else (c, w mod 256) :: declared fs
  | FNormal _ _ :: fs => declared fs
  end.

Lemma declared_app : forall a b, declared (a ++ b) = declared a ++ declared b.
Proof.
  induction a as [|[x y|x n c w] a IH]; intros; cbn [app declared]; auto.
  destruct (w =? 0); cbn [app]; rewrite IH; reflexivity.
Qed.

Definition what (f : bfield) : tcode * Z := (bf_code f, bf_width f).
Definition takes (f : field) : bool :=
  match f with FNormal _ _ => true | FBits _ _ _ w => negb (w =? 0) end.
Definition field_ok (f : field) : bool :=
  match f with FNormal a y => (0 <=? a) && cty_ok y | FBits _ _ _ w => 0 <=? w end.

(** No explicit alignments. *)
Fixpoint no_align (y : cty) : bool :=
  match y with
  | YScalar _ | YVla => true
  | YArr _ e => no_align e
  | YAgg _ fs => forallb (fun f => match f with FNormal a y => (a =? 0) && no_align y | FBits _ _ _ _ => true end) fs
  end.
Definition field_plain (f : field) : bool :=
  match f with FNormal a y => (a =? 0) && no_align y | FBits _ _ _ _ => true end.

Definition trans_good (y : cty) : Prop := forall al b b', cty_ok y = true -> 0 <= al ->
  trans y al b = Some b' -> exists T, b' = b ++ flatten T /\ valid T = true /\
    (al = 0 -> talign (root T) = 0) /\ (al = 0 -> no_align y = true -> good T = true).

(** One member. *)
Lemma step_inv : forall na un al b ms st ps f st', 0 <= al -> field_ok f = true ->
  (na = true -> field_plain f = true) ->
  (forall a z, f = FNormal a z -> trans_good z) ->
  inv na un al b ms st ps -> field_step un (length b) f st = Some st' ->
  exists ms' ps', inv na un al b ms' st' (ps ++ ps') /\ (takes f = true \/ ms <> [] -> ms' <> []) /\
    map what (ts_out st') = map what (ts_out st) ++ declared [f] /\
    (ts_run st = None -> forall p, In p ps' -> (8 | p)).
Proof.
  intros na un al b ms st ps f st' A Ok Pl G I H. destruct f as [a y|a named c w]; cbn [field_step] in H.
  - cbn [field_ok] in Ok. apply andb_true_iff in Ok as [Oa Oy].
    destruct (trans y a (ts_b st)) as [b'|] eqn:E; [|discriminate H]. injection H as <-.
    destruct (G a y eq_refl a (ts_b st) b' Oy ltac:(lia) E) as (T & -> & VT & _ & GT).
    pose proof (limit_le _ _ _ _ _ _ _ I) as L. destruct I as [Ib Iv Ig Ir Io Id Il].
    exists (ms ++ [T]), []. rewrite app_nil_r. split; [|split; [|split]].
    + assert (Vn : forall m, In m (ms ++ [T]) -> valid m = true)
        by (intros m Hm; apply in_app_or in Hm as [Hm|[<-|[]]]; auto).
      constructor; cbn [ts_b ts_run ts_store ts_out]; auto.
      * rewrite Ib. apply append_member.
      * intros N m Hm. apply in_app_or in Hm as [Hm|[<-|[]]]; [auto|].
        specialize (Pl N). cbn [field_plain] in Pl. apply andb_true_iff in Pl as [P1 P2]. apply GT; [lia|exact P2].
      * discriminate.
      * eapply Forall2_imp; [|exact Io]. intros; now apply placed_app.
      * intros E' q x Hq. cbn [limit]. specialize (Il E' q x Hq). specialize (L E').
        assert (members_end ms <= members_end (ms ++ [T]))
          by (apply members_end_mono; intros m [<-|[]]; exact VT). lia.
    + intros _. now destruct ms.
    + cbn [ts_out declared]. now rewrite app_nil_r.
    + intros _ p [].
  - set (st0 := if un then reset st else st) in *.
    assert (I0 : inv na un al b ms st0 ps) by (unfold st0; destruct un; [now apply reset_inv|exact I]).
    assert (O0 : ts_out st0 = ts_out st) by (unfold st0; destruct un; reflexivity).
    assert (R0 : un = true -> ts_run st0 = None) by (unfold st0; intros ->; reflexivity).
    assert (R1 : ts_run st = None -> ts_run st0 = None) by (unfold st0; destruct un; auto).
    clearbody st0. rewrite <- O0. unfold translate_bitfield in H. cbn [field_ok takes declared] in *.
    destruct (w =? 0) eqn:Ew.
    + injection H as <-. exists ms, []. rewrite !app_nil_r. split; [now apply reset_inv|].
      split; [intros [E|E]; [discriminate E|exact E]|]. split; [reflexivity|intros _ p []].
    + set (w8 := w mod 256) in *. assert (W8 : 0 <= w8) by (apply Z.mod_pos_bound; lia).
      assert (Fresh : match bf_next (ts_b st0) (length b) named c w8 with
        | None => None
        | Some (e, off, run) => Some {|
            ts_b := updn (length b) inc_param (ts_b st0 ++ [e]); ts_run := Some run;
            ts_store := length (ts_b st0);
            ts_out := ts_out st0 ++ [{| bf_entry := length (ts_b st0); bf_off := off; bf_width := w8; bf_code := c |}] |}
        end = Some st' ->
        exists ms' ps', inv na un al b ms' st' (ps ++ ps') /\ (negb false = true \/ ms <> [] -> ms' <> []) /\
          map what (ts_out st') = map what (ts_out st0) ++ [(c, w8)] /\
          (ts_run st = None -> forall p, In p ps' -> (8 | p))).
      { intros Hn. destruct (bf_next (ts_b st0) (length b) named c w8) as [[[e off] run]|] eqn:En; [|discriminate Hn].
        injection Hn as <-.
        assert (0 < w8).
        { unfold bf_next in En. destruct (w8 =? 0) eqn:E0; [discriminate En|]. lia. }
        destruct (fresh_inv na un al b ms st0 ps named c w8 e off run A H0 I0 En) as (ms' & ps' & a' & p' & -> & -> & D & J).
        exists (ms ++ [TLeaf CBits a' p']), [base un ms + off]. split; [exact J|]. split; [intros _; now destruct ms|].
        split; [cbn [ts_out]; rewrite map_app; reflexivity|].
        intros _ p [<-|[]]. assert (D8 : (8 | base un ms)) by (unfold base; destruct un; [apply Z.divide_0_r|apply Z.divide_factor_l]).
        destruct D as [->|(size & Ps & Ds)]; [now rewrite Z.add_0_r|].
        eapply Z.divide_trans; [|exact Ds]. now apply props_pos in Ps as [_ Ps]. }
      destruct (ts_run st0) as [[h t]|] eqn:Er; [|apply Fresh; exact H].
      destruct (nth_error (ts_b st0) (ts_store st0)) as [e|] eqn:En; [|discriminate H].
      destruct (bf_colocated (h, t) named c w8 e) as [| |e' off run'] eqn:Ec; [discriminate H|apply Fresh; exact H|].
      injection H as <-.
      assert (0 < w8).
      { unfold bf_colocated in Ec. destruct (w8 =? 0) eqn:E0; [discriminate Ec|]. lia. }
      assert (U : un = false) by (destruct un; [discriminate (R0 eq_refl)|reflexivity]).
      destruct (colocated_inv na un al b ms st0 ps named c w8 e off h t e' run' H U I0 Er En Ec) as (ms' & ps' & -> & Ne & J).
      exists ms', [t]. split; [exact J|]. split; [auto|].
      split; [cbn [ts_out]; rewrite map_app; reflexivity|]. intros E. discriminate (R1 E).
Qed.

Lemma loop_inv : forall na un al b fs ms st ps st', 0 <= al -> forallb field_ok fs = true ->
  (na = true -> forallb field_plain fs = true) ->
  (forall a z, In (FNormal a z) fs -> trans_good z) ->
  inv na un al b ms st ps -> field_loop un (length b) fs st = Some st' ->
  exists ms' ps', inv na un al b ms' st' (ps ++ ps') /\ (existsb takes fs = true \/ ms <> [] -> ms' <> []) /\
    map what (ts_out st') = map what (ts_out st) ++ declared fs.
Proof.
  intros na un al b fs. induction fs as [|f fs IH]; intros ms st ps st' A Ok Pl G I H; cbn [field_loop] in H.
  - injection H as <-. exists ms, []. rewrite app_nil_r. split; [exact I|].
    split; [intros [E|E]; [discriminate E|exact E]|]. cbn. now rewrite app_nil_r.
  - cbn [forallb] in Ok. apply andb_true_iff in Ok as [Of Ok].
    destruct (field_step un (length b) f st) as [st1|] eqn:E; [|discriminate H].
    destruct (step_inv na un al b ms st ps f st1 A Of) as (ms1 & ps1 & I1 & N1 & D1 & _); auto.
    { intros N. specialize (Pl N). cbn [forallb] in Pl. now apply andb_true_iff in Pl as [Pl _]. }
    { intros a z ->. eapply G. now left. }
    destruct (IH ms1 st1 (ps ++ ps1) st' A Ok) as (ms2 & ps2 & I2 & N2 & D2); auto.
    { intros N. specialize (Pl N). cbn [forallb] in Pl. now apply andb_true_iff in Pl as [_ Pl]. }
    { intros a z Hz. eapply G. right. exact Hz. }
    exists ms2, (ps1 ++ ps2). rewrite app_assoc. split; [exact I2|]. split.
    + cbn [existsb]. intros [T|T]; apply N2.
      * apply orb_true_iff in T as [T|T]; [right; apply N1; now left|now left].
      * right. apply N1. now right.
    + rewrite D2, D1, <- app_assoc. f_equal. change (f :: fs) with ([f] ++ fs). now rewrite declared_app.
Qed.

Lemma start_inv : forall na un al b, inv na un al b [] (struct_start un al b) [].
Proof.
  intros. constructor; cbn [struct_start ts_b ts_run ts_store ts_out length flats flat_map].
  - reflexivity.
  - intros m [].
  - intros _ m [].
  - intros h t E. discriminate E.
  - constructor.
  - intros _. constructor.
  - intros _ q x [].
Qed.

Lemma struct_inv : forall un fs al b t out, 0 <= al -> cty_ok (YAgg un fs) = true ->
  (forall a z, In (FNormal a z) fs -> trans_good z) ->
  translate_struct un fs al b = Some (t, out) ->
  exists ms ps, t = b ++ flatten (TAgg un al ms) /\ valid (TAgg un al ms) = true /\
    map what out = declared fs /\ Forall2 (placed un (length b) ms) out ps /\
    (un = false -> ordered (combine ps (map bf_width out))) /\
    (forallb field_plain fs = true -> forall m, In m ms -> good m = true).
Proof.
  intros un fs al b t out A Ok G H. unfold translate_struct in H.
  cbn [cty_ok] in Ok. apply andb_true_iff in Ok as [O1 O2].
  destruct (field_loop un (length b) fs (struct_start un al b)) as [st|] eqn:E; [|discriminate H].
  injection H as <- <-.
  set (na := forallb field_plain fs) in *.
  destruct (loop_inv na un al b fs [] (struct_start un al b) [] st A O2 (fun h => h) G (start_inv na un al b) E)
    as (ms & ps & I & N & D). cbn [app] in I.
  assert (Ne : ms <> []) by (apply N; left; exact O1).
  destruct I as [Ib Iv Ig Ir Io Id Il]. exists ms, ps.
  split; [rewrite Ib; now rewrite agg_flat|]. split; [apply agg_valid; auto|].
  split; [exact D|]. split; [exact Io|]. split; [exact Id|exact Ig].
Qed.

Lemma scalar_ok_leaf : forall c al, scalar_code c = true -> 0 <= al -> valid (TLeaf c al 0) = true.
Proof. intros c al H A. destruct c; try discriminate H; cbn; rewrite ?andb_true_r; lia. Qed.

(** Every type translates to the flattening of a valid IR type tree. *)
Lemma trans_ok : forall y, trans_good y.
Proof.
  induction y as [y IH] using cty_ind2. intros al b b' Ok A H.
  destruct y as [c|n e| |un fs]; cbn [trans cty_ok] in *.
  - injection H as <-. exists (TLeaf c al 0). split; [reflexivity|]. split; [now apply scalar_ok_leaf|].
    split; [auto|]. intros -> _. destruct c; reflexivity.
  - apply andb_true_iff in Ok as [On Oe].
    destruct (IH 0 _ _ Oe ltac:(lia) H) as (T & -> & VT & RT & GT).
    exists (TArr al n T). split; [rewrite <- app_assoc; reflexivity|].
    split; [|split; [auto|intros -> N; apply good_arr; auto]].
    pose proof (valid_lwf _ VT) as L. unfold lwf in L. apply andb_true_iff in L as [L1 L2].
    cbn [valid root talign]. unfold lwf. cbn [wf codes_ok]. rewrite L1, L2, VT, On. cbn. lia.
  - injection H as <-. exists (TAgg false 0 [TLeaf CWord 0 0; TLeaf CWord 0 0]). repeat split; reflexivity.
  - change (trans (YAgg un fs) al b = Some b') in H. rewrite trans_struct in H.
    destruct (translate_struct un fs al b) as [[t out]|] eqn:E; [|discriminate H]. injection H as <-.
    destruct (struct_inv un fs al b t out A Ok IH E) as (ms & ps & -> & V & _ & _ & _ & Gd).
    exists (TAgg un al ms). split; [reflexivity|]. split; [exact V|].
    split; [intros ->; destruct un; reflexivity|]. intros -> N. apply good_agg. apply Gd. exact N.
Qed.

(** ** Theorems *)

(** Absolute bit position of a field inside its structure: the offset the layout gives
    to the entry that stores it, and the field's offset in that entry. *)
Definition bitpos (v : vec) (f : bfield) : Z := 8 * l_off (v (bf_entry f)) + bf_off f.

(** Number of bits of the declared type. *)
Definition type_bits (c : tcode) : Z := 8 * fst (abi_leaf c 0).

Lemma props_bits : forall c size, bf_props c = Some size -> size = type_bits c.
Proof. intros c size H. destruct c; try discriminate H; injection H as <-; reflexivity. Qed.

Lemma ordered_nth : forall ps ws i j p w q x, ordered (combine ps ws) -> (i < j)%nat ->
  nth_error ps i = Some p -> nth_error ws i = Some w -> nth_error ps j = Some q -> nth_error ws j = Some x ->
  p + w <= q.
Proof.
  induction ps as [|p0 ps IH]; intros ws i j p w q x O L H1 H2 H3 H4; [destruct i; discriminate H1|].
  destruct ws as [|w0 ws]; [destruct i; discriminate H2|]. cbn [combine] in O.
  inversion O as [|? ? ? O1 O2]; subst. destruct j as [|j]; [lia|]. cbn [nth_error] in H3, H4.
  destruct i as [|i]; cbn [nth_error] in H1, H2.
  - injection H1 as <-. injection H2 as <-. apply (O1 q x).
    clear -H3 H4. revert ws j H3 H4. induction ps as [|p ps IH]; intros ws j H3 H4; [destruct j; discriminate|].
    destruct ws as [|w ws]; [destruct j; discriminate|]. cbn [combine].
    destruct j; cbn [nth_error] in *; [left; congruence|right; eauto].
  - eapply (IH ws i j); eauto. lia.
Qed.

Lemma Forall2_nth : forall {A B} (P : A -> B -> Prop) l1 l2, Forall2 P l1 l2 ->
  forall i x, nth_error l1 i = Some x -> exists y, nth_error l2 i = Some y /\ P x y.
Proof.
  intros A B P l1 l2 F. induction F; intros i a Hn; destruct i; cbn in *; try discriminate; eauto.
  injection Hn as <-. eauto.
Qed.

(** The bit-fields of a structure or union, in any type that contains it: in order and
    with the declared types and widths; in a structure, each begins after the end of
    the one declared before it; none crosses a boundary of its declared type; each
    lies inside the member that stores it; in a union all begin at bit 0. *)
Theorem c32_bitfields_disjoint_and_within_units :
  forall un fs al b t out, 0 <= al -> cty_ok (YAgg un fs) = true ->
  translate_struct un fs al b = Some (t, out) ->
  exists ms, t = b ++ flatten (TAgg un al ms) /\ valid (TAgg un al ms) = true /\
    map (fun f => (bf_code f, bf_width f)) out = declared fs /\
    forall ts v0 v, (forall T, In T ts -> valid T = true) -> type_layout (flats ts) v0 = Some v ->
      In (length b, TAgg un al ms) (places_list 0 ts) ->
      (un = false -> forall i j f g, (i < j)%nat -> nth_error out i = Some f -> nth_error out j = Some g ->
         bitpos v f + bf_width f <= bitpos v g) /\
      (forall f, In f out ->
         (exists q, q * type_bits (bf_code f) <= bitpos v f /\
                    bitpos v f + bf_width f <= (q + 1) * type_bits (bf_code f)) /\
         0 < bf_width f /\ 0 <= bf_off f /\ bf_off f + bf_width f <= 8 * l_size (v (bf_entry f)) /\
         (exists l1 a p l2, ms = l1 ++ TLeaf CBits a p :: l2 /\
            bf_entry f = (length b + 1 + length (flats l1))%nat) /\
         (un = true -> bitpos v f = 0)).
Proof.
  intros un fs al b t out A Ok H.
  destruct (struct_inv un fs al b t out A Ok (fun a z _ => trans_ok z) H) as (ms & ps & -> & V & D & P & O & _).
  exists ms. split; [reflexivity|]. split; [exact V|]. split; [exact D|].
  intros ts v0 v Vt L I.
  destruct (c33_member_offsets ts v0 v Vt L) as (M1 & M2 & _).
  destruct (c33_sizes_and_alignments ts v0 Vt) as (v' & L' & SZ).
  rewrite L in L'. injection L' as <-.
  assert (B : forall f p, placed un (length b) ms f p -> bitpos v f = p).
  { intros f p (l1 & a & q & l2 & size & Em & Ee & Ep & _).
    unfold bitpos. rewrite Ee. fold (fsize l1) in M1, M2. rewrite Em in I. destruct un.
    - specialize (M2 _ _ _ _ _ I). unfold fsize. rewrite M2. rewrite Ep. unfold base. lia.
    - specialize (M1 _ _ _ _ _ I). unfold fsize. rewrite M1. rewrite Ep. unfold base, abi_offset. cbn [is_bits]. lia. }
  split.
  - intros U i j f g Lij Hi Hj.
    destruct (Forall2_nth _ _ _ P i f Hi) as (p & Hp & Pf).
    destruct (Forall2_nth _ _ _ P j g Hj) as (q & Hq & Pg).
    rewrite (B f p Pf), (B g q Pg).
    eapply (ordered_nth ps (map bf_width out) i j p (bf_width f) q (bf_width g) (O U) Lij); auto;
      rewrite nth_error_map; [rewrite Hi|rewrite Hj]; reflexivity.
  - intros f Hf. apply In_nth_error in Hf as (i & Hi).
    destruct (Forall2_nth _ _ _ P i f Hi) as (p & Hp & Pf). rewrite (B f p Pf).
    destruct Pf as (l1 & a & q & l2 & size & Em & Ee & Ep & H1 & H2 & H3 & H4 & H5 & H6).
    pose proof (props_pos _ _ H4) as (Hs & _).
    split; [|split; [exact H2|split; [exact H1|split; [|split]]]].
    + rewrite <- (props_bits _ _ H4). exists (p / size).
      pose proof (Z.div_mod p size ltac:(lia)) as DM. pose proof (Z.mod_pos_bound p size ltac:(lia)) as MB. lia.
    + assert (Ib : In (bf_entry f, TLeaf CBits a q) (places_list 0 ts)).
      { rewrite Ee, Em in *. clear -I.
        assert (X : forall n ts k, (fsize ts <= n)%nat -> In (length b, TAgg un al (l1 ++ TLeaf CBits a q :: l2)) (places_list k ts) ->
          In ((length b + 1 + fsize l1)%nat, TLeaf CBits a q) (places_list k ts)).
        { clear. induction n as [|n IH]; intros ts k Hn I; (destruct ts as [|x ts]; [destruct I|]);
            rewrite fsize_cons, (tsize_eq x) in Hn; [lia|].
          cbn [places_list] in *. apply in_app_or in I as [I|I]; apply in_or_app.
          - left. rewrite places_eq in *. destruct I as [E|I].
            + injection E as -> ->. right. cbn [kids].
              assert (Y : forall l1 k, In ((k + fsize l1)%nat, TLeaf CBits a q) (places_list k (l1 ++ TLeaf CBits a q :: l2))).
              { clear. induction l1 as [|y l1 IH]; intros k; cbn [app places_list].
                - rewrite fsize_nil, Nat.add_0_r. apply in_or_app. left. now left.
                - rewrite fsize_cons, Nat.add_assoc. apply in_or_app. right. apply IH. }
              apply Y.
            + right. apply IH; [lia|exact I].
          - right. apply IH; [lia|exact I]. }
        eapply X; [apply le_n|exact I]. }
      destruct (SZ _ _ Ib) as [S1 _]. rewrite S1.
      change (abi_size (TLeaf CBits a q)) with (abi_size (TLeaf CBits 0 q)). rewrite bits_size by lia.
      pose proof (nbytes_ge q). lia.
    + exists l1, a, q, l2. split; [exact Em|]. exact Ee.
    + intros U. rewrite Ep, (H6 U). unfold base. now rewrite U.
Qed.

(** Where the entry of a placed field is. *)
Lemma bitpos_placed : forall un al ms b ts v0 v f p,
  (forall T, In T ts -> valid T = true) -> type_layout (flats ts) v0 = Some v ->
  In (length b : nat, TAgg un al ms) (places_list 0 ts) -> placed un (@length entry b) ms f p -> bitpos v f = p.
Proof.
  intros un al ms b ts v0 v f p Vt L I (l1 & a & q & l2 & size & Em & Ee & Ep & _).
  destruct (c33_member_offsets ts v0 v Vt L) as (M1 & M2 & _).
  unfold bitpos. rewrite Ee. rewrite Em in I. unfold fsize. destruct un.
  - rewrite (M2 _ _ _ _ _ I). rewrite Ep. unfold base. lia.
  - rewrite (M1 _ _ _ _ _ I). rewrite Ep. unfold base, abi_offset. cbn [is_bits]. lia.
Qed.

Lemma field_loop_app : forall un ix fs1 fs2 st,
  field_loop un ix (fs1 ++ fs2) st =
  match field_loop un ix fs1 st with Some st' => field_loop un ix fs2 st' | None => None end.
Proof.
  induction fs1 as [|f fs1 IH]; intros; cbn [app field_loop]; [reflexivity|].
  destruct (field_step un ix f st); [apply IH|reflexivity].
Qed.

(** Every type of the source translates to an IR type whose layout is the ABI's, and
    when the source gives no alignments every scalar in it is naturally aligned (C33). *)
Theorem c33_source_types :
  forall y al t, cty_ok y = true -> 0 <= al -> trans y al [] = Some t ->
  exists T, t = flatten T /\ valid T = true /\
    (exists v, type_layout t (fun _ => mk 0 0 true) = Some v /\
       l_size (v 0%nat) = abi_size T /\ l_align (v 0%nat) = abi_align T) /\
    (al = 0 -> no_align y = true ->
     forall o x addr, scalar_at T o x -> is_bits x = false -> (abi_align T | addr) ->
       0 <= o /\ o + abi_size x <= abi_size T /\ (abi_align x | addr + o)).
Proof.
  intros y al t Ok A H. destruct (trans_ok y al [] t Ok A H) as (T & E & V & R & G). cbn [app] in E. subst t.
  exists T. split; [reflexivity|]. split; [exact V|]. split.
  - destruct (c33_sizes_and_alignments [T] (fun _ => mk 0 0 true)) as (v & L & S); [intros x [<-|[]]; exact V|].
    unfold flats in L. cbn [flat_map] in L. rewrite app_nil_r in L. exists v. split; [exact L|].
    apply S. cbn [places_list]. apply in_or_app. left. rewrite places_eq. now left.
  - intros E N o x addr Hs B D. specialize (G E N). unfold good in G.
    apply andb_true_iff in G as [G G3]. apply andb_true_iff in G as [G1 G2].
    eapply c33_scalars_inside_and_aligned; eauto.
Qed.

(** What the code does for a zero-width field: the next bit-field begins at a byte
    boundary.  The standard (6.7.2.1p12) and the ABI ask for a boundary of the type of
    the zero-width field. *)
Theorem c32_zero_width_starts_new_byte_partial :
  forall fs1 a0 n0 c0 a1 n1 c1 w fs2 al b t out,
  let fs := fs1 ++ FBits a0 n0 c0 0 :: FBits a1 n1 c1 w :: fs2 in
  0 <= al -> w <> 0 -> cty_ok (YAgg false fs) = true ->
  translate_struct false fs al b = Some (t, out) ->
  exists ms f, t = b ++ flatten (TAgg false al ms) /\ nth_error out (length (declared fs1)) = Some f /\
    bf_code f = c1 /\
    forall ts v0 v, (forall T, In T ts -> valid T = true) -> type_layout (flats ts) v0 = Some v ->
      In (length b, TAgg false al ms) (places_list 0 ts) -> (8 | bitpos v f).
Proof.
  intros fs1 a0 n0 c0 a1 n1 c1 w fs2 al b t out fs A Nw Ok H. unfold translate_struct in H.
  cbn [cty_ok] in Ok. apply andb_true_iff in Ok as [O1 O2]. unfold fs in O2, H.
  change (forallb field_ok (fs1 ++ FBits a0 n0 c0 0 :: FBits a1 n1 c1 w :: fs2) = true) in O2.
  rewrite forallb_app in O2. apply andb_true_iff in O2 as [O2 O3]. cbn [forallb] in O3.
  apply andb_true_iff in O3 as [_ O3]. apply andb_true_iff in O3 as [O3 O4].
  rewrite field_loop_app in H.
  destruct (field_loop false (length b) fs1 (struct_start false al b)) as [st1|] eqn:E1; [|discriminate H].
  cbn [field_loop] in H.
  destruct (field_step false (length b) (FBits a0 n0 c0 0) st1) as [st2|] eqn:E2; [|discriminate H].
  destruct (field_step false (length b) (FBits a1 n1 c1 w) st2) as [st3|] eqn:E3; [|discriminate H].
  destruct (field_loop false (length b) fs2 st3) as [st4|] eqn:E4; [|discriminate H]. injection H as <- <-.
  assert (G : forall a z l, In (FNormal a z) l -> trans_good z) by (intros; apply trans_ok).
  destruct (loop_inv false false al b fs1 [] _ [] st1 A O2 ltac:(discriminate) (fun a z => G a z fs1) (start_inv false false al b) E1)
    as (ms1 & ps1 & I1 & _ & D1). cbn [app struct_start ts_out map] in I1, D1.
  pose proof E2 as E2'. cbn in E2'. injection E2' as <-.
  pose proof (reset_inv _ _ _ _ _ _ _ I1) as I2.
  destruct (step_inv false false al b ms1 (reset st1) ps1 (FBits a1 n1 c1 w) st3 A O3 ltac:(discriminate) ltac:(discriminate) I2 E3)
    as (ms3 & ps3 & I3 & N3 & D3 & Q3).
  destruct (loop_inv false false al b fs2 ms3 st3 (ps1 ++ ps3) st4 A O4 ltac:(discriminate) (fun a z => G a z fs2) I3 E4)
    as (ms4 & ps4 & I4 & _ & D4).
  cbn [reset ts_out ts_run declared] in D3, Q3. replace (w =? 0) with false in D3 by lia.
  assert (L1 : length ps1 = length (declared fs1)).
  { rewrite <- D1. pose proof (inv_lengths _ _ _ _ _ _ _ I1) as X. rewrite map_length in X |- *. exact X. }
  assert (L3 : length ps3 = 1%nat).
  { pose proof (inv_lengths _ _ _ _ _ _ _ I3) as X. rewrite app_length, map_length in X.
    assert (Y : length (map what (ts_out st3)) = (length (map what (ts_out st1)) + 1)%nat)
      by (rewrite D3, app_length; reflexivity).
    rewrite !map_length in Y. pose proof (inv_lengths _ _ _ _ _ _ _ I1) as Z. rewrite map_length in Z. lia. }
  destruct ps3 as [|p [|]]; try discriminate L3.
  assert (D : (8 | p)) by (apply Q3; [reflexivity|now left]).
  assert (W4 : map what (ts_out st4) = declared fs1 ++ (c1, w mod 256) :: declared fs2).
  { rewrite D4, D3, D1. rewrite <- app_assoc. reflexivity. }
  assert (Nth : nth_error (map what (ts_out st4)) (length (declared fs1)) = Some (c1, w mod 256)).
  { rewrite W4, nth_error_app2, Nat.sub_diag by lia. reflexivity. }
  rewrite nth_error_map in Nth.
  destruct (nth_error (ts_out st4) (length (declared fs1))) as [f|] eqn:Ef; [|discriminate Nth].
  injection Nth as Ec Ew. exists ms4, f.
  destruct I4 as [Ib4 _ _ _ Io4 _ _]. split; [rewrite Ib4; now rewrite agg_flat|].
  split; [reflexivity|]. split; [exact Ec|]. intros ts v0 v Vt L I.
  destruct (Forall2_nth _ _ _ Io4 _ f Ef) as (q & Hq & Pq).
  rewrite <- app_assoc in Hq. rewrite nth_error_app2 in Hq by lia. rewrite L1, Nat.sub_diag in Hq.
  cbn in Hq. injection Hq as <-.
  rewrite (bitpos_placed false al ms4 b ts v0 v f p Vt L I Pq). exact D.
Qed.

(** struct { int a : 3; int : 0; int b : 5; }: [b] begins at bit 8, not 32. *)
Theorem c32_zero_width_boundary_refuted :
  ~ (forall fs1 c0 n1 c1 w fs2 t out v0 v,
       let fs := fs1 ++ FBits 0 false c0 0 :: FBits 0 n1 c1 w :: fs2 in
       cty_ok (YAgg false fs) = true -> w <> 0 ->
       translate_struct false fs 0 [] = Some (t, out) -> type_layout t v0 = Some v ->
       forall f, nth_error out (length (declared fs1)) = Some f -> (type_bits c0 | bitpos v f)).
Proof.
  intros H.
  assert (X : exists t out v f,
    translate_struct false ([FBits 0 true CInt 3] ++ [FBits 0 false CInt 0; FBits 0 true CInt 5]) 0 [] = Some (t, out) /\
    type_layout t (fun _ => mk 0 0 true) = Some v /\ nth_error out 1 = Some f /\ bitpos v f = 8).
  { eexists _, _, _, _. split; [vm_compute; reflexivity|]. split; [vm_compute; reflexivity|].
    split; [vm_compute; reflexivity|]. vm_compute. reflexivity. }
  destruct X as (t & out & v & f & E1 & E2 & E3 & E4).
  assert (O : cty_ok (YAgg false ([FBits 0 true CInt 3] ++ [FBits 0 false CInt 0; FBits 0 true CInt 5])) = true)
    by (vm_compute; reflexivity).
  pose proof (H [FBits 0 true CInt 3] CInt true CInt 5 [] t out _ v O ltac:(lia) E1 E2 f E3) as (k & D).
  rewrite E4 in D. change (type_bits CInt) with 32 in D. lia.
Qed.

(** A field of a type is read and written (load_bitfield and store_bitfield,
    source/ast-translator/value.c:31-64 and :127-176) with at most eight bytes, all of
    them inside the entry that stores it: such accesses are never rejected and never
    touch other members. *)
Theorem c32_accesses_fit :
  forall un fs al b t out, 0 <= al -> cty_ok (YAgg un fs) = true ->
  translate_struct un fs al b = Some (t, out) ->
  exists ms, t = b ++ flatten (TAgg un al ms) /\
    forall ts v0 v f, (forall T, In T ts -> valid T = true) -> type_layout (flats ts) v0 = Some v ->
      In (length b, TAgg un al ms) (places_list 0 ts) -> In f out ->
      bf_off f mod 8 + bf_width f <= 64 /\
      bf_off f / 8 + nbytes (bf_off f mod 8 + bf_width f) <= l_size (v (bf_entry f)).
Proof.
  intros un fs al b t out A Ok H.
  destruct (c32_bitfields_disjoint_and_within_units un fs al b t out A Ok H) as (ms & E & V & _ & G).
  exists ms. split; [exact E|]. intros ts v0 v f Vt L I Hf.
  destruct (G ts v0 v Vt L I) as [_ G2]. destruct (G2 f Hf) as ((q & Q1 & Q2) & W & O & In1 & _).
  destruct (struct_inv un fs al b t out A Ok (fun a z _ => trans_ok z) H) as (ms' & ps & _ & _ & _ & P & _).
  apply In_nth_error in Hf as (i & Hi). destruct (Forall2_nth _ _ _ P i f Hi) as (p & _ & Pf).
  destruct Pf as (l1 & a & r & l2 & size & _ & _ & Ep & _ & _ & _ & H4 & H5 & _).
  destruct (props_pos _ _ H4) as (Hs & k & Hk).
  assert (B8 : exists z, base un l1 = 8 * z) by (unfold base; destruct un; [exists 0|exists (members_end l1)]; lia).
  destruct B8 as (z & Bz).
  assert (M : bf_off f mod 8 <= p mod size).
  { replace (bf_off f mod 8) with (p mod 8).
    - assert (p mod 8 = (p mod size) mod 8).
      { pose proof (Z.div_mod p size ltac:(lia)) as D.
        rewrite D at 1. rewrite Hk at 1. replace (k * 8 * (p / size) + p mod size) with (p mod size + (k * (p / size)) * 8) by ring.
        apply Z.mod_add. lia. }
      rewrite H0. apply Z.mod_le; [apply Z.mod_pos_bound; lia|lia].
    - rewrite Ep, Bz. replace (8 * z + bf_off f) with (bf_off f + z * 8) by ring. apply Z.mod_add. lia. }
  split; [lia|]. unfold nbytes.
  pose proof (Z.div_mod (bf_off f) 8 ltac:(lia)). pose proof (Z.mod_pos_bound (bf_off f) 8 ltac:(lia)).
  set (x := bf_off f mod 8 + bf_width f + 7) in *.
  pose proof (Z.div_mod x 8 ltac:(lia)). pose proof (Z.mod_pos_bound x 8 ltac:(lia)). lia.
Qed.

(** struct { char x; int a : 5; int b : 20; long c : 40; int d : 9; short y; } *)
Definition ex_fields : list field :=
  [FNormal 0 (YScalar CChar); FBits 0 true CInt 5; FBits 0 true CInt 20; FBits 0 true CLong 40;
   FBits 0 true CInt 9; FNormal 0 (YScalar CShort)].

Example ex_fields_ok : cty_ok (YAgg false ex_fields) = true /\
  match translate_struct false ex_fields 0 [] with
  | Some (t, out) =>
    match type_layout t (fun _ => mk 0 0 true) with
    | Some v => map (fun f => (bitpos v f, bf_width f)) out = [(8, 5); (32, 20); (64, 40); (104, 9)]
    | None => False
    end
  | None => False
  end.
Proof. vm_compute. repeat split. Qed.

Example ex_zero_width_ok :
  cty_ok (YAgg false [FBits 0 true CInt 3; FBits 0 false CInt 0; FBits 0 true CInt 5]) = true /\
  exists t out, translate_struct false [FBits 0 true CInt 3; FBits 0 false CInt 0; FBits 0 true CInt 5] 0 [] = Some (t, out).
Proof. split; [reflexivity|]. eexists _, _. vm_compute. reflexivity. Qed.

(** A declared width of 257 becomes 1: the width travels as uint8_t
    (bitfields.c:130) and is checked only after that.  C17 6.7.2.1p4 makes it a
    constraint violation. *)
Example c32_wide_width_accepted :
  match translate_struct false [FBits 0 true CInt 257] 0 [] with
  | Some (_, out) => map bf_width out = [1]
  | None => False
  end.
Proof. vm_compute. reflexivity. Qed.

Print Assumptions c33_source_types.
Print Assumptions c32_bitfields_disjoint_and_within_units.
Print Assumptions c32_zero_width_starts_new_byte_partial.
Print Assumptions c32_zero_width_boundary_refuted.
Print Assumptions c32_accesses_fit.
