(** C34: classification of aggregates.  C35: registers and stack areas of parameters. *)

From Coq Require Import ZArith Lia Bool List ZifyBool ZifyNat.
From Verif Require Import IrType LayoutModel PropLayout ClassModel ClassSpec ClassProofs.
Import ListNotations.
Open Scope Z_scope.

(** ** The classes found by the walk *)

Lemma fold_update_aligned : forall ms c,
  (forall m, In m ms -> l_aligned (own m) = true /\
     (talign (root m) =? 0 = false -> l_align (own m) <=? talign (root m) = true)) ->
  c_aligned c = true ->
  c_aligned (fold_left (fun c m => fst (update_compound c (own m) (root m))) ms c) = true.
Proof.
  induction ms as [|m ms IH]; intros c H E; cbn [fold_left]; [exact E|].
  apply IH; [intros; apply H; now right|].
  destruct (H m (or_introl eq_refl)) as (H1 & H2).
  unfold update_compound. destruct (talign (root m) =? 0) eqn:Z0; cbn [negb fst c_aligned l_aligned].
  - now rewrite E, H1.
  - now rewrite E, H2.
Qed.

Lemma aligned_ok : forall T, conforming T = true -> l_aligned (own T) = true /\
  (talign (root T) =? 0 = false -> l_align (own T) <=? talign (root T) = true).
Proof.
  induction T as [T IH] using tree_ind2. intros C.
  pose proof (conforming_kids T) as K. specialize (fun k => K k C).
  destruct (conforming_parts T C) as (V & _ & _ & N & _). split.
  - destruct T as [c a q|un a ms|a n e]; cbn [own].
    + now destruct (leaf_layout _) as [[s al]|].
    + cbn [mk l_aligned]. apply fold_update_aligned; [|reflexivity]. intros m I. apply IH; auto.
    + cbn [mk l_aligned].
      apply (fold_update_aligned [e] (comp0 false)); [|reflexivity].
      intros m I. apply IH; auto.
  - intros E. destruct (own_abi T V) as (_ & Ea & _). rewrite Ea.
    pose proof (eff_ge T N) as G. unfold abi_align, eff_align in G. rewrite E in G. lia.
Qed.

Lemma qword_count_spec : forall z, qword_count z = roundup z 8 / 8.
Proof.
  intros z. unfold qword_count, roundup. rewrite Z.div_mul by lia.
  pose proof (Z.div_mod z 8 ltac:(lia)). pose proof (Z.mod_pos_bound z 8 ltac:(lia)).
  destruct (z mod 8 =? 0) eqn:E.
  - apply (Z.div_unique _ 8 _ 7); lia.
  - apply (Z.div_unique _ 8 _ (z mod 8 - 1)); lia.
Qed.

Lemma add1_fold : forall l i k, fold_left (add1 i) l k = fold_left merge (map snd (filter (touches i) l)) k.
Proof.
  induction l as [|x l IH]; intros i k; cbn [fold_left filter]; [reflexivity|].
  unfold add1 at 2. destruct (touches i x); cbn [map fold_left]; apply IH.
Qed.

Lemma init_ok : forall n, (0 < n)%nat -> Inv n (qwords_alloc n) 0 /\
  forall i, nth i (cls (qwords_alloc n)) NoClass = NoClass.
Proof.
  intros n H. split.
  - split; cbn [qwords_alloc qv qcur]; [apply repeat_length|].
    exists {| qc := NoClass; qo := 0 |}. cbn [qo]. split; [destruct n; [lia|reflexivity]|].
    split; [reflexivity|]. split; [lia|]. intros j q' _ E.
    apply nth_error_In, repeat_spec in E. now subst.
  - unfold cls. cbn [qwords_alloc qv]. clear H. induction n as [|n IH]; intros [|i]; cbn; auto.
Qed.

Lemma walk_classes : forall T, conforming T = true -> 0 < abi_size T ->
  let n := Z.to_nat (qword_count (l_size (own T))) in
  exists s, walk T (qwords_alloc n) = Some s /\
    map qc (qv s) = map (eightbyte (fst (pack T 0))) (seq 0 n) /\
    n = Z.to_nat (roundup (abi_size T) 8 / 8) /\ abi_size T <= 8 * Z.of_nat n.
Proof.
  intros T C P n. destruct (conforming_parts T C) as (V & _).
  destruct (own_abi T V) as (LS & _). unfold n. rewrite LS, qword_count_spec. clear n.
  set (n := Z.to_nat (roundup (abi_size T) 8 / 8)).
  assert (Hn : 8 * Z.of_nat n = roundup (abi_size T) 8).
  { unfold n. pose proof (roundup_ge0 (abi_size T) 8 ltac:(lia)). destruct (roundup_mult (abi_size T) 8) as (k & Ek).
    rewrite Ek in *. rewrite Z.div_mul by lia. lia. }
  pose proof (roundup_ge0 (abi_size T) 8 ltac:(lia)) as G.
  destruct (init_ok n ltac:(lia)) as (I0 & C0).
  destruct (conf_align T C) as (_ & _ & _ & A1 & _).
  assert (B0 : base T 0 = 0).
  { unfold base. destruct (is_bits T); [reflexivity|]. apply roundup_id; [exact A1|apply Z.divide_0_r]. }
  pose proof (pack_le T C 0 0 ltac:(lia)) as PL. rewrite B0 in PL.
  destruct (walk_ok n T C _ 0 I0 ltac:(lia)) as (s & E & (L & _) & A).
  exists s. split; [exact E|]. split; [|split; [reflexivity|lia]].
  apply (nth_ext (map qc (qv s)) _ NoClass (eightbyte (fst (pack T 0)) 0%nat)).
  - rewrite !map_length, seq_length. exact L.
  - intros i Hi. rewrite map_length, L in Hi. rewrite map_nth, seq_nth by lia. cbn [Nat.add].
    pose proof (A i Hi) as Ai. unfold cls in Ai at 1. rewrite Ai, C0. apply add1_fold.
Qed.

(** ** The post-merger cleanup *)

Definition no_sseup (l : list klass) : Prop := Forall (fun k => k <> SseUp) l.

Lemma sseup_fix_id : forall l p, no_sseup l -> sseup_fix p l = l.
Proof.
  induction l as [|k l IH]; intros p H; cbn [sseup_fix]; [reflexivity|]. inversion H; subst.
  replace (klass_eqb k SseUp) with false by (destruct k; cbn; congruence). cbn [andb]. now rewrite IH.
Qed.

Lemma postmerge_loop_ok : forall l i prev n ns acc (pk : klass), no_sseup l ->
  (klass_eqb pk X87 = match i, prev with S j, Some j' => Nat.eqb j j' | _, _ => false end) ->
  (forall j, prev = Some j -> (j < i)%nat) ->
  postmerge_loop l i prev n ns acc =
    if existsb (klass_eqb Memory) l || negb (x87up_preceded pk l) then None
    else Some (rev acc ++ l, ns || existsb (fun _ => true) (match i with O => tl l | S _ => l end)).
Proof.
  induction l as [|k l IH]; intros i prev n ns acc pk H Hp Hl; cbn [postmerge_loop existsb x87up_preceded].
  - cbn [negb]. rewrite app_nil_r. f_equal. f_equal. now destruct i, ns.
  - inversion H as [|k' l' Hk Hr]; subst.
    replace (klass_eqb k SseUp) with false by (destruct k; cbn; congruence). cbn [negb].
    rewrite andb_true_r.
    assert (NS : ns || (0 <? i)%nat || existsb (fun _ => true) l =
                 ns || existsb (fun _ => true) (match i with O => l | S _ => k :: l end)).
    { destruct i; cbn [existsb]; [now rewrite orb_false_r|]. cbn. now destruct ns. }
    assert (STEP : forall pv m, (klass_eqb k X87 = match pv with Some j' => Nat.eqb i j' | None => false end) ->
      (forall j, pv = Some j -> (j < S i)%nat) ->
      postmerge_loop l (S i) pv m (ns || (0 <? i)%nat) (k :: acc) =
      if existsb (klass_eqb Memory) l || negb (x87up_preceded k l) then None
      else Some (rev acc ++ k :: l, ns || existsb (fun _ => true) (match i with O => l | S _ => k :: l end))).
    { intros pv m E1 E2. rewrite (IH (S i) pv m _ (k :: acc) k Hr E1 E2).
      destruct (existsb (klass_eqb Memory) l || negb (x87up_preceded k l)); [reflexivity|]. cbn [rev]. rewrite <- app_assoc. cbn [app]. f_equal. f_equal.
      exact NS. }
    assert (OLD : k <> X87 -> klass_eqb k X87 = match prev with Some j' => Nat.eqb i j' | None => false end).
    { intros Nk. replace (klass_eqb k X87) with false by (destruct k; cbn; congruence).
      destruct prev as [j|]; [|reflexivity]. specialize (Hl j eq_refl). symmetry. apply Nat.eqb_neq. lia. }
    assert (OLD2 : forall j, prev = Some j -> (j < S i)%nat) by (intros j Ej; specialize (Hl j Ej); lia).
    replace (match i with O => tl (k :: l) | S _ => k :: l end) with
            (match i with O => l | S _ => k :: l end) by (now destruct i).
    destruct k; cbn [klass_eqb orb negb andb] in *; try congruence;
      try (rewrite (STEP prev _ (OLD ltac:(congruence)) OLD2); reflexivity);
      try reflexivity.
    + rewrite (STEP (Some i) n); [reflexivity|now rewrite Nat.eqb_refl|]. intros j Ej. injection Ej as <-. lia.
    + rewrite <- Hp. destruct (klass_eqb pk X87); cbn [andb].
      * rewrite (STEP prev n (OLD ltac:(congruence)) OLD2). reflexivity.
      * destruct (existsb (klass_eqb Memory) l); reflexivity.
Qed.

Lemma postmerger_ok : forall l, no_sseup l -> postmerger l = cleanup l.
Proof.
  intros l H. unfold postmerger, cleanup.
  rewrite (postmerge_loop_ok l 0 None 0 false [] NoClass H eq_refl ltac:(intros; discriminate)).
  destruct (existsb (klass_eqb Memory) l); [reflexivity|]. cbn [orb].
  destruct (negb (x87up_preceded NoClass l)); [reflexivity|]. cbn [rev app].
  rewrite sseup_fix_id by exact H.
  replace (2 <? Z.of_nat (length l)) with (2 <? length l)%nat by lia.
  destruct (2 <? length l)%nat eqn:L; [|reflexivity]. cbn [andb].
  destruct l as [|a [|b l]]; try (cbn in L; discriminate L). cbn [tl existsb orb forallb hd].
  inversion H as [|? ? _ H']; subst. inversion H' as [|? ? Hb _]; subst.
  replace (klass_eqb SseUp b) with false by (destruct b; cbn; congruence). cbn [andb negb].
  now rewrite !orb_true_r.
Qed.

Lemma large_in_memory : forall l, no_sseup l -> (2 < length l)%nat -> cleanup l = InMemory.
Proof.
  intros l H L. unfold cleanup.
  destruct (existsb (klass_eqb Memory) l); [reflexivity|].
  destruct (negb (x87up_preceded NoClass l)); [reflexivity|].
  replace (2 <? Z.of_nat (length l)) with true by lia. cbn [andb].
  destruct l as [|a [|b l]]; cbn in L; try lia. cbn [tl forallb].
  inversion H as [|? ? _ H']; subst. inversion H' as [|? ? Hb _]; subst.
  replace (klass_eqb SseUp b) with false by (destruct b; cbn; congruence). cbn [andb negb].
  now rewrite !orb_true_r.
Qed.

(** SSEUP (vector types) does not arise. *)
Definition plain (x : item) : Prop := snd x <> SseUp.

Lemma eightbyte_plain : forall l i, Forall plain l -> eightbyte l i <> SseUp.
Proof.
  intros l i H. unfold eightbyte.
  assert (G : forall k, k <> SseUp -> fold_left merge (map snd (filter (touches i) l)) k <> SseUp).
  { induction H as [|x l Hx H IH]; intros k Hk; cbn [filter]; [exact Hk|].
    destruct (touches i x); cbn [map fold_left]; [|now apply IH]. apply IH.
    unfold plain in Hx. destruct k, (snd x); cbn; congruence. }
  apply G. discriminate.
Qed.

Lemma leaf_items_plain : forall c q o, Forall plain (leaf_items c q o).
Proof. intros c q o. destruct c; cbn [leaf_items]; repeat (constructor; [cbv; discriminate|]); constructor. Qed.

Lemma struct_items_plain : forall ms, (forall m o, In m ms -> Forall plain (items m o)) ->
  forall o e, Forall plain (struct_items items ms o e).
Proof.
  induction ms as [|m ms IH]; intros H o e; cbn [struct_items]; [constructor|].
  apply Forall_app. split; [apply H; now left|]. apply IH. intros. apply H. now right.
Qed.

Lemma items_plain : forall T o, Forall plain (items T o).
Proof.
  induction T as [T IH] using tree_ind2. intros o.
  destruct T as [c a q|[] a ms|a n e]; cbn [items kids] in *.
  - apply leaf_items_plain.
  - apply Forall_flat_map. apply Forall_forall. auto.
  - apply struct_items_plain. auto.
  - apply Forall_flat_map. apply Forall_forall. intros. apply IH. now left.
Qed.

Lemma pack_plain : forall T p, Forall plain (fst (pack T p)).
Proof.
  induction T as [T IH] using tree_ind2. intros p.
  destruct T as [c a q|[] a ms|a n e]; cbn [pack kids] in *.
  - unfold pack_leaf. destruct c; cbn [fst]; try apply leaf_items_plain.
    constructor; [cbv; discriminate|constructor].
  - generalize p at 2. intros mx. revert mx. induction ms as [|m ms IHm]; intros mx; cbn [pack_union]; [constructor|].
    pose proof (IH m (or_introl eq_refl) p) as H. destruct (pack m p) as [l q].
    specialize (IHm (fun k h => IH k (or_intror h)) (Z.max mx q)).
    destruct (pack_union pack ms p (Z.max mx q)). cbn [fst] in *. now apply Forall_app.
  - revert p. induction ms as [|m ms IHm]; intros p; cbn [pack_seq]; [constructor|].
    pose proof (IH m (or_introl eq_refl) p) as H. destruct (pack m p) as [l q].
    specialize (IHm (fun k h => IH k (or_intror h)) q).
    destruct (pack_seq pack ms q). cbn [fst] in *. now apply Forall_app.
  - revert p. induction (Z.to_nat n) as [|k IHk]; intros p; cbn [pack_times]; [constructor|].
    pose proof (IH e (or_introl eq_refl) p) as H. destruct (pack e p) as [l q].
    specialize (IHk q). destruct (pack_times (pack e) k q). cbn [fst] in *. now apply Forall_app.
Qed.

Lemma eightbytes_plain : forall l s, Forall plain l -> no_sseup (map (eightbyte l) s).
Proof.
  intros l s H. unfold no_sseup. apply Forall_map. apply Forall_forall. intros i _.
  now apply eightbyte_plain.
Qed.

(** ** C34 *)

Lemma classify_agg_eq : forall T, conforming T = true -> 0 < abi_size T ->
  let n := Z.to_nat (roundup (abi_size T) 8 / 8) in
  classify_agg T = Some (if 64 <? abi_size T then InMemory
                         else cleanup (map (eightbyte (fst (pack T 0))) (seq 0 n))) /\
  abi_size T <= 8 * Z.of_nat n.
Proof.
  intros T C P n. destruct (conforming_parts T C) as (V & _). destruct (own_abi T V) as (LS & _).
  destruct (walk_classes T C P) as (s & E & Es & En & B). fold n in En.
  split; [|rewrite En in B; exact B].
  unfold classify_agg.
  assert (LA : laligned T = true).
  { unfold laligned. destruct (aligned_ok T C) as (H1 & H2). destruct (talign (root T) =? 0) eqn:E0; auto. }
  rewrite LA. cbn [negb]. rewrite orb_false_r. rewrite E, Es, En, LS.
  destruct (64 <? abi_size T); [reflexivity|]. f_equal. apply postmerger_ok.
  apply eightbytes_plain, pack_plain.
Qed.

(** Classification of a conforming aggregate never fails, whatever its nesting. *)
Theorem c34_total : forall T, conforming T = true -> 0 < abi_size T ->
  exists k, classify_agg T = Some k.
Proof. intros T C P. destruct (classify_agg_eq T C P) as (E & _). eauto. Qed.

(** Aggregates of more than two eightbytes are in memory, as the ABI asks (there are
    no vector members). *)
Theorem c34_large : forall T, conforming T = true -> 16 < abi_size T ->
  classify_agg T = Some (abi_class T) /\ abi_class T = InMemory.
Proof.
  intros T C P. destruct (classify_agg_eq T C ltac:(lia)) as (E & B).
  assert (A : abi_class T = InMemory).
  { unfold abi_class. destruct (64 <? abi_size T); [reflexivity|].
    apply large_in_memory; [apply eightbytes_plain, items_plain|].
    unfold eightbytes. rewrite map_length, seq_length. lia. }
  split; [|exact A]. rewrite A, E. destruct (64 <? abi_size T); [reflexivity|]. f_equal.
  apply large_in_memory; [apply eightbytes_plain, pack_plain|]. rewrite map_length, seq_length. lia.
Qed.

(** The classes are those of the ABI for every aggregate whose members are scalars,
    runs of bit-fields, arrays of them, or nested aggregates without trailing padding
    that begin with their most aligned member.  Missing for the full property: other
    nested aggregates of at most 16 bytes, for which it is false (below). *)
Theorem c34_classes_partial : forall T, conforming T = true -> is_aggregate T = true ->
  0 < abi_size T -> members_tight T = true ->
  classify_agg T = Some (abi_class T).
Proof.
  intros T C Ag P Ti. destruct (Z_le_gt_dec (abi_size T) 16) as [H|H].
  - destruct (classify_agg_eq T C P) as (E & _). rewrite E. unfold abi_class, eightbytes.
    now rewrite (top_packed T C Ag Ti H).
  - apply c34_large; auto. lia.
Qed.

(** In particular when no aggregate is nested in it except arrays of scalars. *)
Fixpoint scalar_or_array (T : tree) : bool :=
  match T with
  | TLeaf _ _ _ => true
  | TAgg _ _ _ => false
  | TArr a n e => (0 <? n) && (a =? 0) && negb (is_bits e) && scalar_or_array e
  end.

Lemma scalar_or_array_tight : forall T, scalar_or_array T = true -> tight T = true.
Proof.
  induction T as [T IH] using tree_ind2. intros H.
  destruct T as [c a q|un a ms|a n e]; cbn [scalar_or_array tight] in *; [reflexivity|discriminate|].
  apply andb_true_iff in H as [H H4]. apply andb_true_iff in H as [H H3].
  apply andb_true_iff in H as [H1 H2]. rewrite H1, H3, (IH e (or_introl eq_refl) H4).
  assert (E : abi_align (TArr a n e) = abi_align e)
    by (unfold abi_align at 1, eff_align; cbn [root talign]; now rewrite H2).
  rewrite E, Z.eqb_refl. reflexivity.
Qed.

Corollary c34_classes_flat : forall T, conforming T = true -> is_aggregate T = true ->
  0 < abi_size T -> forallb scalar_or_array (kids T) = true ->
  classify_agg T = Some (abi_class T).
Proof.
  intros T C Ag P H. apply c34_classes_partial; auto. unfold members_tight.
  rewrite forallb_forall in *. intros k I. apply scalar_or_array_tight. auto.
Qed.

(** Non-trivial instances: struct { float x; int y; double z; } is INTEGER, SSE;
    struct { struct { long a; } s; float v[2]; } is INTEGER, SSE;
    union { long double x; char y; } is in memory; struct { long double x; } is X87, X87UP;
    struct { int a : 20; char c[9]; } has a bit-field run. *)
Definition ex_mixed := TAgg false 0 [TLeaf CFloat32 0 0; TLeaf CInt 0 0; TLeaf CFloat64 0 0].
Definition ex_nested := TAgg false 0 [TAgg false 0 [TLeaf CLong 0 0]; TArr 0 2 (TLeaf CFloat32 0 0)].
Definition ex_union_ld := TAgg true 0 [TLeaf CLongDouble 0 0; TLeaf CChar 0 0].
Definition ex_ld := TAgg false 0 [TLeaf CLongDouble 0 0].
Definition ex_bits := TAgg false 0 [TLeaf CBits 0 20; TArr 0 9 (TLeaf CChar 0 0)].
Example c34_example :
  (forall T, In T [ex_mixed; ex_nested; ex_union_ld; ex_ld; ex_bits] ->
     conforming T = true /\ is_aggregate T = true /\ 0 < abi_size T /\ members_tight T = true) /\
  abi_class ex_mixed = InQwords [Integer; Sse] /\
  abi_class ex_nested = InQwords [Integer; Sse] /\
  abi_class ex_union_ld = InMemory /\
  abi_class ex_ld = InQwords [X87; X87Up] /\
  abi_class ex_bits = InQwords [Integer; Integer].
Proof.
  split; [|repeat split].
  intros T I. cbn [In] in I. destruct I as [<- | [<- | [<- | [<- | [<- | []]]]]]; repeat split; reflexivity.
Qed.

(** The full property is false: struct { char a; struct { char b; int c; } s; float f; }
    has c at offset 8 and f at 12, so its second eightbyte is INTEGER (c and f); the
    packing ignores that s is 4-aligned, puts c at 4, and makes it SSE.  Caller and
    callee compiled by another compiler would use different registers.
    struct { struct { int a; char b; } s; char c; } has c at 8, but its second
    eightbyte gets no class at all. *)
Definition ex_misplaced :=
  TAgg false 0 [TLeaf CChar 0 0; TAgg false 0 [TLeaf CChar 0 0; TLeaf CInt 0 0]; TLeaf CFloat32 0 0].
Definition ex_padded :=
  TAgg false 0 [TAgg false 0 [TLeaf CInt 0 0; TLeaf CChar 0 0]; TLeaf CChar 0 0].
Theorem c34_nested_refuted :
  (conforming ex_misplaced = true /\ abi_size ex_misplaced = 16 /\
   abi_class ex_misplaced = InQwords [Integer; Integer] /\
   classify_agg ex_misplaced = Some (InQwords [Integer; Sse])) /\
  (conforming ex_padded = true /\ abi_size ex_padded = 12 /\
   abi_class ex_padded = InQwords [Integer; Integer] /\
   classify_agg ex_padded = Some (InQwords [Integer; NoClass])).
Proof. repeat split; reflexivity. Qed.

Print Assumptions c34_total.
Print Assumptions c34_large.
Print Assumptions c34_classes_partial.
Print Assumptions c34_classes_flat.
Print Assumptions c34_nested_refuted.
