(** * C48: automatic objects that are alive together never share storage *)
From Coq Require Import ZArith Lia Bool List.
From Verif Require Import IrType PropIrType LayoutModel PropLayout FrameModel FrameProofs.
Import ListNotations.
Open Scope Z_scope.

(** ** Specification *)

(** The object [k] of the block reached from the function through the blocks [path]. *)
Fixpoint object (s : scope) (path : list nat) (k : nat) : option tree :=
  match s with
  | Scope autos blocks =>
    match path with
    | [] => nth_error autos k
    | j :: path => match nth_error blocks j with Some c => object c path k | None => None end
    end
  end.

(** Execution is in the block [here]; an object is alive while the execution of its block has not ended, and an
    enclosed block does not end it (C17 6.2.4p6). *)
Definition alive (here path : list nat) : Prop := exists rest, here = path ++ rest.

Definition disjoint (o1 s1 o2 s2 : Z) : Prop := o1 + s1 <= o2 \/ o2 + s2 <= o1.

(** The types of all objects have a property. *)
Definition all_objects (Q : tree -> Prop) (s : scope) : Prop := forall path k T, object s path k = Some T -> Q T.

(** ** From the vector to the objects *)

Lemma all_objects_here : forall Q autos blocks, all_objects Q (Scope autos blocks) -> forall T, In T autos -> Q T.
Proof. intros Q autos blocks H T I. apply In_nth_error in I as (k & E). exact (H [] k T E). Qed.

Lemma all_objects_block : forall Q autos blocks, all_objects Q (Scope autos blocks) -> forall c, In c blocks -> all_objects Q c.
Proof.
  intros Q autos blocks H c I path k T E. apply In_nth_error in I as (j & Ej). apply (H (j :: path) k T). cbn. now rewrite Ej.
Qed.

Lemma all_objects_imp : forall (Q R : tree -> Prop) s, (forall T, Q T -> R T) -> all_objects Q s -> all_objects R s.
Proof. intros Q R s H A path k T E. eauto. Qed.

Lemma all_objects_wf : forall s, all_objects (fun T => wf T = true) s -> scope_wf s.
Proof.
  induction s as [autos blocks IH] using scope_ind2. intros H. cbn [scope_wf]. split.
  - exact (all_objects_here _ _ _ H).
  - pose proof (all_objects_block _ _ _ H) as K. clear H. induction blocks as [|c bs IHb]; [exact I|]. cbn. split.
    + apply IH; [now left|]. apply K. now left.
    + apply IHb; intros; [apply IH|apply K]; try assumption; now right.
Qed.

(** The tree read from the vector inherits what aggregates inherit from their members. *)
Lemma reads_inherit : forall Q : tree -> Prop,
  (forall un ms, (forall m, In m ms -> Q m) -> Q (TAgg un 0 ms)) ->
  (forall n st ts rest, reads n st ts rest -> (forall c, In c st -> all_objects Q c) -> forall T, In T ts -> Q T) /\
  (forall s st T rest, reads_one s st T rest -> all_objects Q s -> (forall c, In c st -> all_objects Q c) -> Q T).
Proof.
  intros Q HQ.
  apply (reads_both
    (fun n st ts rest _ => (forall c, In c st -> all_objects Q c) -> forall T, In T ts -> Q T)
    (fun s st T rest _ => all_objects Q s -> (forall c, In c st -> all_objects Q c) -> Q T)).
  - intros st _ T [].
  - intros n _ T [].
  - intros n s st T st1 ts st2 R1 IH1 R2 IH2 H X [<-|I].
    + apply IH1; intros; apply H; [now left|now right].
    + apply IH2; [|exact I]. destruct (proj2 reads_used _ _ _ _ R1) as (u & ->).
      intros c Ic. apply H. right. apply in_or_app. now right.
  - intros autos blocks st B H _. apply HQ. exact (all_objects_here _ _ _ H).
  - intros autos blocks st kts st1 B R IH H Hst. apply HQ. intros m I. apply in_app_or in I as [I|[<-|[]]].
    + exact (all_objects_here _ _ _ H m I).
    + apply HQ. apply IH. intros c Ic. apply in_app_or in Ic as [Ic|Ic]; [|auto].
      apply filter_In in Ic as [Ic _]. exact (all_objects_block _ _ _ H c Ic).
Qed.

Lemma valid_agg : forall un ms, wf (TAgg un 0 ms) = true -> (forall m, In m ms -> valid m = true) -> valid (TAgg un 0 ms) = true.
Proof.
  intros un ms W H. cbn [valid]. rewrite !andb_true_iff. split; [split|].
  - unfold lwf. rewrite W. cbn [andb codes_ok]. apply forallb_forall. intros m I.
    pose proof (valid_lwf m (H m I)) as L. now apply andb_true_iff in L as [_ L].
  - reflexivity.
  - now apply forallb_forall.
Qed.

Lemma valid_wf : forall T, valid T = true -> wf T = true.
Proof. intros T V. apply lwf_wf, valid_lwf, V. Qed.

(** One tree stands for the whole function. *)
Lemma function_tree : forall s v0, empty s = false -> all_objects (fun T => valid T = true) s ->
  exists T, reads_one s [] T [] /\ laid s 0 T /\ valid T = true /\ nodes (local_type s) = 1%nat /\
    type_layout (local_type s) v0 = type_layout (flats [T]) v0.
Proof.
  intros s v0 E V.
  pose proof (all_objects_wf s (all_objects_imp _ _ s valid_wf V)) as W.
  destruct (whole_function s E W) as (T & R & P & L & D). exists T.
  assert (WT : wf T = true) by (inversion P; assumption).
  assert (VT : valid T = true).
  { refine (proj2 (reads_inherit (fun X => wf X = true -> valid X = true) _) _ _ _ _ R _ (fun _ h => match h with end) WT).
    - intros un ms H Wa. apply valid_agg; [exact Wa|]. intros m I. apply H; [exact I|]. eapply wf_kids; [exact Wa|exact I].
    - exact (all_objects_imp _ _ s (fun X h _ => h) V). }
  rewrite local_type_eq.
  destruct (type_layout_reps (gen s) [T] v0 P) as (N & TL).
  { rewrite fsize_cons, fsize_nil. lia. }
  { cbn. rewrite andb_true_r. pose proof (valid_lwf T VT) as X. now apply andb_true_iff in X as [_ X]. }
  repeat split; auto. rewrite TL. symmetry. apply type_layout_ok. intros X [<-|[]]. exact VT.
Qed.

Lemma places_kid : forall n ts b i un al l1 m l2, (fsize ts <= n)%nat ->
  In (i, TAgg un al (l1 ++ m :: l2)) (places_list b ts) -> In ((i + 1 + fsize l1)%nat, m) (places_list b ts).
Proof.
  assert (A : forall l1 m l2 k, In ((k + fsize l1)%nat, m) (places_list k (l1 ++ m :: l2))).
  { induction l1 as [|x l1 IH]; intros m l2 k; cbn [app places_list]; apply in_or_app.
    - left. rewrite fsize_nil, Nat.add_0_r, places_eq. now left.
    - right. rewrite fsize_cons, Nat.add_assoc. apply IH. }
  induction n as [|n IH]; intros ts b i un al l1 m l2 Hn I; (destruct ts as [|x ts]; [destruct I|]);
    rewrite fsize_cons, (tsize_eq x) in Hn; [lia|].
  cbn [places_list] in *. apply in_or_app. apply in_app_or in I as [I|I].
  - left. rewrite places_eq in *. destruct I as [E|I].
    + injection E as <- ->. right. apply A.
    + right. eapply IH; [|exact I]. lia.
  - right. eapply IH; [|exact I]. lia.
Qed.

Lemma var_positions_nth : forall autos b k T, nth_error autos k = Some T ->
  nth_error (var_positions b autos) k = Some (b + fsize (firstn k autos))%nat.
Proof.
  induction autos as [|x autos IH]; intros b [|k] T E; try discriminate E; cbn [var_positions nth_error firstn].
  - now rewrite fsize_nil, Nat.add_0_r.
  - rewrite (IH _ _ _ E), fsize_cons. f_equal. lia.
Qed.

Lemma lays_of_nth : forall blocks p j c, nth_error blocks j = Some c ->
  nth_error (lays_of blocks p) j = Some (lay_of c (p + length (flat_map gen (firstn j blocks)))).
Proof.
  induction blocks as [|x bs IH]; intros p [|j] c E; try discriminate E; cbn [lays_of nth_error firstn flat_map].
  - injection E as <-. now rewrite Nat.add_0_r.
  - rewrite (IH _ _ _ E), app_length. do 2 f_equal. lia.
Qed.

Lemma split_at : forall (A : Type) (l : list A) k x, nth_error l k = Some x -> l = firstn k l ++ x :: skipn (S k) l.
Proof.
  induction l as [|a l IH]; intros [|k] x E; try discriminate E; cbn.
  - now injection E as ->.
  - f_equal. now apply IH.
Qed.

Lemma object_nonempty : forall s path k T, object s path k = Some T -> empty s = false.
Proof.
  induction s as [autos blocks IH] using scope_ind2. intros [|j path] k T E; cbn [object] in E.
  - destruct autos; [destruct k; discriminate E|reflexivity].
  - destruct (nth_error blocks j) as [c|] eqn:N; [|discriminate E]. apply nth_error_In in N.
    pose proof (IH c N path k T E) as Ec. apply not_empty_scope.
    destruct (forallb empty blocks) eqn:F; [|reflexivity]. rewrite forallb_forall in F. rewrite (F c N) in Ec. discriminate Ec.
Qed.

(** ** Offsets *)

Section OFFSETS.
  Variable root : tree.
  Variable v0 v : vec.
  Hypothesis Vroot : valid root = true.
  Hypothesis Hv : type_layout (flats [root]) v0 = Some v.

  Let Vts : forall T, In T [root] -> valid T = true.
  Proof. intros T [<-|[]]. exact Vroot. Qed.

  Lemma placed_valid : forall i T, In (i, T) (places_list 0 [root]) -> valid T = true.
  Proof. intros i T I. eapply places_valid; [apply le_n|exact Vts|exact I]. Qed.

  Lemma placed_kid : forall i un al l1 m l2, In (i, TAgg un al (l1 ++ m :: l2)) (places_list 0 [root]) ->
    In ((i + 1 + fsize l1)%nat, m) (places_list 0 [root]).
  Proof. intros. eapply places_kid; [apply le_n|eassumption]. Qed.

  Lemma struct_offset : forall i al l1 m l2, In (i, TAgg false al (l1 ++ m :: l2)) (places_list 0 [root]) ->
    l_off (v (i + 1 + fsize l1)%nat) = abi_offset l1 m.
  Proof. intros. now apply (proj1 (c33_member_offsets _ _ _ Vts Hv)) with (1 := H). Qed.

  Lemma union_offset : forall i al l1 m l2, In (i, TAgg true al (l1 ++ m :: l2)) (places_list 0 [root]) ->
    l_off (v (i + 1 + fsize l1)%nat) = 0.
  Proof. intros. now apply (proj1 (proj2 (c33_member_offsets _ _ _ Vts Hv))) with (1 := H). Qed.

  Lemma abi_align0 : forall un ms, abi_align (TAgg un 0 ms) = snd (abi (TAgg un 0 ms)).
  Proof. reflexivity. Qed.

  Lemma inunion_facts : forall b kts p Tc, inunion b kts p Tc -> forall i, b = (i + 1)%nat ->
    In (i, TAgg true 0 kts) (places_list 0 [root]) ->
    In (p, Tc) (places_list 0 [root]) /\ l_off (v p) = 0 /\ abi_size Tc <= abi_size (TAgg true 0 kts) /\
    abi_align Tc <= abi_align (TAgg true 0 kts).
  Proof.
    intros b kts p Tc H. induction H as [b l1 T l2|b l1 autos kts l2 p T H IH]; intros i -> I.
    - pose proof (placed_valid _ _ I) as V. destruct (c33_union_covers_its_members 0 l1 T l2 V) as (S1 & _ & S2).
      split; [eapply placed_kid; exact I|]. split; [eapply union_offset; exact I|]. split; [exact S1|]. rewrite abi_align0. exact S2.
    - pose proof (placed_valid _ _ I) as V.
      destruct (c33_union_covers_its_members 0 l1 (TAgg false 0 (autos ++ [TAgg true 0 kts])) l2 V) as (S1 & _ & S2).
      pose proof (placed_kid _ _ _ _ _ _ I) as I1. pose proof (placed_valid _ _ I1) as V1.
      pose proof (c33_structure_members_ordered_aligned_inside 0 autos (TAgg true 0 kts) [] V1) as X. cbn zeta in X.
      destruct X as (X1 & _ & _ & X4 & _ & X6).
      pose proof (placed_kid _ _ _ _ _ _ I1) as I2.
      destruct (IH _ eq_refl I2) as (J1 & J2 & J3 & J4).
      split; [exact J1|]. split; [exact J2|]. rewrite abi_align0 in *. lia.
  Qed.

  (** A block: where it is in the union of the blocks of its parent. *)
  Lemma block_facts : forall autos blocks b T j c, laid (Scope autos blocks) b T ->
    In (b, T) (places_list 0 [root]) -> nth_error blocks j = Some c -> empty c = false ->
    let p := (b + 1 + fsize autos + 1 + length (flat_map gen (firstn j blocks)))%nat in
    exists kts Tc, T = TAgg false 0 (autos ++ [TAgg true 0 kts]) /\ laid c p Tc /\ In (p, Tc) (places_list 0 [root]) /\
      l_off (v (b + 1 + fsize autos)%nat) = abi_offset autos (TAgg true 0 kts) /\ l_off (v p) = 0 /\
      forallb empty blocks = false /\
      abi_size Tc <= abi_size (TAgg true 0 kts) /\ abi_align Tc <= abi_align (TAgg true 0 kts).
  Proof.
    intros autos blocks b T j c L I N Ec p. inversion L as [a bs b' B|a bs b' kts B H]; subst.
    - exfalso. rewrite forallb_forall in B. rewrite (B c (nth_error_In _ _ N)) in Ec. discriminate Ec.
    - destruct (H _ _ _ (split_at _ _ _ _ N) Ec) as (Tc & U & D). exists kts, Tc. split; [reflexivity|]. split; [exact D|].
      pose proof (placed_kid _ _ _ _ _ _ I) as I1.
      destruct (inunion_facts _ _ _ _ U _ eq_refl I1) as (J1 & J2 & J3 & J4).
      split; [exact J1|]. split; [eapply struct_offset; exact I|]. split; [exact J2|]. split; [exact B|]. now split.
  Qed.

  Lemma struct_of_laid : forall autos blocks b T k O, laid (Scope autos blocks) b T -> nth_error autos k = Some O ->
    exists l2, T = TAgg false 0 (firstn k autos ++ O :: l2) /\
      (forall kts, T = TAgg false 0 (autos ++ [TAgg true 0 kts]) -> l2 = skipn (S k) autos ++ [TAgg true 0 kts]) /\
      exists l3, l2 = skipn (S k) autos ++ l3.
  Proof.
    intros autos blocks b T k O L N. pose proof (split_at _ _ _ _ N) as S1.
    inversion L as [a bs b' B|a bs b' kts B H]; subst.
    - exists (skipn (S k) autos). split; [now rewrite <- S1|]. split; [|exists []; now rewrite app_nil_r].
      intros kts E. injection E as E. apply (f_equal (@length tree)) in E. rewrite app_length in E. cbn in E. lia.
    - exists (skipn (S k) autos ++ [TAgg true 0 kts]). split; [|split; [|eauto]].
      + f_equal. rewrite S1 at 1. rewrite <- app_assoc. reflexivity.
      + intros kts' E. injection E as E. apply app_inj_tail in E as [_ E]. injection E as ->. reflexivity.
  Qed.

  (** Every object is inside its block. *)
  Lemma object_inside : forall path s b T k O l, laid s b T -> In (b, T) (places_list 0 [root]) ->
    lay_of s b = Some l -> object s path k = Some O ->
    exists o, object_offset v l path k = Some (l_off (v b) + o) /\ 0 <= o /\ o + abi_size O <= abi_size T /\
      abi_align O <= abi_align T /\ (exists i, In (i, O) (places_list 0 [root])) /\
      ((forall i X, In (i, X) (places_list 0 [root]) -> is_pow2 (abi_align X)) -> is_bits O = false -> (abi_align O | o)).
  Proof.
    induction path as [|j path IH]; intros [autos blocks] b T k O l L I E Ob; rewrite lay_of_eq in E;
      rewrite (object_nonempty _ _ _ _ Ob) in E; injection E as <-; cbn [object] in Ob.
    - cbn [object_offset]. rewrite (var_positions_nth _ _ _ _ Ob).
      destruct (struct_of_laid _ _ _ _ _ _ L Ob) as (l2 & -> & _).
      exists (abi_offset (firstn k autos) O). rewrite (struct_offset _ _ _ _ _ I). split; [reflexivity|].
      pose proof (c33_structure_members_ordered_aligned_inside _ _ _ _ (placed_valid _ _ I)) as X. cbn zeta in X.
      destruct X as (X1 & X2 & _ & X4 & _ & X6). repeat split; auto. eexists. eapply placed_kid. exact I.
    - destruct (nth_error blocks j) as [c|] eqn:N; [|discriminate Ob].
      pose proof (object_nonempty _ _ _ _ Ob) as Ec.
      destruct (block_facts _ _ _ _ _ _ L I N Ec) as (kts & Tc & -> & Lc & Ic & Uo & Po & B & Sz & Al).
      cbn [object_offset]. rewrite B, (lays_of_nth _ _ _ _ N).
      destruct (lay_of c _) as [lc|] eqn:Lo.
      2:{ destruct c as [a bs]. rewrite lay_of_eq, Ec in Lo. discriminate Lo. }
      destruct (IH c _ Tc k O lc Lc Ic Lo Ob) as (o & Eo & O1 & O2 & O3 & (io & Io) & O4). rewrite Eo, Po, Uo.
      exists (abi_offset autos (TAgg true 0 kts) + o). split; [f_equal; lia|].
      pose proof (c33_structure_members_ordered_aligned_inside _ _ _ _ (placed_valid _ _ I)) as X. cbn zeta in X.
      destruct X as (X1 & X2 & _ & X4 & _ & X6). rewrite abi_align0 in *. split; [lia|]. split; [lia|]. split; [lia|]. split; [eauto|].
      intros Hp Hb. apply Z.divide_add_r; [|now apply O4]. eapply Z.divide_trans; [|now apply X2].
      pose proof (placed_kid _ _ _ _ _ _ I) as I1.
      apply pow2_div; [exact (Hp _ _ Io)|exact (Hp _ _ I1)|exact (Z.le_trans _ _ _ O3 Al)].
  Qed.

  (** An object and an object of the same or an enclosed block are disjoint. *)
  Lemma objects_disjoint : forall path rest s b T k1 k2 O1 O2 l o1 o2, laid s b T -> In (b, T) (places_list 0 [root]) ->
    lay_of s b = Some l -> object s path k1 = Some O1 -> object s (path ++ rest) k2 = Some O2 ->
    (rest = [] -> k1 <> k2) ->
    object_offset v l path k1 = Some o1 -> object_offset v l (path ++ rest) k2 = Some o2 ->
    disjoint o1 (abi_size O1) o2 (abi_size O2).
  Proof.
    induction path as [|j path IH]; intros rest [autos blocks] b T k1 k2 O1 O2 l o1 o2 L I E Ob1 Ob2 NE F1 F2.
    - cbn [app] in *.
      destruct (object_inside rest _ _ _ _ _ _ L I E Ob2) as (x2 & G2 & P2 & Q2 & _).
      destruct (object_inside [] _ _ _ _ _ _ L I E Ob1) as (x1 & G1 & P1 & Q1 & _).
      rewrite lay_of_eq in E. rewrite (object_nonempty _ _ _ _ Ob1) in E. injection E as <-.
      cbn [object] in Ob1. cbn [object_offset] in F1. rewrite (var_positions_nth _ _ _ _ Ob1) in F1.
      destruct (struct_of_laid _ _ _ _ _ _ L Ob1) as (m1 & ET & X1 & m1' & Em1). pose proof I as I'. rewrite ET in I'.
      rewrite (struct_offset _ _ _ _ _ I') in F1. injection F1 as <-.
      destruct rest as [|j rest].
      + cbn [object] in Ob2. cbn [object_offset] in F2. rewrite (var_positions_nth _ _ _ _ Ob2) in F2.
        destruct (struct_of_laid _ _ _ _ _ _ L Ob2) as (m2 & ET2 & X2 & m2' & Em2). pose proof I as I2. rewrite ET2 in I2.
        rewrite (struct_offset _ _ _ _ _ I2) in F2. injection F2 as <-. specialize (NE eq_refl).
        assert (Ord : forall ka kb Oa Ob m m', nth_error autos ka = Some Oa -> nth_error autos kb = Some Ob -> (ka < kb)%nat ->
          T = TAgg false 0 (firstn ka autos ++ Oa :: m) -> m = skipn (S ka) autos ++ m' ->
          abi_offset (firstn ka autos) Oa + abi_size Oa <= abi_offset (firstn kb autos) Ob).
        { intros ka kb Oa Obb m m' Na Nb Lt Et Em. pose proof I as I3. rewrite Et in I3.
          pose proof (c33_structure_members_ordered_aligned_inside _ _ _ _ (placed_valid _ _ I3)) as X. cbn zeta in X.
          destruct X as (_ & _ & X & _).
          assert (Sk : skipn (S ka) autos = firstn (kb - S ka) (skipn (S ka) autos) ++ Obb :: skipn (S (kb - S ka)) (skipn (S ka) autos)).
          { apply split_at. rewrite <- Nb. replace kb with (S ka + (kb - S ka))%nat at 2 by lia. generalize (kb - S ka)%nat as q. clear.
            revert ka. induction autos as [|a l IH]; intros ka q; [destruct q; reflexivity|]. destruct ka; [reflexivity|].
            exact (IH ka q). }
          assert (Fk : firstn kb autos = firstn ka autos ++ Oa :: firstn (kb - S ka) (skipn (S ka) autos)).
          { clear -Na Lt. revert ka kb Na Lt. induction autos as [|a l IH]; intros [|ka] [|kb] Na Lt; try lia; try discriminate Na;
              cbn [firstn skipn Nat.sub app].
            - injection Na as ->. now rewrite Nat.sub_0_r.
            - f_equal. apply IH; [exact Na|lia]. }
          rewrite Fk. apply (X _ _ (skipn (S (kb - S ka)) (skipn (S ka) autos) ++ m')). rewrite Em, Sk at 1.
          rewrite <- app_assoc. reflexivity. }
        unfold disjoint. destruct (Nat.lt_total k1 k2) as [Lt|[Eq|Lt]]; [left|congruence|right].
        * pose proof (Ord _ _ _ _ _ _ Ob1 Ob2 Lt ET Em1). lia.
        * pose proof (Ord _ _ _ _ _ _ Ob2 Ob1 Lt ET2 Em2). lia.
      + cbn [object] in Ob2. destruct (nth_error blocks j) as [c|] eqn:N; [|discriminate Ob2].
        pose proof (object_nonempty _ _ _ _ Ob2) as Ec.
        destruct (block_facts _ _ _ _ _ _ L I N Ec) as (kts & Tc & EB & Lc & Ic & Uo & Po & B & Sz & Al).
        cbn [object_offset] in F2. rewrite B, (lays_of_nth _ _ _ _ N) in F2.
        destruct (lay_of c _) as [lc|] eqn:Lo; [|discriminate F2].
        destruct (object_inside rest _ _ _ _ _ _ Lc Ic Lo Ob2) as (o & Eo & R1 & R2 & _). rewrite Eo, Po, Uo in F2. injection F2 as <-.
        pose proof (X1 kts EB) as Em. rewrite Em in I'.
        pose proof (c33_structure_members_ordered_aligned_inside _ _ _ _ (placed_valid _ _ I')) as X. cbn zeta in X.
        destruct X as (_ & _ & X & _). specialize (X _ _ _ eq_refl).
        rewrite <- (split_at _ _ _ _ Ob1) in X. left. lia.
    - cbn [app object] in *. destruct (nth_error blocks j) as [c|] eqn:N; [|discriminate Ob1].
      pose proof (object_nonempty _ _ _ _ Ob1) as Ec.
      destruct (block_facts _ _ _ _ _ _ L I N Ec) as (kts & Tc & EB & Lc & Ic & Uo & Po & B & Sz & Al).
      rewrite lay_of_eq in E. rewrite (not_empty_scope _ _ B) in E. injection E as <-.
      cbn [object_offset] in F1, F2. rewrite B, (lays_of_nth _ _ _ _ N) in F1, F2.
      destruct (lay_of c _) as [lc|] eqn:Lo; [|discriminate F1].
      destruct (object_offset v lc path k1) as [y1|] eqn:Y1; [|discriminate F1].
      destruct (object_offset v lc (path ++ rest) k2) as [y2|] eqn:Y2; [|discriminate F2].
      injection F1 as <-. injection F2 as <-.
      pose proof (IH rest _ _ _ _ _ _ _ _ _ _ Lc Ic Lo Ob1 Ob2 NE Y1 Y2) as D. unfold disjoint in *. lia.
  Qed.
End OFFSETS.

Lemma places_closed : forall (Q : tree -> bool), (forall T k, Q T = true -> In k (kids T) -> Q k = true) ->
  forall n ts b i X, (fsize ts <= n)%nat -> (forall T, In T ts -> Q T = true) -> In (i, X) (places_list b ts) -> Q X = true.
Proof.
  intros Q HQ. induction n as [|n IH]; intros ts b i X Hn W I; (destruct ts as [|x ts]; [destruct I|]);
    rewrite fsize_cons, (tsize_eq x) in Hn; [lia|].
  assert (Wx : Q x = true) by (apply W; now left).
  cbn [places_list] in I. apply in_app_or in I as [I|I].
  - rewrite places_eq in I. destruct I as [E|I].
    + injection E as <- <-. exact Wx.
    + eapply IH; [|intros T HT; exact (HQ x T Wx HT)|exact I]. lia.
  - apply (IH ts _ i X) with (3 := I); [lia|]. intros T HT. apply W. now right.
Qed.

Lemma pow2_kids : forall T k, pow2_aligned T = true -> In k (kids T) -> pow2_aligned k = true.
Proof.
  intros T k N Hk. destruct T as [c a p|un a ms|a n e]; cbn [kids pow2_aligned] in *; apply andb_true_iff in N as [_ N].
  - destruct Hk.
  - rewrite forallb_forall in N. auto.
  - destruct Hk as [<-|[]]. exact N.
Qed.

Lemma pow2_agg : forall un ms, (forall m, In m ms -> pow2_aligned m = true) -> pow2_aligned (TAgg un 0 ms) = true.
Proof. intros un ms H. cbn. apply forallb_forall. exact H. Qed.

Lemma root_offset : forall T v0 v, valid T = true -> type_layout (flats [T]) v0 = Some v -> l_off (v 0%nat) = 0.
Proof.
  intros T v0 v V E. rewrite type_layout_ok in E by (intros X [<-|[]]; exact V). injection E as <-.
  cbn [fill_list]. rewrite fill_root.
  pose proof (update_facts (comp0 true) (own T) T (is_bits_root T (valid_wf T V))) as U. cbn zeta in U.
  destruct U as (_ & _ & _ & _ & _ & U & _). rewrite U. cbn [comp0 c_agg c_off].
  destruct (is_bits T); [reflexivity|]. unfold pad_aligned. destruct (_ =? 0); [reflexivity|]. now rewrite Zmod_0_l.
Qed.

(** ** Objects of the same function *)

(** In any function whose objects have valid types, two different objects that are alive at the same point of the
    execution occupy disjoint bytes. *)
Theorem c48_alive_together_disjoint :
  forall s v0 here p1 k1 O1 p2 k2 O2, all_objects (fun T => valid T = true) s ->
  object s p1 k1 = Some O1 -> object s p2 k2 = Some O2 -> (p1, k1) <> (p2, k2) ->
  alive here p1 -> alive here p2 ->
  exists v l o1 o2, type_layout (local_type s) v0 = Some v /\ local_layout s = Some l /\
    object_offset v l p1 k1 = Some o1 /\ object_offset v l p2 k2 = Some o2 /\
    disjoint o1 (abi_size O1) o2 (abi_size O2).
Proof.
  intros s v0 here p1 k1 O1 p2 k2 O2 V B1 B2 NE (r1 & A1) (r2 & A2).
  pose proof (object_nonempty _ _ _ _ B1) as E.
  destruct (function_tree s v0 E V) as (T & _ & D & VT & _ & TL).
  destruct (c33_sizes_and_alignments [T] v0 ltac:(intros X [<-|[]]; exact VT)) as (v & Hv & _).
  assert (I : In (0%nat, T) (places_list 0 [T])) by (cbn [places_list]; rewrite places_eq; now left).
  destruct (local_layout s) as [l|] eqn:L.
  2:{ rewrite local_layout_eq in L. destruct s as [a bs]. rewrite lay_of_eq, E in L. discriminate L. }
  pose proof L as L'. rewrite local_layout_eq in L'.
  destruct (object_inside T v0 v VT Hv p1 s 0 T k1 O1 l D I L' B1) as (o1 & F1 & _).
  destruct (object_inside T v0 v VT Hv p2 s 0 T k2 O2 l D I L' B2) as (o2 & F2 & _).
  exists v, l, (l_off (v 0%nat) + o1), (l_off (v 0%nat) + o2).
  split; [now rewrite TL|]. split; [reflexivity|]. split; [exact F1|]. split; [exact F2|].
  assert (Pre : forall (a b c d : list nat), a ++ b = c ++ d -> (exists e, c = a ++ e) \/ (exists e, a = c ++ e)).
  { induction a as [|x a IH]; intros b c d X; [left; now exists c|]. destruct c as [|y c]; [right; now exists (x :: a)|].
    injection X as <- X. destruct (IH _ _ _ X) as [(e & ->)|(e & ->)]; [left|right]; now exists e. }
  rewrite A1 in A2. destruct (Pre _ _ _ _ A2) as [(e & ->)|(e & ->)].
  - eapply (objects_disjoint T v0 v VT Hv p1 e); eauto. intros -> ->. apply NE. now rewrite app_nil_r.
  - assert (X : disjoint (l_off (v 0%nat) + o2) (abi_size O2) (l_off (v 0%nat) + o1) (abi_size O1)).
    { eapply (objects_disjoint T v0 v VT Hv p2 e); eauto. intros -> ->. apply NE. now rewrite app_nil_r. }
    unfold disjoint in *. tauto.
Qed.

(** ** The frame *)

Lemma pad_ge : forall x a, 0 <= a -> x <= pad_aligned x a.
Proof.
  intros x a H. destruct (Z.eq_dec a 0) as [->|N]; [unfold pad_aligned; cbn; lia|].
  rewrite pad_roundup by lia. pose proof (roundup_ge x a). lia.
Qed.

Lemma pad_div : forall x a, 1 <= a -> (a | pad_aligned x a).
Proof. intros. rewrite pad_roundup by lia. apply roundup_mult. Qed.

Lemma pad16_ge : forall x, x <= pad_dqword x < x + 16.
Proof. intros. unfold pad_dqword. rewrite pad_roundup by lia. apply roundup_ge. lia. Qed.

Lemma pad16_div : forall x, (16 | pad_dqword x).
Proof. intros. apply pad_div. lia. Qed.

Definition temporary_ok (x : temporary) : Prop :=
  match x with ReturnValue s a | VarargGet s a => 0 <= s /\ 0 <= a end.
Definition temporary_size (x : temporary) : Z := match x with ReturnValue s _ | VarargGet s _ => s end.

Lemma temporaries_facts : forall temps p, (forall x, In x temps -> temporary_ok x) -> 0 <= fst p -> 0 <= snd p ->
  let q := fold_left update_temporaries temps p in
  fst p <= fst q /\ 0 <= snd q /\ forall x, In x temps -> temporary_size x <= fst q.
Proof.
  induction temps as [|x temps IH]; intros [s a] H H1 H2; cbn [fold_left] in *.
  - cbn [fst snd] in *. split; [lia|]. split; [lia|]. intros x [].
  - pose proof (H x (or_introl eq_refl)) as Hx. cbn [fst snd] in *.
    destruct (IH (update_temporaries (s, a) x)) as (A & B & C).
    + intros; apply H; now right.
    + destruct x; cbn; lia.
    + destruct x; cbn; lia.
    + assert (U1 : s <= fst (update_temporaries (s, a) x)) by (destruct x; cbn; lia).
      assert (U2 : temporary_size x <= fst (update_temporaries (s, a) x)) by (destruct x; cbn; lia).
      split; [lia|]. split; [exact B|]. intros y [<-|I]; [lia|auto].
Qed.

Lemma reserve_facts : forall params p, (forall x, In x params -> 0 <= fst x /\ 0 <= snd x) -> 0 <= snd p ->
  fst p <= fst (fold_left reserve params p) /\ snd p <= snd (fold_left reserve params p).
Proof.
  induction params as [|x params IH]; intros p H H0; cbn [fold_left]; [lia|].
  pose proof (H x (or_introl eq_refl)) as Hx.
  destruct (IH (reserve p x)) as (A & B); [intros; apply H; now right|cbn; lia|].
  unfold reserve in A at 1. unfold reserve in B at 1. cbn [fst snd] in *. pose proof (pad_ge (fst p) (Z.max (snd p) (snd x)) ltac:(lia)). lia.
Qed.

Definition inputs_ok (temps : list temporary) (params : list (Z * Z)) : Prop :=
  (forall x, In x temps -> temporary_ok x) /\ (forall x, In x params -> 0 <= fst x /\ 0 <= snd x).

(** The areas of the frame follow one another: the internal area (16 bytes), the temporaries, the parameters, the
    register save area of a variadic function (176 bytes), the locals. *)
Definition areas (temps : list temporary) (vararg : bool) (f : frame) : Prop :=
  16 <= fr_temporary f /\
  (forall x, In x temps -> fr_temporary f + temporary_size x <= fr_parameters f) /\
  fr_temporary f <= fr_parameters f <= fr_register_save_area f /\
  fr_register_save_area f + (if vararg then 176 else 0) <= fr_locals f /\
  fr_locals f <= fr_size f /\
  (16 | fr_parameters f) /\ (16 | fr_register_save_area f) /\ (16 | fr_locals f) /\ (16 | fr_size f).

Lemma frame_facts : forall temps params vararg locals, inputs_ok temps params ->
  (forall t v, locals = Some (t, v) -> exists sz al, 0 <= sz /\ 0 <= al /\
     forall p, list_nodes (frame_local_cb v) t 0 (nodes t) p = Some (reserve p (sz, al))) ->
  exists f, calculate_frame temps params vararg locals = Some f /\ areas temps vararg f /\
    forall t v sz al, locals = Some (t, v) -> 0 <= al ->
      (forall p, list_nodes (frame_local_cb v) t 0 (nodes t) p = Some (reserve p (sz, al))) -> fr_locals f + sz <= fr_size f.
Proof.
  intros temps params vararg locals (Ht & Hp) Hl. unfold calculate_frame.
  pose proof (temporaries_facts temps (0, 0) Ht ltac:(cbn; lia) ltac:(cbn; lia)) as X. cbn zeta in X.
  destruct (fold_left update_temporaries temps (0, 0)) as [tsz tal]. cbn [fst snd] in X. destruct X as (X1 & X2 & X3).
  pose proof (pad_ge 16 tal X2) as G1. pose proof (pad16_ge (pad_aligned 16 tal + tsz)) as G2.
  pose proof (reserve_facts params (pad_dqword (pad_aligned 16 tal + tsz), Z.max 8 tal) Hp ltac:(cbn; lia)) as Y.
  destruct (fold_left reserve params _) as [psz pal]. cbn [fst snd] in Y. destruct Y as (Y1 & Y2).
  pose proof (pad16_ge psz) as G3. pose proof (pad16_ge (pad_dqword psz + (8 * 6 + 16 * 8))) as G4.
  set (bl := if vararg then pad_dqword (pad_dqword psz + (8 * 6 + 16 * 8)) else pad_dqword psz) in *.
  assert (Dl : (16 | bl)) by (unfold bl; destruct vararg; apply pad16_div).
  assert (Gl : pad_dqword psz + (if vararg then 176 else 0) <= bl) by (unfold bl; destruct vararg; lia).
  assert (M : forall sz, bl <= sz -> (16 | sz) -> areas temps vararg
     {| fr_size := sz; fr_alignment := 0; fr_temporary := pad_aligned 16 tal; fr_parameters := pad_dqword (pad_aligned 16 tal + tsz);
        fr_register_save_area := pad_dqword psz; fr_locals := bl |}).
  { intros sz Hsz Dsz. unfold areas. cbn [fr_size fr_temporary fr_parameters fr_register_save_area fr_locals].
    split; [lia|]. split; [intros x I; pose proof (X3 x I); lia|]. split; [lia|]. split; [exact Gl|]. split; [exact Hsz|].
    split; [apply pad16_div|]. split; [apply pad16_div|]. now split. }
  destruct locals as [[t v]|].
  - destruct (Hl t v eq_refl) as (sz & al & S1 & S2 & S3). rewrite S3. unfold reserve at 1. cbn [fst snd].
    pose proof (pad_ge bl (Z.max pal al) ltac:(lia)) as G5.
    pose proof (pad16_ge (pad_aligned bl (Z.max pal al) + sz)) as G6.
    eexists. split; [reflexivity|]. split.
    + apply (M (pad_dqword (pad_aligned bl (Z.max pal al) + sz))); [lia|apply pad16_div].
    + intros t' v' sz' al' E Ha H. injection E as <- <-. cbn [fr_locals fr_size].
      pose proof (S3 (0, 0)) as Q1. rewrite H in Q1. unfold reserve in Q1. cbn [fst snd] in Q1. injection Q1 as Q1 Q2.
      replace (Z.max 0 al') with (Z.max 0 al) in Q1 by lia. lia.
  - eexists. split; [reflexivity|]. split; [apply (M bl); [lia|exact Dl]|]. intros t v sz al E. discriminate E.
Qed.

Lemma locals_node : forall s v0 v T, nodes (local_type s) = 1%nat -> valid T = true ->
  type_layout (flats [T]) v0 = Some v -> empty s = false ->
  forall p, list_nodes (frame_local_cb v) (local_type s) 0 (nodes (local_type s)) p = Some (reserve p (abi_size T, abi_align T)).
Proof.
  intros s v0 v T N V Hv E p. rewrite N, local_type_eq.
  destruct (c33_sizes_and_alignments [T] v0 ltac:(intros X [<-|[]]; exact V)) as (v' & Hv' & H).
  rewrite Hv in Hv'. injection Hv' as <-.
  destruct (H 0%nat T ltac:(cbn [places_list]; rewrite places_eq; now left)) as (Es & Ea).
  assert (G : exists e t, gen s = e :: t /\ (is_su e && (tparam e <=? 0))%bool = false).
  { destruct s as [autos blocks]. cbn [gen]. rewrite E. destruct (forallb empty blocks) eqn:B; eexists; eexists; (split; [reflexivity|]);
      apply andb_false_iff; right; cbn [aentry tparam]; [|lia].
    pose proof (nonempty_cases _ _ E B). destruct autos; [congruence|]. cbn [length]. lia. }
  destruct G as (e & t & G & P). unfold list_nodes. rewrite G. cbn [length Nat.leb visit_loop Nat.ltb nth_error].
  rewrite P. unfold frame_local_cb at 1. rewrite Es, Ea.
  match goal with |- (if ?c then _ else _) = _ => destruct c end; reflexivity.
Qed.

(** Every object lies inside the area of the locals, at an offset that is a multiple of its alignment. *)
Theorem c48_objects_inside_frame :
  forall s v0 temps params vararg path k O, all_objects (fun T => valid T = true) s -> inputs_ok temps params ->
  object s path k = Some O ->
  exists v l o f, type_layout (local_type s) v0 = Some v /\ local_layout s = Some l /\ object_offset v l path k = Some o /\
    calculate_frame temps params vararg (Some (local_type s, v)) = Some f /\ areas temps vararg f /\
    0 <= o /\ fr_locals f + o + abi_size O <= fr_size f /\
    (all_objects (fun T => pow2_aligned T = true) s -> is_bits O = false -> (abi_align O | o)).
Proof.
  intros s v0 temps params vararg path k O V Hi B.
  pose proof (object_nonempty _ _ _ _ B) as E.
  destruct (function_tree s v0 E V) as (T & R & D & VT & N & TL).
  destruct (c33_sizes_and_alignments [T] v0 ltac:(intros X [<-|[]]; exact VT)) as (v & Hv & _).
  assert (I : In (0%nat, T) (places_list 0 [T])) by (cbn [places_list]; rewrite places_eq; now left).
  destruct (local_layout s) as [l|] eqn:L.
  2:{ rewrite local_layout_eq in L. destruct s as [a bs]. rewrite lay_of_eq, E in L. discriminate L. }
  pose proof L as L'. rewrite local_layout_eq in L'.
  destruct (object_inside T v0 v VT Hv path s 0 T k O l D I L' B) as (o & F & O1 & O2 & _ & _ & O5).
  rewrite (root_offset T v0 v VT Hv), Z.add_0_l in F.
  pose proof (locals_node s v0 v T N VT Hv E) as LN.
  destruct (member_ok T VT) as (_ & _ & _ & P1 & P2).
  destruct (frame_facts temps params vararg (Some (local_type s, v)) Hi) as (f & Ff & A & K).
  { intros t v' X. injection X as <- <-. exists (abi_size T), (abi_align T). repeat split; [lia|lia|exact LN]. }
  exists v, l, o, f. split; [now rewrite TL|]. split; [reflexivity|]. split; [exact F|]. split; [exact Ff|]. split; [exact A|].
  split; [exact O1|]. split; [pose proof (K _ _ (abi_size T) (abi_align T) eq_refl ltac:(lia) LN); lia|].
  intros PA Hb. apply O5; [|exact Hb].
  assert (PT : pow2_aligned T = true).
  { exact (proj2 (reads_inherit (fun X => pow2_aligned X = true) pow2_agg) _ _ _ _ R PA (fun _ h => match h with end)). }
  intros i X IX. apply pow2_eff.
  - eapply (places_closed pow2_aligned pow2_kids); [apply le_n| |exact IX]. intros Y [<-|[]]. exact PT.
  - apply pow2_nat; [eapply placed_valid; [exact VT|exact IX]|].
    eapply (places_closed pow2_aligned pow2_kids); [apply le_n| |exact IX]. intros Y [<-|[]]. exact PT.
Qed.

(** The base of the frame is a multiple of 16 when the function is called as the ABI prescribes, so objects with
    alignments up to 16 are aligned. Missing: stronger alignments, see [c48_overaligned_refuted]. *)
Theorem c48_objects_aligned_partial :
  forall s v0 temps params vararg path k O entry, all_objects (fun T => valid T = true) s -> inputs_ok temps params ->
  all_objects (fun T => pow2_aligned T = true) s -> object s path k = Some O -> is_bits O = false ->
  abi_align O <= 16 -> (16 | entry + 8) ->
  exists v l o f, type_layout (local_type s) v0 = Some v /\ local_layout s = Some l /\ object_offset v l path k = Some o /\
    calculate_frame temps params vararg (Some (local_type s, v)) = Some f /\
    (abi_align O | frame_base entry f + fr_locals f + o) /\
    (16 | frame_base entry f + fr_register_save_area f).
Proof.
  intros s v0 temps params vararg path k O entry V Hi PA B Hb Al He.
  destruct (c48_objects_inside_frame s v0 temps params vararg path k O V Hi B) as (v & l & o & f & E1 & E2 & E3 & E4 & A & _ & _ & D).
  exists v, l, o, f. repeat (split; [assumption|]).
  destruct A as (_ & _ & _ & _ & _ & _ & A1 & A2 & A3).
  assert (Bd : (16 | frame_base entry f)).
  { unfold frame_base. replace (entry - 6 * 8 - 24 - fr_size f) with (entry + 8 - 16 * 5 - fr_size f) by lia.
    apply Z.divide_sub_r; [|exact A3]. apply Z.divide_sub_r; [exact He|apply Z.divide_factor_l]. }
  split; [|apply Z.divide_add_r; assumption].
  apply Z.divide_add_r; [|now apply D]. apply Z.divide_trans with 16; [|now apply Z.divide_add_r].
  apply pow2_div; [|exists 4; split; [lia|reflexivity]|exact Al].
  apply pow2_eff; [exact (PA _ _ _ B)|]. apply pow2_nat; [exact (V _ _ _ B)|exact (PA _ _ _ B)].
Qed.

(** ** Parameters passed in registers *)

Lemma pow2_max : forall a b, is_pow2 a -> is_pow2 b -> is_pow2 (Z.max a b).
Proof. intros a b A B. destruct (Z.max_spec a b) as [[_ ->]|[_ ->]]; assumption. Qed.

Lemma pow2_pos : forall a, is_pow2 a -> 1 <= a.
Proof. intros a (k & Hk & ->). pose proof (Z.pow_pos_nonneg 2 k ltac:(lia) Hk). lia. Qed.

Lemma pad_mono : forall x y a A, x <= y -> is_pow2 a -> is_pow2 A -> a <= A -> pad_aligned x a <= pad_aligned y A.
Proof.
  intros x y a A H Ha HA L. pose proof (pow2_pos a Ha). pose proof (pow2_pos A HA).
  pose proof (pow2_div a A Ha HA L) as D.
  pose proof (pad_ge y A ltac:(lia)). pose proof (pad_div y A ltac:(lia)) as DA.
  assert (Dy : (a | pad_aligned y A)) by (eapply Z.divide_trans; eauto).
  rewrite (pad_roundup x) by lia. pose proof (roundup_ge x a ltac:(lia)). pose proof (roundup_mult x a) as (q & Q).
  destruct Dy as (r & Rr). rewrite Rr in *. rewrite Q in *. assert (q <= r \/ r + 1 <= q) as [C|C] by lia; nia.
Qed.

(** Where the prologue puts the parameters, compared with the space reserved for them. *)
Lemma parameters_fit : forall params x y A, (forall p, In p params -> 0 <= fst p /\ is_pow2 (snd p)) -> is_pow2 A -> x <= y ->
  forall i s a o, nth_error params i = Some (s, a) -> nth_error (parameter_offsets x params) i = Some o ->
  x <= o /\ (a | o) /\ o + s <= fst (fold_left reserve params (y, A)) /\
  forall j s' a' o', (j < i)%nat -> nth_error params j = Some (s', a') -> nth_error (parameter_offsets x params) j = Some o' ->
    o' + s' <= o.
Proof.
  induction params as [|[s0 a0] params IH]; intros x y A H HA L i s a o N O; [destruct i; discriminate N|].
  pose proof (H _ (or_introl eq_refl)) as (H1 & H2). cbn [fst snd] in *.
  pose proof (pow2_max _ _ HA H2) as HM. pose proof (pow2_pos _ H2). pose proof (pow2_pos _ HA).
  pose proof (pad_mono x y a0 (Z.max A a0) L H2 HM ltac:(lia)) as PM.
  pose proof (pad_ge x a0 ltac:(lia)) as PG.
  cbn [fold_left parameter_offsets]. unfold reserve at 2. cbn [fst snd].
  destruct i as [|i]; cbn [nth_error] in *.
  - injection N as <- <-. cbn [parameter_offsets nth_error] in O. injection O as <-. split; [exact PG|]. split; [apply pad_div; lia|].
    split; [|intros; lia].
    pose proof (reserve_facts params (pad_aligned y (Z.max A a0) + s0, Z.max A a0)) as (R & _).
    + intros p I. destruct (H p (or_intror I)) as (A1 & A2). split; [exact A1|]. pose proof (pow2_pos _ A2). lia.
    + cbn. lia.
    + cbn [fst] in R. lia.
  - cbn [parameter_offsets nth_error] in O.
    destruct (IH (pad_aligned x a0 + s0) (pad_aligned y (Z.max A a0) + s0) (Z.max A a0) (fun p h => H p (or_intror h)) HM ltac:(lia) i s a o N O)
      as (B1 & B2 & B3 & B4).
    split; [lia|]. split; [exact B2|]. split; [exact B3|].
    intros [|j] s' a' o' Lt Nj Oj; cbn [nth_error] in *.
    + injection Nj as <- <-. injection Oj as <-. exact B1.
    + eapply B4; [|exact Nj|exact Oj]. lia.
Qed.

Definition only_results (temps : list temporary) : Prop :=
  forall x, In x temps -> exists s a, x = ReturnValue s a /\ 0 <= s /\ is_pow2 a.

Lemma results_pow2 : forall temps p, only_results temps -> is_pow2 (Z.max 8 (snd p)) ->
  is_pow2 (Z.max 8 (snd (fold_left update_temporaries temps p))).
Proof.
  induction temps as [|x temps IH]; intros [s a] H P; [exact P|]. cbn [fold_left]. apply IH; [intros y I; apply H; now right|].
  destruct (H x (or_introl eq_refl)) as (s' & a' & -> & _ & Pa). cbn [update_temporaries snd] in *.
  rewrite Z.max_assoc. now apply pow2_max.
Qed.

(** Parameters are stored in the area reserved for them, at aligned places, one after the other, when nothing but
    results of calls needs a temporary. Missing: functions that fetch aggregates from the variable arguments, see
    [c48_parameters_after_vararg_refuted]. *)
Theorem c48_parameters_inside_partial :
  forall temps params vararg locals f, only_results temps -> (forall p, In p params -> 0 <= fst p /\ is_pow2 (snd p)) ->
  calculate_frame temps params vararg locals = Some f ->
  forall i s a o, nth_error params i = Some (s, a) -> nth_error (parameter_offsets (fr_parameters f) params) i = Some o ->
  fr_parameters f <= o /\ (a | o) /\ o + s <= fr_register_save_area f /\
  forall j s' a' o', (j < i)%nat -> nth_error params j = Some (s', a') ->
    nth_error (parameter_offsets (fr_parameters f) params) j = Some o' -> o' + s' <= o.
Proof.
  intros temps params vararg locals f Ht Hp F i s a o N O. unfold calculate_frame in F.
  pose proof (results_pow2 temps (0, 0) Ht ltac:(exists 3; split; [lia|reflexivity])) as P.
  destruct (fold_left update_temporaries temps (0, 0)) as [tsz tal]. cbn [snd] in P.
  set (bp := pad_dqword (pad_aligned 16 tal + tsz)) in *.
  pose proof (parameters_fit params bp bp (Z.max 8 tal) Hp P ltac:(lia)) as Q.
  destruct (fold_left reserve params (bp, Z.max 8 tal)) as [psz pal]. cbn [fst] in Q.
  assert (X : fr_parameters f = bp /\ fr_register_save_area f = pad_dqword psz).
  { destruct locals as [[t v]|].
    - destruct (list_nodes _ _ _ _ _) as [[sz al]|]; [|discriminate F]. injection F as <-. now split.
    - injection F as <-. now split. }
  destruct X as (E1 & E2). rewrite E1 in *. rewrite E2. destruct (Q i s a o N O) as (Q1 & Q2 & Q3 & Q4).
  split; [exact Q1|]. split; [exact Q2|]. split; [pose proof (pad16_ge psz); lia|exact Q4].
Qed.

Lemma results_align : forall temps p, only_results temps -> (snd p = 0 \/ is_pow2 (snd p)) ->
  let q := snd (fold_left update_temporaries temps p) in
  (q = 0 \/ is_pow2 q) /\ snd p <= q /\ forall s a, In (ReturnValue s a) temps -> a <= q.
Proof.
  induction temps as [|x temps IH]; intros [sz al] H P; cbn [fold_left snd] in *.
  - split; [exact P|]. split; [lia|]. intros s a [].
  - destruct (H x (or_introl eq_refl)) as (s' & a' & -> & _ & Pa). pose proof (pow2_pos _ Pa).
    destruct (IH (update_temporaries (sz, al) (ReturnValue s' a'))) as (A & B & C).
    + intros y I. apply H. now right.
    + right. cbn [update_temporaries snd]. destruct P as [->|P]; [|now apply pow2_max]. now rewrite Z.max_r by lia.
    + cbn [update_temporaries snd] in *. split; [exact A|]. split; [lia|]. intros s a [E|I]; [injection E as <- <-; lia|eauto].
Qed.

(** The result of a call is stored at a multiple of its alignment. Missing: as above, see
    [c48_temporary_alignment_refuted]. *)
Theorem c48_results_aligned_partial :
  forall temps params vararg locals f, only_results temps -> calculate_frame temps params vararg locals = Some f ->
  forall s a, In (ReturnValue s a) temps -> (a | fr_temporary f).
Proof.
  intros temps params vararg locals f Ht F s a I. unfold calculate_frame in F.
  pose proof (results_align temps (0, 0) Ht (or_introl eq_refl)) as X. cbn zeta in X.
  destruct (fold_left update_temporaries temps (0, 0)) as [tsz tal]. cbn [snd] in X. destruct X as (X1 & X2 & X3).
  assert (E : fr_temporary f = pad_aligned 16 tal).
  { destruct (fold_left reserve params _) as [psz pal]. destruct locals as [[t v]|].
    - destruct (list_nodes _ _ _ _ _) as [[sz al]|]; [|discriminate F]. now injection F as <-.
    - now injection F as <-. }
  rewrite E. specialize (X3 s a I). destruct (Ht _ I) as (s' & a' & Ex & _ & Pa). injection Ex as <- <-.
  pose proof (pow2_pos _ Pa). destruct X1 as [->|X1]; [lia|].
  eapply Z.divide_trans; [apply pow2_div; [exact Pa|exact X1|exact X3]|]. apply pad_div. apply pow2_pos in X1. lia.
Qed.

(** ** Where the code is wrong *)

Definition v_any : vec := fun _ => mk 0 0 true.

(** [_Alignas(32) char x;]: the base of the frame and the area of the locals are multiples of 16 only. *)
Theorem c48_overaligned_refuted :
  exists s path k O entry, all_objects (fun T => valid T = true) s /\ all_objects (fun T => pow2_aligned T = true) s /\
    object s path k = Some O /\ is_bits O = false /\ (16 | entry + 8) /\
    forall v0, exists v l o f, type_layout (local_type s) v0 = Some v /\ local_layout s = Some l /\
      object_offset v l path k = Some o /\ calculate_frame [] [] false (Some (local_type s, v)) = Some f /\
      ~ (abi_align O | frame_base entry f + fr_locals f + o).
Proof.
  exists (Scope [TLeaf CChar 32 0] []), [], 0%nat, (TLeaf CChar 32 0), (1040 - 8).
  assert (A : forall Q : tree -> Prop, Q (TLeaf CChar 32 0) -> all_objects Q (Scope [TLeaf CChar 32 0] [])).
  { intros Q H [|j path] k T E; cbn [object] in E.
    - destruct k as [|[|k]]; try discriminate E. now injection E as <-.
    - destruct j; discriminate E. }
  split; [apply A; reflexivity|]. split; [apply A; reflexivity|]. split; [reflexivity|]. split; [reflexivity|].
  split; [exists 65; reflexivity|]. intros v0.
  eexists. eexists. eexists. eexists. split; [reflexivity|]. split; [reflexivity|]. split; [reflexivity|].
  split; [vm_compute; reflexivity|]. intros H. apply Z.mod_divide in H; [vm_compute in H; discriminate H|vm_compute; congruence].
Qed.

(** A variadic function that fetches a structure of nine bytes with va_arg: the size of the structure is taken for an
    alignment, and the space reserved for the parameters is too small. The last parameter overlaps the register save
    area. *)
Theorem c48_parameters_after_vararg_refuted :
  exists temps params f i s a o, inputs_ok temps params /\ (forall p, In p params -> is_pow2 (snd p)) /\
    calculate_frame temps params true None = Some f /\
    nth_error params i = Some (s, a) /\ nth_error (parameter_offsets (fr_parameters f) params) i = Some o /\
    o < fr_register_save_area f + 176 /\ fr_register_save_area f < o + s.
Proof.
  exists [VarargGet 9 1], [(9, 1); (8, 8); (9, 1); (8, 8); (9, 1); (8, 8)].
  eexists. exists 5%nat, 8, 8. eexists. split.
  { split.
    - intros x [<-|[]]. cbn. lia.
    - intros x H. cbn in H. intuition (subst; cbn; lia). }
  split.
  { assert (is_pow2 1) by (exists 0; split; [lia|reflexivity]). assert (is_pow2 8) by (exists 3; split; [lia|reflexivity]).
    intros x I. cbn in I. intuition (subst; assumption). }
  split; [vm_compute; reflexivity|]. split; [reflexivity|]. split; [vm_compute; reflexivity|].
  cbn [fr_register_save_area]. lia.
Qed.

(** The same mistake leaves the temporary area misaligned for a structure that contains a double or a long. *)
Theorem c48_temporary_alignment_refuted :
  exists temps f s a, inputs_ok temps [] /\ calculate_frame temps [] false None = Some f /\
    In (VarargGet s a) temps /\ is_pow2 a /\ ~ (a | fr_temporary f).
Proof.
  exists [VarargGet 8 8; VarargGet 9 1]. eexists. exists 8, 8.
  split; [split; [intros x [<-|[<-|[]]]; cbn; lia|intros x []]|]. split; [vm_compute; reflexivity|]. split; [now left|].
  split; [exists 3; split; [lia|reflexivity]|]. cbn [fr_temporary].
  intros H. apply Z.mod_divide in H; [vm_compute in H; discriminate H|lia].
Qed.

(** ** Examples *)

(** f(int a, double b) { char c; { long x[3]; char d; } { } { struct { char; int } e; { int g; } } } *)
Definition ex_scope : scope :=
  Scope [TLeaf CInt 0 0; TLeaf CFloat64 0 0; TLeaf CChar 0 0]
    [Scope [TArr 0 3 (TLeaf CLong 0 0); TLeaf CChar 0 0] [];
     Scope [] [];
     Scope [TAgg false 0 [TLeaf CChar 0 0; TLeaf CInt 0 0]] [Scope [TLeaf CInt 0 0] []]].

Fixpoint objects_ok (f : tree -> bool) (s : scope) : bool :=
  match s with Scope autos blocks => forallb f autos && forallb (objects_ok f) blocks end.

Lemma objects_ok_all : forall f s, objects_ok f s = true -> all_objects (fun T => f T = true) s.
Proof.
  intros f s H path. revert s H. induction path as [|j path IH]; intros [autos blocks] H k T E; cbn [objects_ok object] in *;
    apply andb_true_iff in H as [H1 H2]; rewrite forallb_forall in H1, H2.
  - apply H1. eapply nth_error_In. exact E.
  - destruct (nth_error blocks j) as [c|] eqn:N; [|discriminate E]. eapply IH; [|exact E]. apply H2. eapply nth_error_In. exact N.
Qed.

Example ex_scope_ok : all_objects (fun T => valid T = true) ex_scope /\ all_objects (fun T => pow2_aligned T = true) ex_scope.
Proof. split; apply objects_ok_all; reflexivity. Qed.

(** The two inner blocks share storage; [c], [e] and [g] are alive in the innermost block. *)
Example ex_offsets : exists v l, type_layout (local_type ex_scope) v_any = Some v /\ local_layout ex_scope = Some l /\
  object_offset v l [] 1 = Some 8 /\ object_offset v l [] 2 = Some 16 /\ object_offset v l [0%nat] 0 = Some 24 /\
  object_offset v l [2%nat] 0 = Some 24 /\ object_offset v l [2%nat; 0%nat] 0 = Some 32.
Proof. eexists. eexists. split; [vm_compute; reflexivity|]. repeat split; vm_compute; reflexivity. Qed.

Example ex_alive : alive [2%nat; 0%nat] [2%nat] /\ alive [2%nat; 0%nat] [2%nat; 0%nat] /\ alive [2%nat; 0%nat] [].
Proof. repeat split; [exists [0%nat]|exists []|exists [2%nat; 0%nat]]; reflexivity. Qed.

Example ex_frame : exists v, type_layout (local_type ex_scope) v_any = Some v /\
  calculate_frame [ReturnValue 12 4; ReturnValue 16 8] [(9, 1); (16, 8)] true (Some (local_type ex_scope, v)) =
  Some {| fr_size := 304; fr_alignment := 8; fr_temporary := 16; fr_parameters := 32; fr_register_save_area := 64;
          fr_locals := 240 |}.
Proof. eexists. split; vm_compute; reflexivity. Qed.

Example ex_only_results : only_results [ReturnValue 12 4; ReturnValue 16 8].
Proof.
  intros x [<-|[<-|[]]]; eexists; eexists; (split; [reflexivity|]); (split; [lia|]);
    [exists 2|exists 3]; (split; [lia|reflexivity]).
Qed.

Print Assumptions c48_alive_together_disjoint.
Print Assumptions c48_objects_inside_frame.
Print Assumptions c48_objects_aligned_partial.
Print Assumptions c48_parameters_inside_partial.
Print Assumptions c48_results_aligned_partial.
Print Assumptions c48_overaligned_refuted.
Print Assumptions c48_parameters_after_vararg_refuted.
Print Assumptions c48_temporary_alignment_refuted.
