(** C60: the assembly text printed for the variables and string literals of a module places
    each of them, under its label, with the data asked for. *)

From Coq Require Import ZArith Lia Bool List String.
From Verif Require Import LexModel Bits IrType LayoutModel IrData StaticData StaticProofs AsmModel AsmSpec AsmProofs AsmMain.
Import ListNotations.
Open Scope Z_scope.
Local Notation length := List.length.

(** ** The directives are those of the bytes of StaticData *)

Definition unit_of (c : cell) : unit_ := match c with Byte b => Constant b | Addr s off k => Address (symbol_name s) off k end.
Lemma number_units : forall n v, map unit_of (number n v) = little_endian n v.
Proof.
  intros n v. unfold number, little_endian. rewrite map_map. apply map_ext. intros k. cbn [unit_of]. f_equal. unfold u.
  rewrite Z.shiftr_div_pow2 by lia. f_equal. change 256 with (2 ^ 8). rewrite <- Z.pow_mul_r by lia. reflexivity.
Qed.
Lemma address_units : forall s off, map unit_of (address s off) = address_of (symbol_name s) off.
Proof. intros s off. unfold address, address_of. rewrite map_map. reflexivity. Qed.
Lemma zeros_units : forall n, map unit_of (zeros n) = piece_units (PZeros n).
Proof. intros n. unfold zeros. cbn [piece_units]. unfold none. induction (Z.to_nat n) as [|k IH]; [reflexivity|]. cbn. rewrite IH. reflexivity. Qed.
Lemma pieces_of_values : forall c param v,
  (0 <= param -> option_map piece_units (integral_piece c param v) = option_map (map unit_of) (integral_cells c param v)) /\
  option_map piece_units (word_piece v) = option_map (map unit_of) (word_cells v) /\
  option_map piece_units (f32_piece v) = option_map (map unit_of) (f32_cells v) /\
  option_map piece_units (f64_piece v) = option_map (map unit_of) (f64_cells v) /\
  option_map piece_units (ld_piece v) = option_map (map unit_of) (ld_cells v).
Proof.
  assert (L : forall b, little_endian 16 b = little_endian 8 b ++ little_endian 8 (Z.shiftr b 64)).
  { intros b. change 16%nat with (8 + 8)%nat. rewrite little_app, Z.shiftr_div_pow2 by lia. reflexivity. }
  assert (N : forall w v, piece_units (PNumber w v) = map unit_of (number (size_of w) v)) by (intros; rewrite number_units; reflexivity).
  assert (A : forall s o, piece_units (PAddress s o) = map unit_of (address s o)) by (intros; rewrite address_units; reflexivity).
  intros c param v. split.
  - intros P. destruct v; try reflexivity; destruct c; try reflexivity; cbn [integral_piece integral_cells];
      try (destruct (64 <? param); [reflexivity|]); cbn [option_map]; rewrite ?N, ?A; try reflexivity;
      cbn [piece_units]; rewrite number_units, ceil8 by exact P; reflexivity.
  - destruct v; repeat split; cbn [word_piece word_cells f32_piece f32_cells f64_piece f64_cells ld_piece ld_cells option_map];
      rewrite ?N, ?A; try reflexivity; cbn [piece_units]; rewrite ?map_app, ?number_units, ?L; reflexivity.
Qed.

(** ** Placement *)

Definition grows (i j : image) : Prop :=
  (forall n p, find n (labels i) = Some p -> find n (labels j) = Some p) /\
  (forall s, exists r, contents j s = contents i s ++ r) /\ (forall s, (alignment i s | alignment j s)).
Lemma grows_refl : forall i, grows i i.
Proof. intros i. split; [auto|]. split; [intros s; exists []; rewrite app_nil_r; reflexivity | intros; apply Z.divide_refl]. Qed.
Lemma grows_trans : forall i j k, grows i j -> grows j k -> grows i k.
Proof.
  intros i j k (A & B & C) (A' & B' & C'). split; [auto|]. split.
  - intros s. destruct (B s) as (r & R). destruct (B' s) as (r' & R'). exists (r ++ r'). rewrite R', R, app_assoc. reflexivity.
  - intros s. eapply Z.divide_trans; [apply C | apply C'].
Qed.
Lemma stands_grows : forall i j name section n u, grows i j -> stands i name section n u -> stands j name section n u.
Proof.
  intros i j name section n u (A & B & C) (b & r & F & E & D & D'). destruct (B section) as (r' & R).
  exists b, (r ++ r'). split; [apply A; exact F|]. split; [rewrite R, E, <- !app_assoc; reflexivity|].
  split; [exact D|]. eapply Z.divide_trans; [exact D' | apply C].
Qed.
Lemma place_app : forall a b i, place (a ++ b) i = match place a i with Some i => place b i | None => None end.
Proof. induction a as [|s a IH]; intros b i; [reflexivity|]. cbn [app place]. destruct (place_one s i); [apply IH | reflexivity]. Qed.
Lemma set_same : forall A (f : list Z -> A) k v, set f k v k = v.
Proof. intros A f k v. unfold set. rewrite (proj2 (same_true k k) eq_refl). reflexivity. Qed.
Lemma set_other : forall A (f : list Z -> A) k v j, j <> k -> set f k v j = f j.
Proof. intros A f k v j H. unfold set. rewrite (proj2 (same_false j k) H). reflexivity. Qed.
Lemma zero_units : forall u, Forall (eq (Constant 0)) u -> forallb is_zero u = true.
Proof. intros u H. induction H as [|x u E H IH]; [reflexivity|]. subst x. exact IH. Qed.

Lemma place_datas : forall us i, (no_bits (current i) = true -> Forall (eq (Constant 0)) (List.concat us)) ->
  exists j, place (map Data us) i = Some j /\ labels j = labels i /\ current j = current i /\ alignment j = alignment i /\
    contents j (current i) = contents i (current i) ++ List.concat us /\
    (forall s, s <> current i -> contents j s = contents i s).
Proof.
  induction us as [|u us IH]; intros i Z.
  - exists i. cbn. rewrite app_nil_r. repeat split.
  - cbn [map place place_one List.concat] in *.
    assert (Q : no_bits (current i) && negb (forallb is_zero u) = false).
    { destruct (no_bits (current i)); [|reflexivity]. cbn [andb]. rewrite zero_units; [reflexivity|].
      apply (Forall_app (eq (Constant 0)) u (List.concat us)), Z. reflexivity. }
    rewrite Q. destruct (IH (add_units u i)) as (j & P & L & C & A & D & O).
    + intros N. apply (Forall_app (eq (Constant 0)) u (List.concat us)), Z, N.
    + exists j. cbn [add_units labels current alignment contents] in *. repeat split; try assumption.
      * rewrite D, set_same, <- app_assoc. reflexivity.
      * intros s S. rewrite O, set_other by exact S. reflexivity.
Qed.
Lemma pieces_data : forall ps, Forall piece_ok ps -> exists us, flat_map piece_statements ps = map Data us /\ List.concat us = flat_map piece_units ps.
Proof.
  intros ps H. induction H as [|p ps P H (us & A & B)]; [exists []; split; reflexivity|].
  assert (X : exists us, piece_statements p = map Data us /\ List.concat us = piece_units p).
  { destruct p; try (eexists [_]; split; [reflexivity | cbn [List.concat]; apply app_nil_r]).
    cbn [piece_statements piece_units]. rewrite <- (ceil8 bits) by exact P.
    exists (map (fun i => little_endian 1 (Z.shiftr value (8 * Z.of_nat i))) (seq 0 (Z.to_nat (bits / 8 + (if bits mod 8 =? 0 then 0 else 1))))).
    split; [rewrite map_map; reflexivity|]. rewrite <- flat_map_concat_map. apply little_bytes. }
  destruct X as (us' & A' & B'). exists (us' ++ us). cbn [flat_map]. rewrite A, A', map_app, concat_app, B, B'. split; reflexivity.
Qed.

(** A label and the data after it *)
Lemma place_label : forall n us i, find n (labels i) = None ->
  (no_bits (current i) = true -> Forall (eq (Constant 0)) (List.concat us)) ->
  exists j, place (Label n :: map Data us) i = Some j /\ current j = current i /\ alignment j = alignment i /\
    (forall m, find m (labels j) = if same n m then Some (current i, here i) else find m (labels i)) /\
    contents j (current i) = contents i (current i) ++ List.concat us /\
    (forall s, s <> current i -> contents j s = contents i s).
Proof.
  intros n us i F Z. cbn [place place_one]. rewrite F.
  destruct (place_datas us {| contents := contents i; alignment := alignment i; labels := (n, (current i, here i)) :: labels i; current := current i |} Z)
    as (j & P & L & C & A & D & O).
  exists j. split; [exact P|]. split; [exact C|]. split; [exact A|]. split; [|split; [exact D | exact O]].
  intros m. rewrite L. reflexivity.
Qed.

(** [l] is placed wherever the labels [names] are free, and then [C] holds *)
Definition placed (l : list statement) (names : list (list Z)) (C : image -> Prop) : Prop :=
  forall i, (forall n, In n names -> find n (labels i) = None) ->
  exists j, place l i = Some j /\ grows i j /\ (forall n, ~ In n names -> find n (labels j) = find n (labels i)) /\ C j.
Definition lasts (C : image -> Prop) : Prop := forall i j, grows i j -> C i -> C j.
Lemma placed_app : forall a b N M C D, placed a N C -> placed b M D -> lasts C -> (forall n, In n N -> In n M -> False) ->
  placed (a ++ b) (N ++ M) (fun i => C i /\ D i).
Proof.
  intros a b N M C D A B L X i F.
  destruct (A i) as (j & P & G & O & c); [intros n I; apply F, in_or_app; left; exact I|].
  destruct (B j) as (k & P' & G' & O' & d).
  { intros n I. rewrite O; [apply F, in_or_app; right; exact I|]. intros K. exact (X n K I). }
  exists k. rewrite place_app, P. split; [exact P'|]. split; [exact (grows_trans i j k G G')|]. split.
  - intros n I. rewrite O', O; [reflexivity | intros K; apply I, in_or_app; left; exact K | intros K; apply I, in_or_app; right; exact K].
  - split; [exact (L j k G' c) | exact d].
Qed.

(** In a section *)
Definition placed_in (section : list Z) (l : list statement) (name : list Z) (n : Z) (u : list unit_) : Prop :=
  forall i, current i = section -> find name (labels i) = None ->
  exists j, place l i = Some j /\ grows i j /\ current j = section /\
    (forall m, m <> name -> find m (labels j) = find m (labels i)) /\ stands j name section n u.
Lemma placed_all : forall A section (f : A -> list statement) name al un l,
  (forall x, In x l -> placed_in section (f x) (name x) (al x) (un x)) -> NoDup (map name l) ->
  forall i, current i = section -> (forall n, In n (map name l) -> find n (labels i) = None) ->
  exists j, place (flat_map f l) i = Some j /\ grows i j /\ (forall n, ~ In n (map name l) -> find n (labels j) = find n (labels i)) /\
    forall x, In x l -> stands j (name x) section (al x) (un x).
Proof.
  intros A section f name al un l. induction l as [|x l IH]; intros H D i E F.
  - exists i. split; [reflexivity|]. split; [apply grows_refl|]. split; [reflexivity | intros x []].
  - cbn [map flat_map] in *. inversion D as [|? ? N D']; subst.
    destruct (H x (or_introl eq_refl) i eq_refl (F _ (or_introl eq_refl))) as (j & P & G & C & O & S).
    destruct (IH (fun y I => H y (or_intror I)) D' j C) as (k & P' & G' & O' & S').
    { intros n I. rewrite O; [apply F; right; exact I|]. intros ->. exact (N I). }
    exists k. rewrite place_app, P. split; [exact P'|]. split; [exact (grows_trans i j k G G')|]. split.
    + intros n I. rewrite O', O; [reflexivity | intros ->; apply I; left; reflexivity | intros K; apply I; right; exact K].
    + intros y [->|Y]; [exact (stands_grows j k _ _ _ _ G' S) | exact (S' y Y)].
Qed.
Lemma placed_part : forall A section (f : A -> list statement) name al un l,
  (forall x, In x l -> placed_in section (f x) (name x) (al x) (un x)) -> NoDup (map name l) ->
  placed (part section f l) (map name l) (fun i => forall x, In x l -> stands i (name x) section (al x) (un x)).
Proof.
  intros A section f name al un [|x l] H D i F.
  - exists i. split; [reflexivity|]. split; [apply grows_refl|]. split; [reflexivity | intros x []].
  - set (i' := {| contents := contents i; alignment := alignment i; labels := labels i; current := section |}).
    destruct (placed_all A section f name al un (x :: l) H D i' eq_refl F) as (j & P & G & O & S).
    exists j. split; [exact P|]. split; [exact G|]. split; [exact O | exact S].
Qed.
Lemma lasts_stands : forall A (l : list A) name (section : list Z) al un, lasts (fun i => forall x, In x l -> stands i (name x) section (al x) (un x)).
Proof. intros A l name section al un i j G H x I. exact (stands_grows i j _ _ _ _ G (H x I)). Qed.
Lemma lasts_and : forall C D, lasts C -> lasts D -> lasts (fun i => C i /\ D i).
Proof. intros C D A B i j G [c d]. split; [exact (A i j G c) | exact (B i j G d)]. Qed.

Lemma placed_object : forall o, object_ok o -> placed_in (object_section o) (object_statements o) (o_name o) (Z.max 1 (o_align o)) (object_units o).
Proof.
  intros o (N & A & PW & P & Z0) i E F. destruct (pieces_data _ P) as (us & US & UC). unfold object_statements. rewrite US.
  assert (NB : no_bits (object_section o) = true -> Forall (eq (Constant 0)) (List.concat us)).
  { intros K. rewrite UC. apply Z0. unfold object_section in K. destruct (o_defined o), (o_thread o); try reflexivity; discriminate K. }
  assert (Y : forall i, current i = object_section o -> find (o_name o) (labels i) = None ->
     (Z.max 1 (o_align o) | here i) -> (Z.max 1 (o_align o) | alignment i (object_section o)) ->
     exists j, place (Label (o_name o) :: map Data us) i = Some j /\ grows i j /\ current j = object_section o /\
       (forall m, m <> o_name o -> find m (labels j) = find m (labels i)) /\
       stands j (o_name o) (object_section o) (Z.max 1 (o_align o)) (object_units o)).
  { clear i E F. intros i E F D D'. rewrite <- E in NB. destruct (place_label (o_name o) us i F NB) as (j & Q & C & AL & L & CO & OT).
    exists j. split; [exact Q|]. assert (LN := L (o_name o)). rewrite (proj2 (same_true _ _) eq_refl) in LN.
    assert (LM : forall m, m <> o_name o -> find m (labels j) = find m (labels i)).
    { intros m M. rewrite L. rewrite (proj2 (same_false _ _)) by congruence. reflexivity. }
    split; [split; [|split]|split; [|split]].
    - intros n p K. rewrite LM; [exact K|]. intros ->. rewrite F in K. discriminate K.
    - intros s. destruct (list_eq_dec Z.eq_dec s (current i)) as [->|S]; [eexists; exact CO|].
      exists []. rewrite app_nil_r. exact (OT s S).
    - intros s. rewrite AL. apply Z.divide_refl.
    - rewrite C. exact E.
    - exact LM.
    - exists (contents i (current i)), []. unfold here in *. rewrite LN, E in *. split; [reflexivity|].
      split; [rewrite CO, UC, app_nil_r; reflexivity|]. split; [exact D|]. rewrite AL. exact D'. }
  destruct (Z.ltb_spec 1 (o_align o)) as [G|G].
  - destruct (PW G) as (k & K & W). rewrite Z.max_r in * by lia. set (a := o_align o) in *.
    assert (T : (1 <=? a) && (a =? 2 ^ Z.log2 a) = true).
    { apply andb_true_iff. split; [apply Z.leb_le; lia|]. apply Z.eqb_eq. rewrite W at 2. rewrite Z.log2_pow2 by exact K. exact W. }
    cbn [app]. cbn [place]. change (place_one (Align a) i) with
      (if (1 <=? a) && (a =? 2 ^ Z.log2 a) then
        Some {| contents := contents (add_units (none ((- here i) mod a)) i);
                alignment := set (alignment i) (current i) (Z.lcm (alignment i (current i)) a); labels := labels i; current := current i |}
       else None). rewrite T.
    set (i' := {| contents := contents (add_units (none ((- here i) mod a)) i);
                alignment := set (alignment i) (current i) (Z.lcm (alignment i (current i)) a); labels := labels i; current := current i |}).
    assert (GR : grows i i').
    { split; [auto|]. split.
      - intros s. cbn [i' contents add_units]. destruct (list_eq_dec Z.eq_dec s (current i)) as [->|S].
        + rewrite set_same. eexists. reflexivity.
        + rewrite set_other by exact S. exists []. rewrite app_nil_r. reflexivity.
      - intros s. cbn [i' alignment]. destruct (list_eq_dec Z.eq_dec s (current i)) as [->|S].
        + rewrite set_same. apply Z.divide_lcm_l.
        + rewrite set_other by exact S. apply Z.divide_refl. }
    destruct (Y i' E F) as (j & Q & G' & C & L & ST).
    + unfold here. cbn [i' current contents add_units]. rewrite set_same. unfold size, none. rewrite app_length, repeat_length, Nat2Z.inj_add.
      fold (size (contents i (current i))). fold (here i). assert (M := Z.mod_pos_bound (- here i) a ltac:(lia)).
      rewrite Z2Nat.id by lia. apply Z.mod_divide; [lia|]. rewrite Z.add_mod_idemp_r by lia.
      replace (here i + - here i) with 0 by lia. apply Z.mod_0_l. lia.
    + cbn [i' alignment]. rewrite <- E, set_same. apply Z.divide_lcm_r.
    + exists j. split; [exact Q|]. split; [exact (grows_trans i i' j GR G')|]. split; [exact C|]. split; [exact L | exact ST].
  - rewrite Z.max_l in * by lia. apply Y; [exact E | exact F | apply Z.divide_1_l | apply Z.divide_1_l].
Qed.
Lemma placed_literal : forall s, placed_in (text ".rodata") (literal_statements s) (literal_name s) 1 (literal_units s).
Proof.
  intros s i E F. destruct (place_label (literal_name s) [literal_units s] i F) as (j & Q & C & AL & L & CO & OT).
  { rewrite E. intros K. discriminate K. }
  exists j. cbn [map] in Q. split; [exact Q|]. assert (LN := L (literal_name s)). rewrite (proj2 (same_true _ _) eq_refl) in LN.
  assert (LM : forall m, m <> literal_name s -> find m (labels j) = find m (labels i)).
  { intros m M. rewrite L. rewrite (proj2 (same_false _ _)) by congruence. reflexivity. }
  split; [split; [|split]|split; [|split]].
  - intros n p K. rewrite LM; [exact K|]. intros ->. rewrite F in K. discriminate K.
  - intros t. destruct (list_eq_dec Z.eq_dec t (current i)) as [->|S]; [eexists; exact CO|].
    exists []. rewrite app_nil_r. exact (OT t S).
  - intros t. rewrite AL. apply Z.divide_refl.
  - rewrite C. exact E.
  - exact LM.
  - exists (contents i (current i)), []. unfold here in *. rewrite LN, E in *. split; [reflexivity|].
    split; [rewrite CO; cbn [List.concat]; rewrite !app_nil_r; reflexivity|]. split; apply Z.divide_1_l.
Qed.

(** ** Modules *)

Lemma nodup_parts : forall A (a b : list A), NoDup (a ++ b) -> NoDup a /\ NoDup b.
Proof.
  intros A a b. induction a as [|x a IH]; intros H; [split; [constructor | exact H]|]. cbn [app] in H. inversion H; subst.
  destruct (IH H3) as [P Q]. split; [|exact Q]. constructor; [|exact P]. intros K. apply H2, in_or_app. left. exact K.
Qed.
Lemma nodup_filter : forall A (f : A -> list Z) p l, NoDup (map f l) -> NoDup (map f (filter p l)).
Proof.
  intros A f p l. induction l as [|x l IH]; intros H; [constructor|]. cbn [map filter] in *. inversion H; subst.
  destruct (p x); [|apply IH; assumption]. cbn [map]. constructor; [|apply IH; assumption].
  intros K. apply in_map_iff in K. destruct K as (y & E & Y). apply filter_In in Y. apply H2. rewrite <- E. apply in_map, Y.
Qed.
Lemma nodup_inj : forall A (f : A -> list Z) l x y, NoDup (map f l) -> In x l -> In y l -> f x = f y -> x = y.
Proof.
  intros A f l x y. induction l as [|z l IH]; intros H X Y E; [destruct X|]. cbn [map] in H. inversion H; subst.
  destruct X as [->|X], Y as [->|Y]; [reflexivity | | | apply IH; assumption].
  - exfalso. apply H2. rewrite E. apply in_map, Y.
  - exfalso. apply H2. rewrite <- E. apply in_map, X.
Qed.
Lemma storage_apart : forall l t d t' d' n, NoDup (map o_name l) -> In n (map o_name (of_storage t d l)) -> In n (map o_name (of_storage t' d' l)) ->
  t = t' /\ d = d'.
Proof.
  intros l t d t' d' n H A B. apply in_map_iff in A, B. destruct A as (x & E & X), B as (y & E' & Y).
  apply filter_In in X, Y. destruct X as [X P], Y as [Y Q].
  assert (x = y) by (apply (nodup_inj _ o_name l); congruence). subst y.
  apply andb_true_iff in P, Q. destruct P as [P1 P2], Q as [Q1 Q2]. apply eqb_prop in P1, P2, Q1, Q2. split; congruence.
Qed.

Lemma placed_storage : forall (t d : bool) l, Forall object_ok l -> NoDup (map o_name l) ->
  placed (part (if d then (if t then text ".tdata" else text ".data") else (if t then text ".tbss" else text ".bss")) object_statements (of_storage t d l))
    (map o_name (of_storage t d l))
    (fun i => forall o, In o (of_storage t d l) -> stands i (o_name o) (if d then (if t then text ".tdata" else text ".data") else (if t then text ".tbss" else text ".bss"))
      (Z.max 1 (o_align o)) (object_units o)).
Proof.
  intros t d l H D. apply (placed_part object _ object_statements o_name (fun o => Z.max 1 (o_align o)) object_units); [|apply nodup_filter; exact D].
  intros o O. apply filter_In in O. destruct O as [O P]. apply andb_true_iff in P. destruct P as [P Q]. apply eqb_prop in P, Q.
  rewrite Forall_forall in H. assert (X := placed_object o (H o O)). unfold object_section in X. rewrite P, Q in X. exact X.
Qed.

(** The names of a module's variables and public string literals *)
Definition module_names (objects : list object) (strings : list literal) : list (list Z) :=
  map o_name objects ++ map literal_name (filter s_public strings).

Lemma placed_module : forall objects strings i, Forall object_ok objects -> NoDup (module_names objects strings) ->
  (forall n, In n (module_names objects strings) -> find n (labels i) = None) ->
  exists j, place (module_statements objects strings) i = Some j /\ grows i j /\
    (forall o, In o objects -> stands j (o_name o) (object_section o) (Z.max 1 (o_align o)) (object_units o)) /\
    (forall s, In s strings -> s_public s = true -> stands j (literal_name s) (text ".rodata") 1 (literal_units s)).
Proof.
  intros objects strings i O D F. assert (DO : NoDup (map o_name objects)) by exact (proj1 (nodup_parts _ _ _ D)).
  assert (DS : NoDup (map literal_name (filter s_public strings))) by exact (proj2 (nodup_parts _ _ _ D)).
  assert (APART : forall n, In n (map o_name objects) -> In n (map literal_name (filter s_public strings)) -> False).
  { intros n A B. unfold module_names in D. clear - D A B. induction (map o_name objects) as [|x l IH]; [destruct A|].
    cbn [app] in D. inversion D; subst. destruct A as [->|A]; [apply H1, in_or_app; right; exact B | exact (IH H2 A)]. }
  assert (SUB : forall t d n, In n (map o_name (of_storage t d objects)) -> In n (map o_name objects)).
  { intros t d n A. apply in_map_iff in A. destruct A as (x & E & X). apply filter_In in X. rewrite <- E. apply in_map, X. }
  assert (PR : placed (part (text ".rodata") literal_statements (filter s_public strings)) (map literal_name (filter s_public strings))
    (fun i => forall s, In s (filter s_public strings) -> stands i (literal_name s) (text ".rodata") 1 (literal_units s))).
  { apply (placed_part literal _ literal_statements literal_name (fun _ => 1) literal_units); [|exact DS]. intros s _. apply placed_literal. }
  assert (P4 := placed_app _ _ _ _ _ _ (placed_storage true false objects O DO) PR (lasts_stands _ _ _ _ _ _)).
  match type of P4 with ?H -> _ => assert (K4 : H); [|specialize (P4 K4)] end.
  { intros n A B. exact (APART n (SUB _ _ _ A) B). }
  assert (P3 := placed_app _ _ _ _ _ _ (placed_storage false false objects O DO) P4 (lasts_stands _ _ _ _ _ _)).
  match type of P3 with ?H -> _ => assert (K3 : H); [|specialize (P3 K3)] end.
  { intros n A B. apply in_app_or in B; destruct B as [B|B]; [destruct (storage_apart _ _ _ _ _ _ DO A B); discriminate|]. exact (APART n (SUB _ _ _ A) B). }
  assert (P2 := placed_app _ _ _ _ _ _ (placed_storage true true objects O DO) P3 (lasts_stands _ _ _ _ _ _)).
  match type of P2 with ?H -> _ => assert (K2 : H); [|specialize (P2 K2)] end.
  { intros n A B. apply in_app_or in B; destruct B as [B|B]; [destruct (storage_apart _ _ _ _ _ _ DO A B); discriminate|]. apply in_app_or in B; destruct B as [B|B]; [destruct (storage_apart _ _ _ _ _ _ DO A B); discriminate|]. exact (APART n (SUB _ _ _ A) B). }
  assert (P1 := placed_app _ _ _ _ _ _ (placed_storage false true objects O DO) P2 (lasts_stands _ _ _ _ _ _)).
  match type of P1 with ?H -> _ => assert (K1 : H); [|specialize (P1 K1)] end.
  { intros n A B. apply in_app_or in B; destruct B as [B|B]; [destruct (storage_apart _ _ _ _ _ _ DO A B); discriminate|]. apply in_app_or in B; destruct B as [B|B]; [destruct (storage_apart _ _ _ _ _ _ DO A B); discriminate|]. apply in_app_or in B; destruct B as [B|B]; [destruct (storage_apart _ _ _ _ _ _ DO A B); discriminate|]. exact (APART n (SUB _ _ _ A) B). }
  destruct (P1 i) as (j & P & G & _ & A & B & C & E & L).
  { intros n I. apply F, in_or_app. repeat (apply in_app_or in I; destruct I as [I|I]; [left; exact (SUB _ _ _ I)|]). right. exact I. }
  exists j. split; [exact P|]. split; [exact G|]. split.
  - intros o I. assert (IN : In o (of_storage (o_thread o) (o_defined o) objects)).
    { apply filter_In. split; [exact I|]. rewrite !eqb_reflx. reflexivity. }
    unfold object_section. destruct (o_defined o), (o_thread o); [exact (B o IN) | exact (A o IN) | exact (E o IN) | exact (C o IN)].
  - intros s I PU. apply L, filter_In. split; assumption.
Qed.

(** The text printed after any text places every variable, in the section of its storage,
    at a multiple of its alignment, with its data; and every public string literal *)
Theorem c60_data_assembles_partial :
  forall isprint objects strings g i,
  Forall object_ok objects -> Forall literal_ok strings -> NoDup (module_names objects strings) ->
  (forall n, In n (module_names objects strings) -> find n (labels i) = None) ->
  exists g' out j,
    run isprint (translate_data objects strings ++ [CClose]) g = Some g' /\ g_out g' = g_out g ++ out /\
    assemble out i = Some j /\ grows i j /\
    (forall o, In o objects -> stands j (o_name o) (object_section o) (Z.max 1 (o_align o)) (object_units o)) /\
    (forall s, In s strings -> s_public s = true -> stands j (literal_name s) (text ".rodata") 1 (literal_units s)).
Proof.
  intros isprint objects strings g i O S D F.
  destruct (data_text isprint objects strings g O S) as (g' & out & R & T & M).
  destruct (placed_module objects strings i O D F) as (j & P & G & A & B).
  exists g', out, j. unfold assemble. rewrite M. auto 6.
Qed.
Print Assumptions c60_data_assembles_partial.

(** ** A module *)

Definition ascii_print (c : Z) : bool := (32 <=? c) && (c <=? 126).
Definition blank_image : image := {| contents := fun _ => []; alignment := fun _ => 1; labels := []; current := text ".text" |}.

(** char c; _Thread_local short t = -2; struct { int n; const char *s; } v = {5, "a\n\"" + 1};
    void *end = &v - 1; with the literals "a\n\"" and u"é" *)
Definition sample_objects : list object :=
  [ {| o_name := text "c"; o_align := 1; o_pieces := [PZeros 1]; o_thread := false; o_defined := false |};
    {| o_name := text "t"; o_align := 2; o_pieces := [PNumber WWord (-2)]; o_thread := true; o_defined := true |};
    {| o_name := text "v"; o_align := 8; o_pieces := [PNumber WDouble 5; PZeros 4; PAddress (SString 0) 1]; o_thread := false; o_defined := true |};
    {| o_name := text "end"; o_align := 8; o_pieces := [PAddress (SName (text "v")) (-16)]; o_thread := false; o_defined := true |} ].
Definition sample_strings : list literal :=
  [ {| s_id := 0; s_type := LMultibyte; s_public := true; s_units := [97; 10; 34; 0] |};
    {| s_id := 1; s_type := LUnicode16; s_public := true; s_units := [233; 0] |} ].
Lemma sample_ok : Forall object_ok sample_objects /\ Forall literal_ok sample_strings /\ NoDup (module_names sample_objects sample_strings).
Proof.
  split; [|split].
  - repeat apply Forall_cons; try apply Forall_nil; (split; [reflexivity|]); (split; [cbn; lia|]); (split; [|split]); cbn [o_align o_pieces o_defined].
    all: try (intros K; exfalso; lia).
    all: try (intros K; discriminate K).
    all: try (repeat constructor; cbn; try lia; discriminate).
    + exists 1. split; [lia | reflexivity].
    + exists 3. split; [lia | reflexivity].
    + exists 3. split; [lia | reflexivity].
  - repeat constructor; cbn; lia.
  - vm_compute. repeat constructor; cbn; intros K; decompose [or] K; try discriminate; assumption.
Qed.
Example sample_text : forall g, run ascii_print (translate_data sample_objects sample_strings ++ [CClose]) gas_init = Some g ->
  g_out g = text ".section .data" ++ [10] ++
    text "    .align 8" ++ [10] ++ text "v:" ++ [10] ++ text "    .long 0x00000005" ++ [10] ++ text "    .zero 4" ++ [10] ++
    text "    .quad __kefirrt_string_literal0 + 1" ++ [10; 10] ++
    text "    .align 8" ++ [10] ++ text "end:" ++ [10] ++ text "    .quad v -16" ++ [10; 10] ++
    text ".section .tdata" ++ [10] ++ text "    .align 2" ++ [10] ++ text "t:" ++ [10] ++ text "    .word 0xfffe" ++ [10; 10] ++
    text ".section .bss" ++ [10] ++ text "c:" ++ [10] ++ text "    .zero 1" ++ [10; 10] ++
    text ".section .rodata" ++ [10] ++ text "__kefirrt_string_literal0:" ++ [10] ++
    text "    .ascii " ++ [34; 97; 92; 110; 92; 34; 92; 48; 48; 48; 34; 10] ++
    text "__kefirrt_string_literal1:" ++ [10] ++ text "    .word 233, 0" ++ [10].
Proof. intros g H. vm_compute in H. injection H as <-. vm_compute. reflexivity. Qed.
Example sample_assembles : exists g' out j,
  run ascii_print (translate_data sample_objects sample_strings ++ [CClose]) gas_init = Some g' /\ g_out g' = [] ++ out /\
  assemble out blank_image = Some j /\
  stands j (text "t") (text ".tdata") 2 [Constant 254; Constant 255] /\
  stands j (text "end") (text ".data") 8 (map (Address (text "v") (-16)) (seq 0 8)).
Proof.
  destruct sample_ok as (O & S & D).
  destruct (c60_data_assembles_partial ascii_print sample_objects sample_strings gas_init blank_image O S D ltac:(intros; reflexivity))
    as (g' & out & j & R & T & A & _ & P & _).
  exists g', out, j. split; [exact R|]. split; [exact T|]. split; [exact A|]. split.
  - apply (P (nth 1 sample_objects (hd {| o_name := []; o_align := 0; o_pieces := []; o_thread := false; o_defined := false |} []))).
    right. left. reflexivity.
  - apply (P (nth 3 sample_objects (hd {| o_name := []; o_align := 0; o_pieces := []; o_thread := false; o_defined := false |} []))).
    right. right. right. left. reflexivity.
Qed.

(** ** Refuted *)

Lemma stands_at : forall i name section n u k, stands i name section n u -> find name (labels i) = Some (section, k) -> (n | k).
Proof. intros i name section n u k (b & r & F & _ & D & _) E. rewrite E in F. injection F as ->. exact D. Qed.

(** Wide string literals do not stand at multiples of the size of their units:
    "ab" followed by U"c" *)
Definition wide_strings : list literal :=
  [ {| s_id := 0; s_type := LMultibyte; s_public := true; s_units := [97; 98; 0] |};
    {| s_id := 1; s_type := LUnicode32; s_public := true; s_units := [99; 0] |} ].
Theorem c60_wide_literals_aligned_refuted :
  ~ (forall isprint strings, Forall literal_ok strings -> NoDup (map literal_name strings) ->
     exists g' j, run isprint (translate_data [] strings ++ [CClose]) gas_init = Some g' /\ assemble (g_out g') blank_image = Some j /\
       forall s, In s strings -> s_public s = true -> stands j (literal_name s) (text ".rodata") (unit_bits (s_type s) / 8) (literal_units s)).
Proof.
  intros H. destruct (H ascii_print wide_strings) as (g' & j & R & A & S).
  - repeat constructor; cbn; lia.
  - vm_compute. repeat constructor; cbn; intros K; decompose [or] K; try discriminate; assumption.
  - vm_compute in R. injection R as <-.
    assert (F : option_map (fun j => find (string_label 1) (labels j)) (Some j) = Some (Some (text ".rodata", 3))).
    { rewrite <- A. vm_compute. reflexivity. }
    cbn [option_map] in F. injection F as F.
    assert (D := stands_at j _ _ _ _ 3 (S _ (or_intror (or_introl eq_refl)) eq_refl) F).
    change (unit_bits _ / 8) with 4 in D. destruct D as (q & Q). lia.
Qed.

(** The address of a variable whose name is an operator of the assembler, such as
    int and; int *p = &and;  or  int mod; int *p = &mod; *)
Definition named (n : list Z) : list object :=
  [ {| o_name := n; o_align := 4; o_pieces := [PNumber WDouble 0]; o_thread := false; o_defined := false |};
    {| o_name := text "p"; o_align := 8; o_pieces := [PAddress (SName n) 0]; o_thread := false; o_defined := true |} ].
Theorem c60_operator_names_refuted :
  forall n, In n [text "and"; text "mod"; text "Not"] ->
  ~ (forall isprint, exists g' j, run isprint (translate_data (named n) [] ++ [CClose]) gas_init = Some g' /\
       assemble (g_out g') blank_image = Some j).
Proof.
  intros n I H. destruct (H ascii_print) as (g' & j & R & A).
  destruct I as [<-|[<-|[<-|[]]]]; vm_compute in R; injection R as <-; vm_compute in A; discriminate A.
Qed.
(** The same module with another name *)
Example other_name_assembles : exists g' j, run ascii_print (translate_data (named (text "xand")) [] ++ [CClose]) gas_init = Some g' /\
  assemble (g_out g') blank_image = Some j /\ find (text "p") (labels j) = Some (text ".data", 0).
Proof. eexists. eexists. split; [reflexivity|]. split; vm_compute; reflexivity. Qed.

Print Assumptions c60_wide_literals_aligned_refuted.
Print Assumptions c60_operator_names_refuted.
