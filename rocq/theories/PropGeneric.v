(** C64: a generic selection stands for the expression that its controlling type selects. *)
From Coq Require Import ZArith List Bool String.
From Verif Require Import CompatModel PropCompatSpec ExprTypeModel ExprTypeSpec ExprTypeProofs PropExprType GenericModel GenericSpec GenericProofs.
Import ListNotations.
Open Scope Z_scope.
Open Scope string_scope.

(** A selection that satisfies the constraints is accepted; its properties are those of the selected expression, which
    has the type of the rules, and the translation and the constant evaluation are those of the selected expression. *)
Theorem c64_selects_partial : forall G g t k r, sound G -> gcovered G g -> gtyped (TBasic BSInt) G g t k r ->
  exists p n, annotate G g = Ok (p, n) /\ n_type p = t /\ n_bits p = k_bits k /\ analyze G r = Ok p /\ typed (TBasic BSInt) G r t k /\
    (forall A (leaf : expr -> props -> out A), translate leaf n = leaf r p) /\
    (forall A (leaf : expr -> props -> out A), evaluate leaf n = if n_const p then leaf r p else Err).
Proof.
  intros G g t k r HG C H. destruct (rules_analysed G HG g C _ _ _ H) as (p & n & E & Er & (_ & S2 & S3)).
  destruct (typed_leaf G g C _ _ _ H) as (Cr & Tr). destruct (c53_type_found_partial G r p t k HG Cr Er Tr) as (X & Y).
  exists p, n. repeat split; auto; congruence.
Qed.

(** Nothing else is accepted, if the constraints hold that the analyzer does not check. *)
Theorem c64_rejected_partial : forall G g, sound G -> gcovered G g -> constrained (TBasic BSInt) G g ->
  (annotate G g = Err <-> forall t k r, ~ gtyped (TBasic BSInt) G g t k r) /\
  (forall p n, annotate G g = Ok (p, n) -> exists k r, gtyped (TBasic BSInt) G g (n_type p) k r).
Proof.
  intros G g HG C K. destruct (accepted_rules G HG g C K) as (B & A). split; [split|].
  - intros E t k r H. destruct (rules_analysed G HG g C _ _ _ H) as (p & n & E' & _). congruence.
  - intros N. destruct (annotate G g) as [[p n]| |]; [|reflexivity|congruence]. destruct (A p n eq_refl) as (t & k & r & H). destruct (N _ _ _ H).
  - intros p n E. destruct (A p n E) as (t & k & r & H). exists k, r.
    destruct (c64_selects_partial G g t k r HG C H) as (p' & n' & E' & X & _). rewrite E in E'. injection E' as <- <-. now rewrite X.
Qed.

(** Analyzer, constant evaluator and translator take the same one of the associated expressions, whatever was accepted. *)
Theorem c64_phases_agree : forall G g p n, annotate G g = Ok (p, n) ->
  exists r, In r (leaves g) /\ analyze G r = Ok p /\
    (forall A (leaf : expr -> props -> out A), translate leaf n = leaf r p) /\
    (forall A (leaf : expr -> props -> out A), evaluate leaf n = if n_const p then leaf r p else Err).
Proof.
  intros G g p n H. destruct (phases_agree G g p n H) as (r & I & E & (_ & S)). exists r. auto.
Qed.

(** The parser puts together the associations in their order and admits one default. *)
Theorem c64_built : forall c l g, append_all (new_selection c) l = Some g <->
  (List.length (filter (fun x => match fst x with None => true | Some _ => false end) l) <= 1)%nat /\
  exists d, g = GSel c (flat_map (fun x => match fst x with Some t => [(t, snd x)] | None => [] end) l) d /\
    (forall x, d = Some x <-> In (None, x) l).
Proof.
  intros c l g. unfold new_selection. rewrite append_all_spec. cbn [app].
  assert (E1 : flat_map association l = flat_map (fun x => match fst x with Some t => [(t, snd x)] | None => [] end) l).
  { apply flat_map_ext. intros [[t|] e]; reflexivity. }
  assert (E2 : List.length (flat_map defaults l) = List.length (filter (fun x => match fst x with None => true | Some _ => false end) l)).
  { clear. induction l as [|[[t|] e] l IH]; cbn; auto. }
  assert (E3 : forall x, In x (flat_map defaults l) <-> In (None, x) l).
  { intros x. rewrite in_flat_map. split.
    - intros ([[t|] e] & I & J); [destruct J|]. destruct J as [<-|[]]. exact I.
    - intros I. exists (None, x). split; [exact I|now left]. }
  rewrite E1, <- E2. destruct (flat_map defaults l) as [|x [|y r]]; cbn [List.length].
  - split.
    + intros E. injection E as <-. split; [auto|]. exists None. split; [reflexivity|]. intros x. rewrite <- E3. split; [discriminate|intros []].
    + intros (_ & d & -> & D). destruct d as [x|]; [|reflexivity]. destruct (proj2 (E3 x) (proj1 (D x) eq_refl)).
  - split.
    + intros E. injection E as <-. split; [auto|]. exists (Some x). split; [reflexivity|]. intros y. rewrite <- E3. split; [intros E; injection E as <-; now left|intros [->|[]]; reflexivity].
    + intros (_ & d & -> & D). rewrite (proj2 (D x) (proj1 (E3 x) (or_introl eq_refl))). reflexivity.
  - split; [discriminate|]. intros (X & _). inversion X as [|? Y]. inversion Y.
Qed.

(** ** Examples *)
Local Notation gtyped0 := (gtyped (TBasic BSInt) G0).
Local Notation V x := (GPlain (EId x)).
Local Notation flt := (TBasic BFloat).

Lemma exact_no : forall a b, compatible a b = No -> ~ conforms a b -> exact a b.
Proof. intros a b E N. split; [|split; congruence]. split; [congruence|tauto]. Qed.
Lemma int_float : ~ conforms int flt.
Proof. intros C. inversion C as [? ? X]. inversion X. Qed.
Lemma ptr_float : ~ conforms (TPtr int) flt.
Proof. intros C. inversion C as [? ? X]. inversion X. Qed.
Lemma int_ptr : ~ conforms int (TPtr int).
Proof. intros C. inversion C as [? ? X]. inversion X. Qed.
Lemma ptr_int : ~ conforms (TPtr int) int.
Proof. intros C. inversion C as [? ? X]. inversion X. Qed.
Lemma int_int : conforms int int.
Proof. apply exact_int. reflexivity. Qed.
Lemma ptr_ptr : conforms (TPtr int) (TPtr int).
Proof. constructor. constructor. apply int_int. Qed.

(* _Generic(a, float: p, int *: s.b, default: f) where a is an array of int *)
Definition inner : gexpr := GSel (V "a") [(flt, V "p"); (TPtr int, GPlain (EMember (EId "s") "b"))] (Some (V "f")).
(* _Generic(inner, int: a, default: p[s.b]): unsigned int is not int *)
Definition outer : gexpr := GSel inner [(int, V "a")] (Some (GPlain place)).

Lemma leaf0 : forall e p, covered G0 e -> analyze G0 e = Ok p -> exists k, gtyped0 (GPlain e) (n_type p) k e.
Proof. intros e p C E. destruct (c53_expression_types_partial G0 _ sound0 C) as (_ & M & _). destruct (M _ E) as (k & T & _). exists k. now constructor. Qed.
Lemma leaf_type : forall e p t k r, covered G0 e -> analyze G0 e = Ok p -> gtyped0 (GPlain e) t k r -> t = n_type p /\ r = e.
Proof.
  intros e p t k r C E H. inversion H as [? ? ? T| |]; subst. split; [|reflexivity]. exact (proj1 (c53_type_found_partial G0 _ _ _ _ sound0 C E T)).
Qed.
Example inner_typed : exists k, gtyped0 inner (TBasic BUInt) k (EMember (EId "s") "b").
Proof.
  destruct (leaf0 _ _ cov_a eq_refl) as (ka & Ha). destruct (leaf0 _ _ cov_p eq_refl) as (kp & Hp).
  destruct (leaf0 _ _ cov_sb eq_refl) as (kb & Hb). destruct (leaf0 _ _ cov_f eq_refl) as (kf & Hf). cbn in Ha, Hp, Hb, Hf.
  exists kb. eapply T_association; [exact Ha| | | | |right; left; reflexivity| |exact Hb].
  - repeat constructor; cbn; try tauto; eexists _, _, _; eassumption.
  - intros x E. injection E as <-. eexists _, _, _. exact Hf.
  - repeat constructor. cbn. intros C. inversion C as [? ? X]. inversion X.
  - repeat constructor. cbn. intros C. now apply ptr_float in C.
  - exact ptr_ptr.
Qed.
Example inner_covered : gcovered G0 inner.
Proof.
  split; [exact cov_a|]. split; [split; [exact cov_p|split; [exact cov_sb|exact Logic.I]]|]. split; [exact cov_f|].
  intros tc kc rc H. apply (leaf_type _ _ _ _ _ cov_a eq_refl) in H. destruct H as (-> & ->). cbn. constructor; [|constructor; [|constructor]].
  - apply exact_no; [reflexivity|exact ptr_float].
  - split; [|split; discriminate]. split; [intros _; exact ptr_ptr|reflexivity].
Qed.
Example inner_selects : exists p n, annotate G0 inner = Ok (p, n) /\ n_type p = TBasic BUInt /\ n_bits p = Some 3 /\
  forall A (leaf : expr -> props -> out A), translate leaf n = leaf (EMember (EId "s") "b") p.
Proof.
  destruct inner_typed as (k & H). destruct (c64_selects_partial G0 inner _ _ _ sound0 inner_covered H) as (p & n & E & T & B & Er & _ & S & _).
  exists p, n. split; [exact E|]. split; [exact T|]. split; [|exact S]. cbn in Er. injection Er as <-. reflexivity.
Qed.
Lemma uint_int : ~ conforms (TBasic BUInt) int.
Proof. intros C. inversion C as [? ? X]. inversion X. Qed.
Lemma inner_only : forall t k r, gtyped0 inner t k r -> t = TBasic BUInt.
Proof.
  intros t k r H. destruct (c64_selects_partial G0 inner _ _ _ sound0 inner_covered H) as (p & n & E & <- & _).
  vm_compute in E. injection E as <- <-. reflexivity.
Qed.
Example outer_covered : gcovered G0 outer.
Proof.
  split; [exact inner_covered|]. split; [split; [exact cov_a|exact Logic.I]|]. split; [exact cov_place|].
  intros tc kc rc H. apply inner_only in H. subst tc. constructor; [|constructor]. apply exact_no; [reflexivity|exact uint_int].
Qed.
Example outer_typed : exists k, gtyped0 outer int k place.
Proof.
  destruct inner_typed as (ki & Hi). destruct (leaf0 _ _ cov_a eq_refl) as (ka & Ha). destruct (leaf0 _ _ cov_place eq_refl) as (kp & Hp). cbn in Ha, Hp.
  exists kp. eapply T_default; [exact Hi| | | |exact Hp].
  - repeat constructor; cbn; try tauto. eexists _, _, _. exact Ha.
  - repeat constructor.
  - intros b [<-|[]]. exact uint_int.
Qed.
Example outer_constrained : constrained (TBasic BSInt) G0 outer.
Proof.
  destruct (leaf0 _ _ cov_f eq_refl) as (kf & Hf). destruct (leaf0 _ _ cov_place eq_refl) as (kp & Hp).
  split; [|split; [split; exact Logic.I|split; [|split; [|split]]]].
  - split; [exact Logic.I|]. split; [repeat split|]. split; [split; [exact Logic.I|eexists _, _, _; exact Hf]|].
    split; [repeat constructor; intros X; exact X|]. split.
    + repeat constructor. cbn. intros C. inversion C as [? ? X]. inversion X.
    + intros tc kc rc H. apply (leaf_type _ _ _ _ _ cov_a eq_refl) in H. destruct H as (-> & ->). repeat constructor. cbn. intros C. now apply ptr_float in C.
  - split; [exact Logic.I|eexists _, _, _; exact Hp].
  - repeat constructor; intros X; exact X.
  - repeat constructor.
  - intros tc kc rc H. repeat constructor.
Qed.
Example outer_found : exists k r, gtyped0 outer int k r.
Proof.
  destruct (c64_rejected_partial G0 outer sound0 outer_covered outer_constrained) as (_ & M).
  destruct (annotate G0 outer) as [[p n]| |] eqn:E; [|vm_compute in E; discriminate E|vm_compute in E; discriminate E].
  destruct (M p n eq_refl) as (k & r & H). exists k, r. vm_compute in E. injection E as <- _. exact H.
Qed.
(* _Generic(x, float: p) *)
Definition unmatched : gexpr := GSel (V "x") [(flt, V "p")] None.
Example unmatched_rejected : forall t k r, ~ gtyped0 unmatched t k r.
Proof.
  apply c64_rejected_partial; [exact sound0| | |reflexivity].
  - split; [exact cov_x|]. split; [split; [exact cov_p|exact Logic.I]|]. split; [exact Logic.I|].
    intros tc kc rc H. apply (leaf_type _ _ _ _ _ cov_x eq_refl) in H. destruct H as (-> & ->). constructor; [|constructor].
    apply exact_no; [reflexivity|exact int_float].
  - split; [exact Logic.I|]. split; [split; exact Logic.I|]. split; [exact Logic.I|]. split; [repeat constructor; intros X; exact X|].
    split; [repeat constructor|]. intros tc kc rc H. repeat constructor.
Qed.
Example built : append_all (new_selection (V "x")) [(Some flt, V "p"); (None, V "x"); (Some int, V "f")] =
  Some (GSel (V "x") [(flt, V "p"); (int, V "f")] (Some (V "x"))).
Proof. reflexivity. Qed.
Example two_defaults : append_all (new_selection (V "x")) [(None, V "p"); (Some int, V "x"); (None, V "f")] = None.
Proof. reflexivity. Qed.

(** ** What is wrong *)
Definition accepted_wrongly (g : gexpr) : Prop :=
  (exists p n, annotate G0 g = Ok (p, n)) /\ forall z t k r, ~ gtyped z G0 g t k r.

(** 6.5.1.1p2: "No two generic associations in the same generic selection shall specify compatible types". *)
Theorem c64_distinct_refuted : accepted_wrongly (GSel (V "x") [(int, V "p"); (int, V "x")] None).
Proof.
  split; [eexists _, _; vm_compute; reflexivity|]. intros z t k r H.
  inversion H as [|? ? ? ? ? ? ? ? ? ? ? _ _ _ D|]; subst. inversion D as [|? ? F _]; subst. inversion F as [|? ? N _]; subst. apply N, int_int.
Qed.

(** 6.5.1.1p2: the type names "shall specify a complete object type other than a variably modified type". *)
Theorem c64_association_types_refuted : forall t, In t [void; TStruct false (Some "unknown") []; TFun void ModeEmpty [] false;
    TArr Unbounded unq int; TArr (Vla true) unq int; TPtr (TArr (Vla true) unq int)] ->
  accepted_wrongly (GSel (V "x") [(t, V "p"); (int, V "x")] None).
Proof.
  intros t I. split.
  - repeat (destruct I as [<-|I]; [eexists _, _; vm_compute; reflexivity|]). destruct I.
  - intros z t' k r H. inversion H as [|? ? ? ? ? ? ? ? ? ? ? _ F|]; subst. inversion F as [|? ? ((C & N) & _) _]; subst. cbn in C, N.
    repeat (destruct I as [<-|I]; [cbn in C, N; tauto|]). destruct I.
Qed.

(** 6.5.1.1p2 with 6.5.3.2p2: the default association is not looked at unless it is taken. Here it is the invalid *x. *)
Theorem c64_default_refuted : accepted_wrongly (GSel (V "x") [(int, V "x")] (Some (GPlain (EUn UDeref (EId "x"))))).
Proof.
  split; [eexists _, _; vm_compute; reflexivity|]. intros z t k r H.
  assert (NX : forall t' k' r', ~ gtyped z G0 (GPlain (EUn UDeref (EId "x"))) t' k' r').
  { intros t' k' r' X. inversion X as [? ? ? Y| |]; subst. destruct Y as (t1 & k1 & (-> & _) & (Z & _)). discriminate Z. }
  inversion H as [|? ? ? ? ? ? ? ? ? ? ? _ _ D|? ? ? ? ? ? ? ? ? _ _ _ _ D]; subst.
  - destruct (D _ eq_refl) as (t' & k' & r' & X). now apply NX in X.
  - now apply NX in D.
Qed.

(** 6.5.1.1p4: a selection is an lvalue if the selected expression is; no selection can be assigned to or have its address
    taken. *)
Theorem c64_lvalue_refuted :
  (forall G c l d p n, annotate G (GSel c l d) = Ok (p, n) -> forall A (leaf : expr -> props -> out A), translate_lvalue leaf n = Err) /\
  (forall z, gtyped z G0 (GSel (V "x") [(int, V "x")] None) int (K true false None) (EId "x")) /\
  (exists p n, annotate G0 (GSel (V "x") [(int, V "x")] None) = Ok (p, n) /\ n_lvalue p = true /\ n_addr p = true).
Proof.
  split; [|split].
  - intros G c l d p n H A leaf. rewrite annotate_sel in H. destruct (annotate G c) as [[pc nc]| |]; cbn [bind fst snd] in H; try discriminate H.
    destruct (loop G pc None l) as [[[q|] l']| |]; cbn [bind fst snd] in H; try discriminate H.
    + injection H as <- <-. reflexivity.
    + destruct d as [x|]; [|discriminate H]. destruct (annotate G x) as [[px nx]| |]; cbn [bind fst snd] in H; try discriminate H.
      injection H as <- <-. reflexivity.
  - intros z. assert (Hx : gtyped z G0 (V "x") int (K true false None) (EId "x")). { constructor. split; reflexivity. }
    eapply T_association; [exact Hx| |discriminate|repeat constructor|repeat constructor|left; reflexivity|exact int_int|exact Hx].
    repeat constructor; cbn; try tauto. eexists _, _, _. exact Hx.
  - eexists _, _. split; [vm_compute; reflexivity|]. split; reflexivity.
Qed.

(** A selection is copied with its declaration, by parser/builder.c 680 among others: the copy of an association is
    written over the end of its block. *)
Theorem c64_copy_refuted : forall c l d, l <> [] -> clone (GSel c l d) = None.
Proof. exact clone_fails. Qed.
Example copied_default : clone (GSel (V "x") [] (Some (V "p"))) = Some (GSel (V "x") [] (Some (V "p"))).
Proof. reflexivity. Qed.

Print Assumptions c64_selects_partial.
Print Assumptions c64_rejected_partial.
Print Assumptions c64_phases_agree.
Print Assumptions c64_built.
Print Assumptions c64_distinct_refuted.
Print Assumptions c64_association_types_refuted.
Print Assumptions c64_default_refuted.
Print Assumptions c64_lvalue_refuted.
Print Assumptions c64_copy_refuted.
