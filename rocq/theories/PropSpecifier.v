(** C49: the declaration specifiers of a declaration denote what 6.7.1, 6.7.2, 6.7.3, 6.7.4
    and 6.7.5 say. *)

From Coq Require Import ZArith Bool List Lia Permutation.
From Verif Require Import PropFunSpec SpecifierModel.
Import ListNotations.
Open Scope Z_scope.

(** * Specification *)

(** The table of 6.7.2p2: each multiset of type specifiers and the type it denotes. *)
Inductive listed : list tspec -> ty -> Prop :=
  | L_void : listed [SVoid] TVoid
  | L_char : listed [SChar] TChar
  | L_schar : listed [SSigned; SChar] TSChar
  | L_uchar : listed [SUnsigned; SChar] TUChar
  | L_short l : In l [[SShort]; [SSigned; SShort]; [SShort; SInt]; [SSigned; SShort; SInt]] -> listed l TShort
  | L_ushort l : In l [[SUnsigned; SShort]; [SUnsigned; SShort; SInt]] -> listed l TUShort
  | L_int l : In l [[SInt]; [SSigned]; [SSigned; SInt]] -> listed l TInt
  | L_uint l : In l [[SUnsigned]; [SUnsigned; SInt]] -> listed l TUInt
  | L_long l : In l [[SLong]; [SSigned; SLong]; [SLong; SInt]; [SSigned; SLong; SInt]] -> listed l TLong
  | L_ulong l : In l [[SUnsigned; SLong]; [SUnsigned; SLong; SInt]] -> listed l TULong
  | L_llong l :
    In l [[SLong; SLong]; [SSigned; SLong; SLong]; [SLong; SLong; SInt]; [SSigned; SLong; SLong; SInt]] -> listed l TLLong
  | L_ullong l : In l [[SUnsigned; SLong; SLong]; [SUnsigned; SLong; SLong; SInt]] -> listed l TULLong
  | L_float : listed [SFloat] TFloat
  | L_double : listed [SDouble] TDouble
  | L_ldouble : listed [SLong; SDouble] TLDouble
  | L_bool : listed [SBool] TBool
  | L_struct n : listed [SStruct n] (TStruct n)
  | L_enum n : listed [SEnum n] (TEnum n)
  | L_typedef t : listed [STypedef t] t
  | L_va_list : listed [SVaList] TVaList.
(** "the type specifiers may occur in any order" *)
Definition denotes (l : list tspec) (t : ty) : Prop := exists c, listed c t /\ Permutation l c.

(** 6.7.1p2: at most one storage-class specifier, except that _Thread_local may appear with
    static or extern. *)
Inductive storage_listed : list stor -> storage -> Prop :=
  | R_none : storage_listed [] Unknown
  | R_typedef : storage_listed [CTypedef] StTypedef
  | R_extern : storage_listed [CExtern] StExtern
  | R_static : storage_listed [CStatic] StStatic
  | R_thread : storage_listed [CThreadLocal] StThread
  | R_auto : storage_listed [CAuto] StAuto
  | R_register : storage_listed [CRegister] StRegister
  | R_extern_thread : storage_listed [CThreadLocal; CExtern] StExternThread
  | R_static_thread : storage_listed [CThreadLocal; CStatic] StStaticThread.
Definition storage_denotes (l : list stor) (c : storage) : Prop := exists k, storage_listed k c /\ Permutation l k.

(** 6.7.3p5 *)
Definition qualifiers (l : list spec) (q : quals) : Prop :=
  ~ In (PQual QAtomic) l /\
  (fst (fst q) = true <-> In (PQual QConst) l) /\
  (snd (fst q) = true <-> In (PQual QRestrict) l) /\
  (snd q = true <-> In (PQual QVolatile) l).
(** 6.7.4p5 *)
Definition function_specifiers (l : list spec) (f : fspec) : Prop :=
  (has_inline f <-> exists g, In (PFunction g) l /\ has_inline g) /\
  (has_noreturn f <-> exists g, In (PFunction g) l /\ has_noreturn g).
(** 6.7.5p4-6: the strictest alignment specified; one of 0 has no effect; not less strict than
    that of the type. *)
Definition alignment (natural : Z) (l : list spec) (a : Z) : Prop :=
  (forall n, In (PAlign n) l -> n <= a) /\ (a = 0 \/ In (PAlign a) l /\ 0 < a /\ natural <= a).

Definition type_of (s : spec) : list tspec := match s with PType t => [t] | _ => [] end.
Definition storage_of (s : spec) : list stor := match s with PStorage c => [c] | _ => [] end.
Definition types (l : list spec) : list tspec := flat_map type_of l.
Definition storages (l : list spec) : list stor := flat_map storage_of l.

(** What the code gets wrong (see the refutations below): no type specifier, [int] twice,
    [int] with [double], [long] after [double], [short] before the name of a type. *)
Definition names_type (s : tspec) : Prop :=
  match s with SStruct _ | SEnum _ | STypedef _ => True | _ => False end.
Definition treated (l : list tspec) : Prop :=
  l <> [] /\
  (forall a b c, l <> a ++ SInt :: b ++ SInt :: c) /\
  ~ (In SInt l /\ In SDouble l) /\
  (forall a b c, l <> a ++ SDouble :: b ++ SLong :: c) /\
  (forall s, In SShort l -> In s l -> ~ names_type s).

(** * The types *)

Fixpoint resolve_types (st : tstate) (l : list tspec) : option tstate :=
  match l with
  | [] => Some st
  | s :: l => match resolve_type st s with Some st => resolve_types st l | None => None end
  end.
Definition type_result (l : list tspec) : option ty :=
  match resolve_types (NoSign, Empty, None) l with
  | Some (sg, _, b) => apply_signedness sg b
  | None => None
  end.

Ltac perm :=
  lazymatch goal with
  | |- Permutation [] [] => constructor
  | |- Permutation (?x :: ?l) (?x :: ?r) => apply perm_skip; perm
  | |- Permutation (?x :: ?l) (?a :: ?x :: ?r) => apply (@Permutation_cons_app _ l [a] r x); cbn [app]; perm
  | |- Permutation (?x :: ?l) (?a :: ?b :: ?x :: ?r) => apply (@Permutation_cons_app _ l [a; b] r x); cbn [app]; perm
  | |- Permutation (?x :: ?l) (?a :: ?b :: ?c :: ?x :: ?r) => apply (@Permutation_cons_app _ l [a; b; c] r x); cbn [app]; perm
  end.

(** The words of a state whose list is treated. *)
Definition sign_words (sg : sign) : list tspec :=
  match sg with NoSign => [] | Signed => [SSigned] | Unsigned => [SUnsigned] end.
Definition base_words (b : option ty) (i : list tspec) : option (list tspec) :=
  match b, i with
  | None, [] => Some []
  | Some TVoid, [] => Some [SVoid] | Some TBool, [] => Some [SBool] | Some TChar, [] => Some [SChar]
  | Some TShort, _ => Some (SShort :: i) | Some TInt, [] => Some [SInt]
  | Some TLong, _ => Some (SLong :: i) | Some TLLong, _ => Some (SLong :: SLong :: i)
  | Some TFloat, [] => Some [SFloat] | Some TDouble, [] => Some [SDouble] | Some TLDouble, [] => Some [SLong; SDouble]
  | Some (TStruct n), [] => Some [SStruct n] | Some (TEnum n), [] => Some [SEnum n] | Some TVaList, [] => Some [SVaList]
  | _, _ => None
  end.
Inductive inv (l : list tspec) : tstate -> Prop :=
  | I_base sg q b i w : base_words b i = Some w -> i = [] \/ i = [SInt] -> Permutation l (w ++ sign_words sg) ->
    (q = Empty -> sg = NoSign /\ (b = None \/ b = Some TShort)) -> q <> Typedef -> inv l (sg, q, b)
  | I_typedef t : l = [STypedef t] -> inv l (NoSign, Typedef, Some t).

Definition fine (l : list tspec) : Prop :=
  (forall a b c, l <> a ++ SInt :: b ++ SInt :: c) /\
  ~ (In SInt l /\ In SDouble l) /\
  (forall s, In SShort l -> In s l -> ~ names_type s).

Lemma fine_prefix : forall l s, fine (l ++ [s]) -> fine l.
Proof.
  intros l s (A & B & C). repeat apply conj.
  - intros a b c E. apply (A a b (c ++ [s])). rewrite E. repeat (rewrite <- app_assoc; cbn). reflexivity.
  - intros [H1 H2]. apply B. split; apply in_or_app; auto.
  - intros x H1 H2. apply C; apply in_or_app; auto.
Qed.
Lemma no_second_int : forall l, fine (l ++ [SInt]) -> ~ In SInt l.
Proof.
  intros l (A & _) H. apply in_split in H. destruct H as (a & b & ->).
  apply (A a b []). rewrite <- app_assoc. reflexivity.
Qed.

Lemma snoc_word : forall (l w w' sg : list tspec) s,
  Permutation l (w ++ sg) -> Permutation (s :: w) w' -> Permutation (l ++ [s]) (w' ++ sg).
Proof.
  intros l w w' sg s P Q. eapply perm_trans; [apply Permutation_sym, Permutation_cons_append|].
  eapply perm_trans; [apply perm_skip, P|]. exact (Permutation_app_tail sg Q).
Qed.
Lemma snoc_sign : forall (l w : list tspec) s, Permutation l (w ++ []) -> Permutation (l ++ [s]) (w ++ [s]).
Proof. intros l w s P. rewrite app_nil_r in P. apply Permutation_app_tail. exact P. Qed.

Lemma words_in : forall l w sg x, Permutation l (w ++ sign_words sg) -> In x w -> In x l.
Proof. intros l w sg x P H. eapply Permutation_in; [apply Permutation_sym, P|]. apply in_or_app. auto. Qed.

Lemma resolve_inv : forall l st s st', inv l st -> fine (l ++ [s]) -> resolve_type st s = Some st' -> inv (l ++ [s]) st'.
Proof.
  intros l st s st' I F E.
  destruct I as [sg q b i w W HI P EQ NT|t ->].
  2:{ destruct s; destruct t; cbn in E; discriminate. }
  assert (TS : typedef_seen q = false) by (destruct q; auto; congruence).
  unfold resolve_type in E; rewrite ?TS in E.
  assert (ONE : forall b' w', base_words (Some b') [] = Some w' -> Permutation (s :: w) w' ->
    Some (sg, Specifiers, Some b') = Some st' -> inv (l ++ [s]) st').
  { intros b' w' W' P' E'. injection E' as <-. apply (I_base _ _ _ _ [] w'); auto; try discriminate.
    exact (snoc_word l w w' _ s P P'). }
  assert (NEW : forall b' w', b = None -> base_words (Some b') [] = Some w' -> Permutation [s] w' ->
    Some (sg, Specifiers, Some b') = Some st' -> inv (l ++ [s]) st').
  { intros b' w' -> W' P' E'. destruct HI as [-> | ->]; cbn in W; [|discriminate]. injection W as <-.
    apply (ONE b' w'); auto. }
  assert (INT : forall b' w', base_words (Some b') [SInt] = Some w' -> Permutation (s :: w) w' ->
    Some (sg, Specifiers, Some b') = Some st' -> inv (l ++ [s]) st').
  { intros b' w' W' P' E'. injection E' as <-. apply (I_base _ _ _ _ [SInt] w'); auto; try discriminate.
    exact (snoc_word l w w' _ s P P'). }
  assert (NAMED : names_type s -> q = Empty -> l = []).
  { intros HN Hq. destruct (EQ Hq) as [-> [-> | ->]].
    - destruct HI as [-> | ->]; cbn in W; [|discriminate]. injection W as <-. apply Permutation_nil.
      apply Permutation_sym. exact P.
    - exfalso. destruct F as (_ & _ & F). apply (F s); auto; apply in_or_app; [left|right; left; reflexivity].
      eapply words_in; [exact P|]. cbn in W. injection W as <-. left. reflexivity. }
  destruct s.
  - destruct b; [discriminate|]. eapply NEW; [reflexivity| | |exact E]; [reflexivity|perm].
  - destruct b; [discriminate|]. eapply NEW; [reflexivity| | |exact E]; [reflexivity|perm].
  - assert (G : forall i w', base_words (Some TShort) i = Some w' -> i = [] \/ i = [SInt] ->
      Permutation (SShort :: w) w' -> Some (sg, q, Some TShort) = Some st' -> inv (l ++ [SShort]) st').
    { intros i' w' W' HI' P' E'. injection E' as <-. apply (I_base _ _ _ _ i' w'); auto.
      - exact (snoc_word l w w' _ _ P P').
      - intros Hq. destruct (EQ Hq) as [-> _]. auto. }
    destruct b as [[]|]; try discriminate; destruct HI as [-> | ->]; cbn in W; try discriminate; injection W as <-.
    + apply (G [SInt] [SShort; SInt]); auto; perm.
    + apply (G [] [SShort]); auto; perm.
  - assert (NI : ~ In SInt w).
    { intros H. apply (no_second_int l F). exact (words_in l w sg _ P H). }
    destruct b as [[]|]; try discriminate; destruct HI as [-> | ->]; cbn in W; try discriminate; injection W as <-;
      try (exfalso; apply NI; cbn; tauto).
    + eapply INT; [ | |exact E]; [reflexivity|perm].
    + eapply INT; [ | |exact E]; [reflexivity|perm].
    + eapply INT; [ | |exact E]; [reflexivity|perm].
    + eapply NEW; [reflexivity| | |exact E]; [reflexivity|perm].
  - destruct b as [[]|]; try discriminate; destruct HI as [-> | ->]; cbn in W; try discriminate; injection W as <-.
    + eapply INT; [ | |exact E]; [reflexivity|perm].
    + eapply ONE; [ | |exact E]; [reflexivity|perm].
    + eapply INT; [ | |exact E]; [reflexivity|perm].
    + eapply NEW; [reflexivity| | |exact E]; [reflexivity|perm].
  - destruct b; [discriminate|]. eapply NEW; [reflexivity| | |exact E]; [reflexivity|perm].
  - destruct b as [[]|]; try discriminate; destruct HI as [-> | ->]; cbn in W; try discriminate; injection W as <-.
    + eapply ONE; [ | |exact E]; [reflexivity|perm].
    + exfalso. destruct F as (_ & F & _). apply F. split; apply in_or_app; [left|right; left; reflexivity].
      apply (words_in l _ sg _ P). cbn. tauto.
    + eapply NEW; [reflexivity| | |exact E]; [reflexivity|perm].
  - destruct sg; try discriminate. injection E as <-.
    eapply I_base; [exact W|exact HI|exact (snoc_sign l w _ P)|discriminate|discriminate].
  - destruct sg; try discriminate. injection E as <-.
    eapply I_base; [exact W|exact HI|exact (snoc_sign l w _ P)|discriminate|discriminate].
  - destruct b; [discriminate|]. eapply NEW; [reflexivity| | |exact E]; [reflexivity|perm].
  - discriminate.
  - discriminate.
  - destruct q; try discriminate. rewrite (NAMED I eq_refl) in *. injection E as <-.
    destruct (EQ eq_refl) as [-> _].
    apply (I_base _ _ _ _ [] [SStruct n]); auto; discriminate.
  - destruct q; try discriminate. rewrite (NAMED I eq_refl) in *. injection E as <-.
    destruct (EQ eq_refl) as [-> _].
    apply (I_base _ _ _ _ [] [SEnum n]); auto; discriminate.
  - destruct q; try discriminate. rewrite (NAMED I eq_refl) in *. injection E as <-.
    destruct (EQ eq_refl) as [-> _]. apply I_typedef. reflexivity.
  - destruct q; try discriminate. destruct b; [discriminate|]. eapply NEW; [reflexivity| | |exact E]; [reflexivity|perm].
Qed.

Lemma resolve_types_inv : forall r l st st',
  inv l st -> fine (l ++ r) -> resolve_types st r = Some st' -> inv (l ++ r) st'.
Proof.
  induction r as [|s r IH]; intros l st st' I F E; cbn in E.
  - injection E as <-. rewrite app_nil_r. exact I.
  - destruct (resolve_type st s) as [st1|] eqn:E1; [|discriminate].
    assert (EA : l ++ s :: r = (l ++ [s]) ++ r) by (rewrite <- app_assoc; reflexivity).
    rewrite EA in *. apply (IH _ st1); auto. apply (resolve_inv _ st); auto.
    clear - F. revert F. generalize (l ++ [s]). intros k. induction r as [|x r IH] using rev_ind.
    + rewrite app_nil_r. auto.
    + rewrite app_assoc. intros F. apply IH. exact (fine_prefix _ _ F).
Qed.

Lemma types_sound : forall l t, treated l -> type_result l = Some t -> denotes l t.
Proof.
  intros l t (NE & A & B & _ & C) E. unfold type_result in E.
  destruct (resolve_types (NoSign, Empty, None) l) as [[[sg q] b]|] eqn:R; [|discriminate].
  assert (I : inv l (sg, q, b)).
  { change l with ([] ++ l). apply (resolve_types_inv l [] (NoSign, Empty, None)); auto.
    - apply (I_base _ _ _ _ [] []); auto; discriminate.
    - repeat apply conj; auto. }
  inversion I as [sg' q' b' i w W HI P EQ NT|t' EL]; subst.
  2:{ cbn in E. injection E as <-. exists [STypedef t']. split; [constructor|apply Permutation_refl]. }
  exists (sign_words sg ++ w). split; [|eapply perm_trans; [exact P|apply Permutation_app_comm]].
  destruct sg; destruct b as [[]|]; cbn in E; try discriminate;
    destruct HI as [-> | ->]; cbn in W; try discriminate; injection W as <-; injection E as <-; cbn.
  all: try (exfalso; apply NE; apply Permutation_nil, Permutation_sym, P).
  all: constructor; cbn; tauto.
Qed.

(** All the arrangements of a list. *)
Fixpoint insertions (x : tspec) (l : list tspec) : list (list tspec) :=
  match l with
  | [] => [[x]]
  | y :: r => (x :: l) :: map (cons y) (insertions x r)
  end.
Fixpoint arrangements (l : list tspec) : list (list tspec) :=
  match l with
  | [] => [[]]
  | x :: r => flat_map (insertions x) (arrangements r)
  end.
Lemma insertions_in : forall x a b, In (a ++ x :: b) (insertions x (a ++ b)).
Proof.
  intros x a b. induction a as [|y a IH]; cbn.
  - destruct b; left; reflexivity.
  - right. apply in_map. exact IH.
Qed.
Lemma arrangements_in : forall c l, Permutation l c -> In l (arrangements c).
Proof.
  induction c as [|x c IH]; intros l P.
  - apply Permutation_sym, Permutation_nil in P. subst. left. reflexivity.
  - assert (HX : In x l) by (eapply Permutation_in; [apply Permutation_sym, P|left; reflexivity]).
    apply in_split in HX. destruct HX as (a & b & ->).
    cbn. apply in_flat_map. exists (a ++ b). split; [|apply insertions_in].
    apply IH. apply Permutation_sym. apply Permutation_cons_app_inv with (a := x). apply Permutation_sym. exact P.
Qed.

Ltac every H :=
  cbn in H; repeat (destruct H as [H|H]; [subst|]); try contradiction.

Lemma types_complete : forall l t, (forall a b c, l <> a ++ SDouble :: b ++ SLong :: c) -> denotes l t -> type_result l = Some t.
Proof.
  intros l t ND (c & L & P). apply arrangements_in in P.
  destruct L as [| | | |k HK|k HK|k HK|k HK|k HK|k HK|k HK|k HK| | | | | | | | ]; try (every HK); every P; try reflexivity.
  exfalso. apply (ND [] [] []). reflexivity.
Qed.

Lemma types_exact : forall l t, treated l -> (type_result l = Some t <-> denotes l t).
Proof.
  intros l t T. split; [apply types_sound; exact T|apply types_complete; apply T].
Qed.

(** * Storage classes *)

Fixpoint resolve_storages (s : storage) (l : list stor) : option storage :=
  match l with
  | [] => Some s
  | c :: l => match resolve_storage_class s c with Some s => resolve_storages s l | None => None end
  end.

Lemma storage_exact : forall l c, resolve_storages Unknown l = Some c <-> storage_denotes l c.
Proof.
  intros l c. split.
  - intros E.
    destruct l as [|x l]; [injection E as <-; exists []; split; constructor|].
    destruct l as [|y l].
    { destruct x; cbn in E; injection E as <-; eexists; (split; [constructor|apply Permutation_refl]). }
    destruct l as [|z l].
    { destruct x, y; cbn in E; try discriminate; injection E as <-; eexists;
        (split; [constructor|]); first [apply Permutation_refl|apply perm_swap]. }
    exfalso. destruct x, y; cbn in E; try discriminate; destruct z; discriminate.
  - intros (k & L & P).
    destruct L; try (apply Permutation_sym, Permutation_nil in P; subst; reflexivity);
      try (apply Permutation_sym, Permutation_length_1_inv in P; subst; reflexivity).
    + apply Permutation_sym, Permutation_length_2_inv in P. destruct P as [-> | ->]; reflexivity.
    + apply Permutation_sym, Permutation_length_2_inv in P. destruct P as [-> | ->]; reflexivity.
Qed.

(** * The whole list *)

Fixpoint resolve_quals (q : quals) (l : list spec) : option quals :=
  match l with
  | [] => Some q
  | PQual x :: l => match resolve_qualification q x with Some q => resolve_quals q l | None => None end
  | _ :: l => resolve_quals q l
  end.
Definition resolve_functions (f : fspec) (l : list spec) : fspec :=
  fold_left (fun f s => match s with PFunction g => merge f g | _ => f end) l f.
Definition resolve_align (a : Z) (l : list spec) : Z :=
  fold_left (fun a s => match s with PAlign n => Z.max a n | _ => a end) l a.

Lemma steps_parts : forall l t q c f a,
  steps (mk_dstate t q c f a) l =
  match resolve_types t (types l), resolve_quals q l, resolve_storages c (storages l) with
  | Some t, Some q, Some c => Some (mk_dstate t q c (resolve_functions f l) (resolve_align a l))
  | _, _, _ => None
  end.
Proof.
  induction l as [|s l IH]; intros t q c f a; [reflexivity|].
  destruct s; cbn; unfold resolve_functions, resolve_align; cbn.
  - destruct (resolve_type t t0); cbn; [apply IH|reflexivity].
  - destruct (resolve_qualification q q0); cbn; [apply IH|].
    destruct (resolve_types t (flat_map type_of l)); reflexivity.
  - destruct (resolve_storage_class c c0); cbn; [apply IH|].
    destruct (resolve_types t (flat_map type_of l)); [destruct (resolve_quals q l)|]; reflexivity.
  - apply IH.
  - apply IH.
Qed.

Lemma quals_exact : forall l c r v q', resolve_quals (c, r, v) l = Some q' <->
  ~ In (PQual QAtomic) l /\
  (fst (fst q') = true <-> c = true \/ In (PQual QConst) l) /\
  (snd (fst q') = true <-> r = true \/ In (PQual QRestrict) l) /\
  (snd q' = true <-> v = true \/ In (PQual QVolatile) l).
Proof.
  induction l as [|s l IH]; intros c r v [[c' r'] v'].
  - cbn. split.
    + intros E. injection E as <- <- <-. tauto.
    + intros (_ & HC & HR & HV). f_equal. f_equal; [f_equal|].
      * destruct c, c'; auto; [destruct HC as [_ HC]; symmetry; apply HC; auto|destruct HC as [HC _]; destruct HC; auto; tauto].
      * destruct r, r'; auto; [destruct HR as [_ HR]; symmetry; apply HR; auto|destruct HR as [HR _]; destruct HR; auto; tauto].
      * destruct v, v'; auto; [destruct HV as [_ HV]; symmetry; apply HV; auto|destruct HV as [HV _]; destruct HV; auto; tauto].
  - assert (SAME : forall x, s <> PQual x -> In (PQual x) (s :: l) <-> In (PQual x) l).
    { intros x N. cbn. split; [intros [E|H]; [congruence|exact H]|auto]. }
    destruct s as [t|x|k|f|n];
      try (cbn [resolve_quals]; rewrite IH, !SAME by discriminate; tauto).
    cbn [resolve_quals]. destruct x; cbn [resolve_qualification].
    + rewrite IH, (SAME QAtomic), (SAME QRestrict), (SAME QVolatile) by discriminate.
      assert (In (PQual QConst) (PQual QConst :: l)) by (left; reflexivity). tauto.
    + rewrite IH, (SAME QAtomic), (SAME QConst), (SAME QVolatile) by discriminate.
      assert (In (PQual QRestrict) (PQual QRestrict :: l)) by (left; reflexivity). tauto.
    + rewrite IH, (SAME QAtomic), (SAME QConst), (SAME QRestrict) by discriminate.
      assert (In (PQual QVolatile) (PQual QVolatile :: l)) by (left; reflexivity). tauto.
    + split; [discriminate|]. intros (H & _). exfalso. apply H. left. reflexivity.
Qed.

Lemma functions_exact : forall l f,
  (has_inline (resolve_functions f l) <-> has_inline f \/ exists g, In (PFunction g) l /\ has_inline g) /\
  (has_noreturn (resolve_functions f l) <-> has_noreturn f \/ exists g, In (PFunction g) l /\ has_noreturn g).
Proof.
  induction l as [|s l IH]; intros f.
  - cbn. split; (split; [auto|intros [H|(g & [] & _)]; exact H]).
  - unfold resolve_functions in *. cbn [fold_left].
    assert (SKIP : forall (Q : fspec -> Prop), (forall g, s <> PFunction g) ->
      (exists g, In (PFunction g) (s :: l) /\ Q g) <-> (exists g, In (PFunction g) l /\ Q g)).
    { intros Q N. split; intros (g & H & HQ); exists g; (split; [|exact HQ]).
      - destruct H as [E|H]; [exfalso; exact (N g E)|exact H].
      - right. exact H. }
    destruct s as [t|x|k|g|n]; try (rewrite !SKIP by discriminate; apply IH).
    destruct (IH (merge f g)) as [HI HN]. destruct (merge_sets f g) as [MI MN]. rewrite HI, HN, MI, MN.
    assert (STEP : forall Q : fspec -> Prop, (exists h, In (PFunction h) (PFunction g :: l) /\ Q h) <->
      Q g \/ (exists h, In (PFunction h) l /\ Q h)).
    { intros Q. split.
      - intros (h & [E|H] & HQ); [injection E as <-; auto|right; exists h; auto].
      - intros [H|(h & H & HQ)]; [exists g|exists h]; (split; [|assumption]); [left; reflexivity|right; exact H]. }
    rewrite !STEP. tauto.
Qed.

Lemma function_determined : forall f g,
  (has_inline f <-> has_inline g) -> (has_noreturn f <-> has_noreturn g) -> f = g.
Proof.
  unfold has_inline, has_noreturn. intros f g A B.
  destruct f, g; try reflexivity; exfalso; intuition discriminate.
Qed.

Lemma align_max : forall l a, (forall n, In (PAlign n) l -> n <= resolve_align a l) /\ a <= resolve_align a l /\
  (resolve_align a l = a \/ In (PAlign (resolve_align a l)) l).
Proof.
  induction l as [|s l IH]; intros a; unfold resolve_align in *; cbn [fold_left].
  - split; [intros n []|split; [lia|left; reflexivity]].
  - destruct s as [t|x|k|g|m].
    1-4: destruct (IH a) as (A & B & C); split; [|split; [exact B|destruct C; [left|right; right]; assumption]];
      intros n [E|H]; [discriminate|auto].
    destruct (IH (Z.max a m)) as (A & B & C). split; [|split; [lia|]].
    + intros n [E|H]; [injection E as <-; lia|auto].
    + destruct C as [C|C]; [|right; right; exact C]. rewrite C.
      destruct (Z.le_gt_cases m a); [left; lia|right; left; f_equal; lia].
Qed.

Lemma alignment_exact : forall natural l a,
  (forall n, In (PAlign n) l -> 0 <= n) ->
  ((if 0 <? resolve_align 0 l then if natural <=? resolve_align 0 l then Some (resolve_align 0 l) else None else Some 0)
    = Some a <-> alignment natural l a).
Proof.
  intros natural l a NN. destruct (align_max l 0) as (A & B & C). set (m := resolve_align 0 l) in *.
  unfold alignment. split.
  - destruct (Z.ltb_spec 0 m).
    + destruct (Z.leb_spec natural m); [|discriminate]. intros E. injection E as <-. split; [exact A|].
      right. destruct C as [C|C]; [lia|auto].
    + intros E. injection E as <-. split; [|auto]. intros n H0. specialize (A n H0). lia.
  - intros (U & [-> | (IN & POS & NAT)]).
    + destruct (Z.ltb_spec 0 m); [|reflexivity]. destruct C as [C|C]; [lia|]. specialize (U _ C). lia.
    + specialize (A _ IN). assert (m = a).
      { destruct C as [C|C]; [lia|]. specialize (U _ C). lia. }
      subst a. destruct (Z.ltb_spec 0 m); [|lia]. destruct (Z.leb_spec natural m); [reflexivity|lia].
Qed.

(** * Theorems *)

(** Full property: for every list of declaration specifiers, whatever their order and however
    type specifiers, qualifiers, storage classes, function specifiers and alignments are
    mixed, the analyzer accepts the list exactly when the standard allows it, and the type,
    qualifiers, storage class, function specifiers and alignment are those the standard gives
    it.  Missing: [_Complex] and [_Atomic], which the compiler does not support; the lists
    that are not [treated], on which it is wrong (below); the demand of 6.7.5p3 that the
    alignment be a valid one (below). *)
Theorem c49_specifiers_partial : forall natural l t q c f a,
  treated (types l) ->
  (forall n, In (PAlign n) l -> 0 <= n) ->
  (analyze_specifiers natural l = Some (t, q, c, f, a) <->
   denotes (types l) t /\ qualifiers l q /\ storage_denotes (storages l) c /\ function_specifiers l f /\
   alignment (natural t) l a).
Proof.
  intros natural l t q c f a T NN. unfold analyze_specifiers, start. rewrite steps_parts.
  rewrite <- (types_exact _ t T), <- storage_exact, <- (alignment_exact _ _ _ NN).
  assert (HQ : qualifiers l q <-> resolve_quals (false, false, false) l = Some q).
  { rewrite quals_exact. unfold qualifiers. intuition discriminate. }
  assert (HF : function_specifiers l f <-> resolve_functions FNone l = f).
  { destruct (functions_exact l FNone) as [I N].
    assert (has_inline FNone -> False) by (intros [H|H]; discriminate).
    assert (has_noreturn FNone -> False) by (intros [H0|H0]; discriminate).
    unfold function_specifiers. split.
    - intros [FI FN]. apply function_determined; [rewrite I, FI|rewrite N, FN]; tauto.
    - intros <-. rewrite I, N. tauto. }
  rewrite HQ, HF. unfold type_result.
  destruct (resolve_types (NoSign, Empty, None) (types l)) as [[[sg sq] b]|];
    [|split; [discriminate|intros (E & _); discriminate]].
  destruct (resolve_quals (false, false, false) l) as [q'|];
    [|split; [discriminate|intros (_ & E & _); discriminate]].
  destruct (resolve_storages Unknown (storages l)) as [c'|];
    [|split; [discriminate|intros (_ & _ & E & _); discriminate]].
  destruct (apply_signedness sg b) as [t'|];
    [|split; [discriminate|intros (E & _); discriminate]].
  split.
  - intros E.
    destruct (0 <? resolve_align 0 l); [destruct (natural t' <=? resolve_align 0 l) eqn:EN|]; try discriminate;
      injection E as -> -> -> E4 E5; rewrite ?EN, ?E4, ?E5; repeat split; reflexivity.
  - intros (E1 & E2 & E3 & E4 & E5). injection E1 as ->. injection E2 as ->. injection E3 as ->. subst f.
    destruct (0 <? resolve_align 0 l); [destruct (natural t <=? resolve_align 0 l)|]; try discriminate;
      injection E5 as ->; reflexivity.
Qed.

(** In particular the order of the specifiers does not matter where both orders are treated. *)
Theorem c49_order : forall natural l m,
  Permutation l m -> treated (types l) -> treated (types m) -> (forall n, In (PAlign n) l -> 0 <= n) ->
  analyze_specifiers natural l = analyze_specifiers natural m.
Proof.
  intros natural l m P TL TM NL.
  assert (NM : forall n, In (PAlign n) m -> 0 <= n).
  { intros n H. apply NL. eapply Permutation_in; [apply Permutation_sym, P|exact H]. }
  assert (ONE : forall l m r, Permutation l m -> treated (types l) -> treated (types m) ->
    (forall n, In (PAlign n) l -> 0 <= n) -> (forall n, In (PAlign n) m -> 0 <= n) ->
    analyze_specifiers natural l = Some r -> analyze_specifiers natural m = Some r).
  { clear. intros l m [[[[t q] c] f] a] P TL TM NL NM E.
    apply c49_specifiers_partial in E; auto. apply c49_specifiers_partial; auto.
    destruct E as ((k & L1 & L2) & Q & (sk & S1 & S2) & F & A).
    assert (IN : forall x, In x l <-> In x m).
    { intros x. split; apply Permutation_in; [exact P|apply Permutation_sym, P]. }
    split; [|split; [|split; [|split]]].
    - exists k. split; auto. eapply perm_trans; [|exact L2]. apply Permutation_flat_map, Permutation_sym, P.
    - unfold qualifiers in *. rewrite <- !IN. exact Q.
    - exists sk. split; auto. eapply perm_trans; [|exact S2]. apply Permutation_flat_map, Permutation_sym, P.
    - unfold function_specifiers in *. destruct F as [F1 F2]. rewrite F1, F2.
      split; split; intros (g & H & HG); exists g; (split; [apply IN; exact H|exact HG]).
    - unfold alignment in *. rewrite <- IN. destruct A as [A1 A2]. split; [|exact A2].
      intros n H. apply A1, IN, H. }
  destruct (analyze_specifiers natural l) as [r|] eqn:E.
  - symmetry. apply (ONE l m); auto.
  - destruct (analyze_specifiers natural m) as [r|] eqn:E'; [|reflexivity].
    pose proof (ONE m l r (Permutation_sym P) TM TL NM NL E'). congruence.
Qed.

(** [static const unsigned long _Alignas(16) int long volatile inline] *)
Example c49_example :
  let l := [PStorage CStatic; PQual QConst; PType SUnsigned; PType SLong; PAlign 16; PType SInt; PType SLong;
            PQual QVolatile; PFunction FInline] in
  treated (types l) /\ (forall n, In (PAlign n) l -> 0 <= n) /\
  analyze_specifiers (fun _ => 8) l = Some (TULLong, (true, false, true), StStatic, FInline, 16) /\
  denotes (types l) TULLong.
Proof.
  cbv zeta.
  assert (T : treated [SUnsigned; SLong; SInt; SLong]).
  { repeat apply conj.
    - discriminate.
    - intros a b c E. apply (f_equal (filter (fun s => match s with SInt => true | _ => false end))) in E.
      rewrite filter_app in E. cbn in E. rewrite filter_app in E. cbn in E. apply (f_equal (@length _)) in E.
      rewrite app_length in E. cbn in E. rewrite app_length in E. cbn in E. lia.
    - cbn. intuition discriminate.
    - intros a b c E. assert (H : In SDouble [SUnsigned; SLong; SInt; SLong]).
      { rewrite E. apply in_or_app. right. left. reflexivity. }
      cbn in H. intuition discriminate.
    - cbn. intuition discriminate. }
  split; [exact T|]. split; [|split; [reflexivity|]].
  - cbn. intros n H. repeat (destruct H as [H|H]; [try discriminate H; try (injection H as <-; lia)|]). contradiction.
  - apply types_sound; [exact T|reflexivity].
Qed.

(** * Where the code differs *)

(** [double long] is rejected though it denotes long double. *)
Theorem c49_double_long_refuted :
  denotes [SDouble; SLong] TLDouble /\
  forall natural, analyze_specifiers natural [PType SDouble; PType SLong] = None.
Proof. split; [exists [SLong; SDouble]; split; [constructor|apply perm_swap]|reflexivity]. Qed.

(** An extra [int] is accepted, and so is [int] with [long double]: no type is denoted. *)
Lemma denotes_length : forall l t, denotes l t -> (length l <= 4)%nat /\ l <> [].
Proof.
  intros l t (c & L & P). apply Permutation_length in P. rewrite P.
  assert (H : (1 <= length c <= 4)%nat).
  { destruct L as [| | | |k HK|k HK|k HK|k HK|k HK|k HK|k HK|k HK| | | | | | | | ]; try (every HK); cbn; lia. }
  split; [lia|]. intros ->. cbn in P. lia.
Qed.
Ltac undenoted :=
  intros t (c & L & P); apply Permutation_sym, arrangements_in in P;
  destruct L as [| | | |k HK|k HK|k HK|k HK|k HK|k HK|k HK|k HK| | | | | | | | ]; try (every HK); cbn in P; intuition discriminate.

Theorem c49_extra_int_refuted :
  (forall natural, analyze_specifiers natural [PType SLong; PType SInt; PType SInt] =
    Some (TLong, (false, false, false), Unknown, FNone, 0)) /\
  (forall t, ~ denotes [SLong; SInt; SInt] t) /\
  (forall natural, analyze_specifiers natural [PType SInt; PType SLong; PType SDouble] =
    Some (TLDouble, (false, false, false), Unknown, FNone, 0)) /\
  (forall t, ~ denotes [SInt; SLong; SDouble] t).
Proof. split; [reflexivity|]. split; [undenoted|]. split; [reflexivity|undenoted]. Qed.

(** [short] before a structure or an enumeration is ignored. *)
Theorem c49_short_name_refuted :
  (forall natural n, analyze_specifiers natural [PType SShort; PType (SStruct n)] =
    Some (TStruct n, (false, false, false), Unknown, FNone, 0)) /\
  (forall n t, ~ denotes [SShort; SStruct n] t).
Proof. split; [reflexivity|intros n; undenoted]. Qed.

(** A list without a type specifier is accepted (6.7.2p2 demands at least one). *)
Theorem c49_no_type_refuted :
  (forall natural, analyze_specifiers natural [PStorage CStatic] = Some (TInt, (false, false, false), StStatic, FNone, 0)) /\
  (forall t, ~ denotes (types [PStorage CStatic]) t).
Proof.
  split; [reflexivity|]. intros t H. destruct (denotes_length _ _ H) as [_ N]. apply N. reflexivity.
Qed.

(** An alignment that is not a power of two is accepted (6.7.5p3, 6.2.8p4). *)
Theorem c49_alignment_refuted :
  analyze_specifiers (fun _ => 1) [PAlign 3; PType SChar] = Some (TChar, (false, false, false), Unknown, FNone, 3) /\
  forall k, 0 <= k -> 3 <> 2 ^ k.
Proof.
  split; [reflexivity|]. intros k K E.
  destruct (Z.eq_dec k 0) as [->|NZ]; [discriminate|].
  replace k with (Z.succ (k - 1)) in E by lia. rewrite Z.pow_succ_r in E by lia. lia.
Qed.

Print Assumptions c49_specifiers_partial.
Print Assumptions c49_order.
Print Assumptions c49_double_long_refuted.
Print Assumptions c49_extra_int_refuted.
Print Assumptions c49_short_name_refuted.
Print Assumptions c49_no_type_refuted.
Print Assumptions c49_alignment_refuted.
