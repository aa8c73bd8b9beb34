(** * C52: a name denotes the entity that the scope, linkage and definition rules give it

    Translation units are sequences of declarations, enumeration constants, function definitions, blocks and uses of names
    ([event]). The rules of C17 6.2.1, 6.2.2, 6.2.4, 6.7, 6.9 are in LinkageSpec; the analyzer's tables in LinkageModel. *)

From Coq Require Import List Bool Arith Lia.
From Verif Require Import LinkageModel LinkageSpec LinkageProofs LinkageReject.
Import ListNotations.

(** ** Valid units *)

(** A unit that the standard accepts, made of covered declarations, is accepted. Each use of a name gives the kind, type,
    storage duration and linkage that the standard gives ([view] reads them off the scoped identifier). Two uses give the
    same scoped identifier exactly if they denote the same object, function, constant or type name. And each name with
    linkage has the symbol that it must have: imported, exported or local, thread-local or not, with its initial value.
    _partial: the declarations that [covers] leaves out. *)
Theorem c52_valid_units_partial : forall (L : lang) evs s o,
  lang_ok L -> covered L (sinit L) evs -> sruns L evs (sinit L) = Valid (s, o) ->
  exists c m, run L evs (cinit L) = Ok (c, m)
    /\ map (fun p => view L (snd p)) m = map snd o
    /\ (forall i j a v e f b w g h,
          nth_error m i = Some (a, v) -> nth_error o i = Some (e, f) ->
          nth_error m j = Some (b, w) -> nth_error o j = Some (g, h) -> (a = b <-> e = g))
    /\ (forall x, symbols L c x = due L s x).
Proof.
  intros L evs s o OK CV ST. destruct (run_ok L evs _ _ _ s o OK (R_init L) CV ST) as (c & es & m & M & RR & _ & A).
  exists c, m. split; [exact M|]. split; [|split].
  - clear - A. induction A as [|p q m o [_ E] A IH]; cbn; [reflexivity|]. rewrite E, IH. reflexivity.
  - assert (forall i a v e f, nth_error m i = Some (a, v) -> nth_error o i = Some (e, f) -> nth_error es a = Some e) as N.
    { clear - A. induction A as [|[a0 v0] [e0 f0] m o [E _] A IH]; intros [|i] a v e f; cbn; try discriminate; [|apply IH].
      intros H K. injection H as <- <-. injection K as <- <-. exact E. }
    intros i j a v e f b w g h MI OI MJ OJ. pose proof (N _ _ _ _ _ MI OI) as E. pose proof (N _ _ _ _ _ MJ OJ) as G. split.
    + intros <-. congruence.
    + intros <-. eapply NoDup_nth; [|exact E|exact G]. apply (t_nodup _ _ _ _ _ _ _ (proj1 (proj1 RR))).
  - intros x. eapply symbols_ok. exact RR.
Qed.

(** ** Invalid units *)

(** After a valid beginning, an event that violates a constraint stops the analysis.
    _partial: the violations that [detects] leaves out. *)
Theorem c52_violations_partial : forall (L : lang) evs s o e rest,
  lang_ok L -> covered L (sinit L) evs -> sruns L evs (sinit L) = Valid (s, o) ->
  sstep L e s = Violates -> detects_event L s e ->
  forall p, run L (evs ++ e :: rest) (cinit L) <> Ok p.
Proof.
  intros L evs s o e rest OK CV ST V DT p H.
  destruct (run_ok L evs _ _ _ s o OK (R_init L) CV ST) as (c & es & m & M & RR & _).
  pose proof (sane_runs L evs _ _ _ s o OK (R_init L) (sane_init L) CV ST) as S.
  rewrite run_app, M in H. cbn in H. destruct (step L e c) as [q| |] eqn:E; cbn in H; try discriminate.
  exact (step_reject L e c s es q OK RR S DT V E).
Qed.

(** ** Concrete cases *)

(** A few types: int, an enumerated type compatible with it, int[n] and int[], pointers to them, int (void),
    int[n] of variable length, a pointer to one, and an array of such pointers. An initializer is a list of [n] constants,
    or a call. *)
Inductive sty := Int | Enum | Arr (n : option nat) | PArr (n : option nat) | Fun | Vla | PVla | APVla.
Inductive sini := Const (n : nat) | Call.

Definition onat_eqb (a b : option nat) : bool :=
  match a, b with None, None => true | Some x, Some y => Nat.eqb x y | _, _ => false end.
Definition sty_eqb (a b : sty) : bool :=
  match a, b with
  | Int, Int | Enum, Enum | Fun, Fun | Vla, Vla | PVla, PVla | APVla, APVla => true
  | Arr n, Arr m | PArr n, PArr m => onat_eqb n m
  | _, _ => false
  end.
Definition lengths (n m : option nat) : bool := match n, m with Some x, Some y => Nat.eqb x y | _, _ => true end.
Definition scompat (a b : sty) : bool :=
  match a, b with
  | Arr n, Arr m | PArr n, PArr m => lengths n m
  | Int, Enum | Enum, Int => true
  | _, _ => sty_eqb a b
  end.
Definition sjoint (a b : sty) : sty :=
  match a, b with
  | Arr None, Arr m => Arr m
  | PArr None, PArr m => PArr m
  | Int, Enum => Enum
  | _, _ => a
  end.
Definition scompleted (t : sty) (i : sini) : option sty :=
  match t, i with
  | Fun, _ => None
  | Arr None, Const n => Some (Arr (Some n))
  | Arr None, Call => None
  | _, _ => Some t
  end.
Definition small : lang := Lang sty sini
  (fun t => match t with Fun => true | _ => false end)
  (fun t => match t with PArr _ | PVla => true | _ => false end)
  (fun t => match t with Vla | PVla | APVla => true | _ => false end)
  (fun t => match t with Vla => true | _ => false end)
  (fun t => match t with Arr None => true | _ => false end)
  scompat (fun a b => Some (sjoint a b)) scompleted
  (fun i => match i with Const _ => true | Call => false end)
  sty_eqb sjoint.

Lemma small_ok : lang_ok small.
Proof.
  split.
  - intros []; cbn; try discriminate; auto.
  - intros a b. cbn. destruct a, b; cbn; try discriminate; try reflexivity;
      (destruct n as [x|], n0 as [y|]; cbn; try discriminate; try reflexivity; intros H; apply Nat.eqb_eq in H; congruence).
Qed.

Notation dcl x t c i := (EDecl small (Decl small x t c false i)).
Notation fdef x c := (EDef small (Decl small x Fun c false None)).
Notation use x := (EUse small x).

(** The unit
<<
      static int x;              extern int a[];          int f(void);
      int g(void) {
        extern int x;            int a[2];
        { static int x = 1;      extern int f(void);      enum { c };    x; a; f; c; }
        x; a;
      }
      int a[] = { 1, 2, 3 };     static int x = 7;
>>
    with x = 0, a = 1, f = 2, g = 3, c = 4. *)
Definition unit1 : list (event small) :=
  [ dcl 0 Int ScStatic None; dcl 1 (Arr None) ScExtern None; dcl 2 Fun ScNone None;
    EOpen small; fdef 3 ScNone; dcl 0 Int ScExtern None; use 0; dcl 1 (Arr (Some 2)) ScNone None;
    EOpen small; dcl 0 Int ScStatic (Some (Const 1)); dcl 2 Fun ScExtern None; EConst small 4;
    use 0; use 1; use 2; use 4; EClose small; use 0; use 1; EClose small;
    dcl 1 (Arr None) ScNone (Some (Const 3)); dcl 0 Int ScStatic (Some (Const 7)); use 0; use 1 ].

Example c52_case_valid : exists s,
  sruns small unit1 (sinit small) =
    Valid (s, [ (Linked 0, IObject small Int Static LInternal);
                (Own 1, IObject small Int Static LNone); (Own 0, IObject small (Arr (Some 2)) Automatic LNone);
                (Linked 2, IFunction small Fun LExternal); (Own 2, IConstant small);
                (Linked 0, IObject small Int Static LInternal); (Own 0, IObject small (Arr (Some 2)) Automatic LNone);
                (Linked 0, IObject small Int Static LInternal); (Linked 1, IObject small (Arr (Some 3)) Static LExternal) ])
  /\ due small s 0 = [Symbol small Local false false (Some (Const 7))]
  /\ due small s 1 = [Symbol small Export false false (Some (Const 3))]
  /\ due small s 2 = [Symbol small Import true false None]
  /\ due small s 3 = [Symbol small Export true false None].
Proof. eexists. repeat split. Qed.

(** Coverage, decided for these types. *)
Definition imp (a b : bool) : bool := negb a || b.
Definition coversb (s : sstate small) (d : decl small) : bool :=
  let t := d_type small d in let c := d_class small d in let x := d_name small d in
  imp (d_inline small d) (static c)
  && imp (negb (at_file small s)) (match c with ScExternThread => false | _ => true end)
  && imp (at_file small s && extern c && has_init small d) (negb (internal small s d))
  && match current small s x with
     | Some (Own n) =>
         match nth_error (owns small s) n with
         | Some (OwnType _ t0) => imp (typedef c) (Bool.eqb (scompat t0 t) (sty_eqb t0 t))
         | _ => true
         end
     | _ => true
     end
  && imp (negb (at_file small s) && has_init small d && vm small t) (vla small t)
  && imp (negb (at_file small s) && static c && vm small t) (vla small t || is_ptr small t)
  && imp (has_linkage small s d) match known small s x with
     | Some k =>
         let u := l_type small k in
         imp (has_init small d) (sty_eqb (sjoint u (final_type small d)) (final_type small d))
         && imp (negb (at_file small s)) (sty_eqb (sjoint u t) u)
         && (match visible small s x with Some (Linked y) => Nat.eqb y x | _ => false end || sty_eqb (sjoint u t) t)
     | None => true
     end.
Fixpoint coveredb (s : sstate small) (es : list (event small)) : bool :=
  match es with
  | [] => true
  | e :: r =>
      match e with EDecl _ d => coversb s d | EDef _ d => coversb (outside small s) d | _ => true end
      && match sstep small e s with Valid (s', _) => coveredb s' r | _ => true end
  end.

Lemma imp_true a b : imp a b = true -> a = true -> b = true.
Proof. destruct a, b; cbn; congruence. Qed.
Lemma sty_eqb_true a b : sty_eqb a b = true -> a = b.
Proof. apply (ok_same small small_ok a b). Qed.

Lemma coversb_ok s d : coversb s d = true -> covers small s d.
Proof.
  unfold coversb. cbv zeta. rewrite !andb_true_iff. intros ((((((A & B) & C) & D) & E) & F) & G).
  pose proof (imp_true _ _ A) as A'. pose proof (imp_true _ _ B) as B'. pose proof (imp_true _ _ C) as C'.
  pose proof (imp_true _ _ E) as E'. pose proof (imp_true _ _ F) as F'. split.
  - exact A'.
  - intros AF Q. rewrite AF, Q in B'. discriminate (B' eq_refl).
  - intros AF X I. rewrite AF, X, I in C'. apply negb_true_iff. apply C'. reflexivity.
  - intros n t TD CU O. rewrite CU, O in D. apply eqb_prop. apply (imp_true _ _ D TD).
  - intros AF I V. rewrite AF, I, V in E'. apply E'. reflexivity.
  - intros AF S V. rewrite AF, S, V in F'. apply orb_prop. apply F'. reflexivity.
  - intros k HL K. apply (imp_true _ _ G) in HL. clear G. rename HL into G. rewrite K in G. rewrite !andb_true_iff in G. destruct G as ((G1 & G2) & G3). split; [reflexivity|]. split; [|split].
    + intros I. apply sty_eqb_true. apply (imp_true _ _ G1 I).
    + intros AF. apply sty_eqb_true. apply (imp_true _ _ G2). rewrite AF. reflexivity.
    + intros N. apply orb_prop in G3. destruct G3 as [G3|G3]; [|apply sty_eqb_true; exact G3].
      destruct (visible small s (d_name small d)) as [[y|n]|]; try discriminate. apply Nat.eqb_eq in G3. subst. congruence.
Qed.

Lemma coveredb_ok es : forall s, coveredb s es = true -> covered small s es.
Proof.
  induction es as [|e es IH]; intros s H; [exact I|]. cbn [coveredb] in H. apply andb_prop in H. destruct H as [H1 H2].
  cbn [covered]. split.
  - destruct e; try exact I; apply coversb_ok; exact H1.
  - destruct (sstep small e s) as [[s' o]| |]; try exact I. apply IH. exact H2.
Qed.

Example c52_case_covered : covered small (sinit small) unit1.
Proof. apply coveredb_ok. vm_compute. reflexivity. Qed.

(** The theorem applies: the analyzer accepts the unit and gives each use what it must. *)
Example c52_case_run : exists c m, run small unit1 (cinit small) = Ok (c, m) /\ length m = 9.
Proof.
  destruct c52_case_valid as (s & V & _).
  destruct (c52_valid_units_partial small unit1 s _ small_ok c52_case_covered V) as (c & m & M & I & _).
  exists c, m. split; [exact M|]. apply (f_equal (@length _)) in I. rewrite !map_length in I. exact I.
Qed.

(** After `static int x; int f(void);`: another kind, another type or a missing declaration is a violation. *)
Definition begin1 : list (event small) := [dcl 0 Int ScStatic None; dcl 2 Fun ScNone None].
Example c52_case_violations : forall e,
  In e [dcl 0 Fun ScNone None; dcl 0 (Arr None) ScStatic None; dcl 2 Int ScTypedef None; dcl 0 Int ScStatic (Some Call);
        dcl 5 Int ScAuto None; dcl 5 Fun ScThread None; dcl 0 Int ScStaticThread None; dcl 5 Vla ScNone None;
        EConst small 2; use 7] ->
  forall rest p, run small (begin1 ++ e :: rest) (cinit small) <> Ok p.
Proof.
  intros e I rest.
  assert (covered small (sinit small) begin1) as C.
  { apply coveredb_ok. reflexivity. }
  destruct (sruns small begin1 (sinit small)) as [[s o]| |] eqn:V; try discriminate V. injection V as <- <-.
  repeat (destruct I as [<-|I];
    [eapply c52_violations_partial; [exact small_ok|exact C|reflexivity|reflexivity|]; first [exact Logic.I|split; cbn; try discriminate]|]).
  destruct I.
Qed.

(** A second definition of a static function, found in the middle of a unit. *)
Example c52_case_twice : forall rest p,
  run small ([EOpen small; fdef 3 ScStatic; EClose small; EOpen small] ++ fdef 3 ScStatic :: rest) (cinit small) <> Ok p.
Proof.
  intros rest. eapply c52_violations_partial; [exact small_ok| |reflexivity|reflexivity|].
  - apply coveredb_ok. reflexivity.
  - split; cbn; discriminate.
Qed.

(** ** Refuted *)

(** In a block, `extern _Thread_local int x;` declares an ordinary object: local_context.c 233-239 call
    kefir_ast_local_context_declare_external for it. The accesses go to a symbol that is not thread-local. *)
Theorem c52_block_thread_local_refuted : exists evs s o c m,
  sruns small evs (sinit small) = Valid (s, o) /\ run small evs (cinit small) = Ok (c, m)
  /\ symbols small c 0 = [Symbol small Import false false None] /\ due small s 0 = [Symbol small Import false true None].
Proof.
  exists [EOpen small; fdef 3 ScNone; dcl 0 Int ScExternThread None; use 0]. eexists _, _, _, _. repeat split.
Qed.

(** ... and if the file scope has `extern _Thread_local int x;`, it is refused. *)
Theorem c52_block_thread_local_again_refuted : exists evs s o,
  sruns small evs (sinit small) = Valid (s, o) /\ run small evs (cinit small) = Refused.
Proof.
  exists [dcl 0 Int ScExternThread None; EOpen small; fdef 3 ScNone; dcl 0 Int ScExternThread None].
  eexists _, _. split; reflexivity.
Qed.

(** `typedef int T; typedef enum E T;` is accepted: a type name may be declared again for a compatible type (6.7p3: the
    same type). *)
Theorem c52_typedef_compatible_refuted : exists evs p,
  sruns small evs (sinit small) = Violates /\ run small evs (cinit small) = Ok p.
Proof. exists [dcl 0 Int ScTypedef None; dcl 0 Enum ScTypedef None]. eexists. split; reflexivity. Qed.

(** In a block, a type name is even declared again for a variably modified type (6.7p3). *)
Theorem c52_typedef_variably_modified_refuted : exists evs p,
  sruns small evs (sinit small) = Violates /\ run small evs (cinit small) = Ok p.
Proof.
  exists [EOpen small; fdef 3 ScNone; dcl 0 Vla ScTypedef None; dcl 0 Vla ScTypedef None]. eexists. split; reflexivity.
Qed.

(** `extern int ( *p)[5]; int ( *p)[] = 0; p;`: the type that is left is that of the initialized declaration, not the composite
    type (6.2.7p4), so that *p has an incomplete type. *)
Theorem c52_initialized_composite_refuted : exists evs s o c m,
  sruns small evs (sinit small) = Valid (s, o) /\ run small evs (cinit small) = Ok (c, m)
  /\ map snd o = [IObject small (PArr (Some 5)) Static LExternal]
  /\ map (fun p => view small (snd p)) m = [IObject small (PArr None) Static LExternal].
Proof.
  exists [dcl 0 (PArr (Some 5)) ScExtern None; dcl 0 (PArr None) ScNone (Some (Const 1)); use 0].
  eexists _, _, _, _. repeat split.
Qed.

(** `static int x; extern int x = 1;` is refused: extern keeps the internal linkage (6.2.2p4), and the second declaration is
    the definition. *)
Theorem c52_extern_initializer_refuted : exists evs s o,
  sruns small evs (sinit small) = Valid (s, o) /\ run small evs (cinit small) = Refused.
Proof. exists [dcl 0 Int ScStatic None; dcl 0 Int ScExtern (Some (Const 1))]. eexists _, _. split; reflexivity. Qed.

(** In a block, a pointer to a variable length array cannot be initialized: 6.7.9p3 excludes only the arrays themselves. *)
Theorem c52_pointer_to_vla_refuted : exists evs s o,
  sruns small evs (sinit small) = Valid (s, o) /\ run small evs (cinit small) = Refused.
Proof. exists [EOpen small; fdef 3 ScNone; dcl 0 PVla ScNone (Some (Const 1))]. eexists _, _. split; reflexivity. Qed.

(** In a block, a static array of pointers to variable length arrays is refused: 6.7.6.2p2 excludes only variable length
    arrays. *)
Theorem c52_static_pointers_refuted : exists evs s o,
  sruns small evs (sinit small) = Valid (s, o) /\ run small evs (cinit small) = Refused.
Proof. exists [EOpen small; fdef 3 ScNone; dcl 0 APVla ScStatic None]. eexists _, _. split; reflexivity. Qed.

(** `inline int f(void) { ... }`, the only declaration of f: an inline definition is no external definition (6.7.4p7), but
    the symbol is exported. *)
Theorem c52_inline_definition_refuted : exists c m,
  run small [EOpen small; EDef small (Decl small 3 Fun ScNone true None); EClose small] (cinit small) = Ok (c, m)
  /\ symbols small c 3 = [Symbol small Export true false None].
Proof. eexists _, _. split; reflexivity. Qed.

Print Assumptions c52_valid_units_partial.
Print Assumptions c52_violations_partial.
Print Assumptions c52_block_thread_local_refuted.
Print Assumptions c52_initialized_composite_refuted.
