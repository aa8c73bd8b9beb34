(** C54: declarations of structures, unions and enumerations and the use of their members. *)
From Coq Require Import ZArith List Bool String Lia.
From Verif Require Import CompatModel CompositeModel ExprTypeModel TagModel TagSpec TagProofs TagUse.
Import ListNotations.
Open Scope string_scope.
Open Scope Z_scope.

(** ** Declarations *)

(** A sequence of declarations and scopes that meets [cov_run] is accepted if and only if the standard accepts it; then the
    enumeration constants have the values and the declared names the types of the standard. Missing: the sequences
    without [cov_run], see the refutations below. *)
Theorem c54_declarations_partial : forall es, cov_run es s_init ->
  match run_s es s_init with
  | Some s =>
    exists st, k_run es k_init = Some st /\
      (forall x, lookup (k_consts st) x = visible (s_consts s) x) /\
      Forall2 (fun p q => fst p = fst q /\ rep (s_ents s) (snd q) (snd p)) (s_names s) (k_names st)
  | None => k_run es k_init = None
  end.
Proof.
  intros es C. pose proof (run_sim es s_init k_init R_init C) as H. destruct (run_s es s_init) as [s|]; [|exact H].
  destruct H as (st & -> & [_ _ Hc _ Hn _]). exists st. split; [reflexivity|]. split.
  - intros x. rewrite Hc. generalize (k_consts st). intros l. induction l as [|f r IH]; cbn; [reflexivity|]. destruct (f x); auto.
  - clear - Hn. induction Hn; constructor; intuition.
Qed.

(** Tags declared in a scope: after the declarations a reference to a tag is accepted if and only if the standard
    accepts it, and it denotes the type that the standard says. *)
Theorem c54_tags_partial : forall es u x s, cov_run es s_init -> run_s es s_init = Some s ->
  exists st, k_run es k_init = Some st /\
  match spec_s (SRef u x) s with
  | Some (s', t) => exists st' k, k_spec (SRef u x) st = Some (st', k) /\ rep (s_ents s') k t
  | None => k_spec (SRef u x) st = None
  end.
Proof.
  intros es u x s C Q. pose proof (run_sim es s_init k_init R_init C) as H. rewrite Q in H. destruct H as (st & H & HR). exists st. split; [exact H|].
  pose proof (proj1 spec_sim (SRef u x) [] [] s st) as P. assert (Cv : cov_spec [] [] (SRef u x) s) by (cbn; unfold cov_kind; cbn; tauto).
  specialize (P Cv HR). destruct (spec_s (SRef u x) s) as [[s' t]|].
  - destruct P as (st' & k & A & _ & _ & B & _). eauto.
  - destruct P as [P|(st' & k & P & Kb)]; [exact P|]. exfalso. cbn in P. pose proof (R_look [] [] s st x HR (fun z => z)) as L.
    destruct (lookup (k_tags st) x) as [k0|] eqn:Lk.
    + destruct (same_kind k0 (record_type u false None [])); [|discriminate]. injection P as <- <-.
      destruct (visible (s_tags s) x) as [i|]; [|congruence]. destruct L as (e & _ & _ & [(k1 & L1 & _ & L2 & _)|(L1 & _)]); congruence.
    + destruct (define_tag x (record_type u false (Some x) []) st); [|discriminate]. injection P as <- <-. destruct u; discriminate.
Qed.

(** ** Use of members *)

(** From a declared name, dereferencing and naming members: accepted if and only if the type has the members, and then
    the type, up to its qualifiers, is the one of the member. Missing: paths through types whose tags are hidden. *)
Theorem c54_members_partial : forall es s st n d t d' k ps,
  cov_run es s_init -> run_s es s_init = Some s -> k_run es k_init = Some st ->
  nth_error (s_names s) n = Some (d, t) -> nth_error (k_names st) n = Some (d', k) -> clear_walk s t ps ->
  match k_walk st k ps with
  | Some k' =>
    exists t', walk (s_ents s) t ps t' /\ (forall t2, walk (s_ents s) t ps t2 -> t2 = t') /\
      exists k0, unqualified k' = unqualified k0 /\ rep (s_ents s) k0 t'
  | None => forall t', ~ walk (s_ents s) t ps t'
  end.
Proof.
  intros es s st n d t d' k ps C Qs Qk Ns Nk Cw. pose proof (run_sim es s_init k_init R_init C) as H. rewrite Qs in H.
  destruct H as (st0 & H & HR). assert (st0 = st) by congruence. subst st0.
  assert (U : rep (s_ents s) k t /\ k_check k = true).
  { pose proof (R_names _ _ _ _ HR) as F. clear - F Ns Nk. revert n Ns Nk. induction F as [|p q l r A F IH]; intros [|n] Ns Nk; try discriminate.
    - cbn in Ns, Nk. injection Ns as ->. injection Nk as ->. cbn in A. tauto.
    - cbn in Ns, Nk. eapply IH; eauto. }
  assert (Up : upto (s_ents s) k t) by (exists k; tauto).
  pose proof (walk_sim s st HR ps k t Up Cw) as W. destruct (k_walk st k ps) as [k'|]; [|exact W].
  destruct W as (t' & W1 & (k0 & U1 & U2 & _) & W2). exists t'. split; [exact W1|]. split; [exact W2|]. eauto.
Qed.

(** ** Enumerations *)

(** 6.7.2.2p4: the type compatible with an enumeration represents the values of all its constants. *)
Definition represents (b : basic) (z : Z) : Prop :=
  match b with BUInt => 0 <= z <= 4294967295 | BSInt => -2147483648 <= z <= 2147483647 | _ => False end.
Lemma enumerators_min es : forall next mn seen st st' mn' seen', k_enumerators es next mn seen st = Some (st', mn', seen') ->
  mn' <= mn /\
  (forall n z, ~ In n (map fst es) -> in_scope (k_consts st) n = Some z -> in_scope (k_consts st') n = Some z) /\
  (forall n, In n (map fst es) -> exists z, in_scope (k_consts st') n = Some z /\ mn' <= z).
Proof.
  induction es as [|[x e] r IH]; intros next mn seen st st' mn' seen' Q.
  - cbn in *. injection Q as <- <- <-. split; [lia|]. split; [auto|intros n []].
  - cbn [k_enumerators] in Q. destruct (match e with Some f => f (lookup (k_consts st)) | None => Some next end) as [v|]; [|discriminate].
    destruct (existsb _ seen); [discriminate|]. destruct (define_constant x v st) as [st1|] eqn:D; [|discriminate].
    destruct (IH _ _ _ _ _ _ _ Q) as (A & B & C). split; [lia|].
    unfold define_constant in D. destruct (k_consts st) as [|f c]; [discriminate|]. destruct (f x) eqn:Fx; [discriminate|]. injection D as <-.
    cbn [k_consts in_scope] in *. split.
    + intros n z N S. apply B; [intros J; apply N; now right|]. unfold put. destruct (String.eqb_spec x n) as [->|]; [exfalso; apply N; now left|exact S].
    + intros n [<-|J]; [|now apply C]. destruct (in_dec string_dec x (map fst r)) as [J|J]; [now apply C|]. exists v. split; [|lia].
      apply B; [exact J|]. unfold put. now rewrite String.eqb_refl.
Qed.
Theorem c54_enumeration_represents : forall x es st st' t, k_spec (SEnumDef x es) st = Some (st', t) ->
  (forall n z, In n (map fst es) -> lookup (k_consts st') n = Some z -> -2147483648 <= z <= 2147483647) ->
  exists seen under, t = TEnum true x seen under /\
  forall n, In n (map fst es) -> exists z, lookup (k_consts st') n = Some z /\ represents under z.
Proof.
  intros x es st st' t Q Rg. cbn [k_spec] in Q.
  destruct (k_enumerators es 0 max_int64 [] st) as [[[st1 mn] seen]|] eqn:Ke; [|discriminate].
  destruct (enumerators_min _ _ _ _ _ _ _ _ Ke) as (_ & _ & C).
  set (under := match es with [] => BSInt | _ => if 0 <=? mn then BUInt else BSInt end) in *.
  assert (St : k_consts st' = k_consts st1 /\ t = TEnum true x seen under).
  { unfold k_define in Q. destruct x as [y|]; [|injection Q as <- <-; auto]. destruct (define_tag y _ st1) as [st2|] eqn:D; [|discriminate].
    injection Q as <- <-. split; [|reflexivity]. unfold define_tag in D. destruct (k_tags st1) as [|f r]; [discriminate|].
    destruct (f y) as [t0|]; [|injection D as <-; reflexivity]. destruct (same_kind _ _); [|discriminate]. cbn in D.
    destruct (is_complete t0); [discriminate|]. injection D as <-. reflexivity. }
  destruct St as (Sc & ->). exists seen, under. split; [reflexivity|]. rewrite Sc in *. intros n J. destruct (C n J) as (z & Z1 & Z2).
  assert (L : lookup (k_consts st1) n = Some z) by (destruct (k_consts st1) as [|f r]; [discriminate|]; cbn in *; now rewrite Z1).
  exists z. split; [exact L|]. specialize (Rg n z J L). unfold under. destruct es as [|e r]; [destruct J|].
  destruct (0 <=? mn) eqn:M; cbn; [apply Z.leb_le in M|]; lia.
Qed.

(** ** A program that meets the hypotheses *)

Definition cst (n : string) (d : Z) : (string -> option Z) -> option Z := fun f => option_map (Z.add d) (f n).
Definition nq : qual := Q false false false.
Definition int' : spec := SBasic BSInt.
Definition program : list event :=
  [ (* struct List { int v; struct List *next; }; *)
    EBare (SDef false (Some "List") (MCons nq int' [MD "v" [] None] (MCons nq (SRef false "List") [MD "next" [DPtr nq] None] MNil)));
    (* typedef struct Fwd *FP; *)
    EDecl true nq (SRef false "Fwd") [DPtr nq] [];
    (* enum Color { RED, GREEN = RED + 5, BLUE }; *)
    EBare (SEnumDef (Some "Color") [("RED", None); ("GREEN", Some (cst "RED" 5)); ("BLUE", None)]);
    (* struct Fwd { struct { int a; unsigned b : 3; int : 0; }; FP back; struct List items[4]; enum Color c; }; *)
    EBare (SDef false (Some "Fwd")
      (MCons nq (SDef false None (MCons nq int' [MD "a" [] None] (MCons nq (SBasic BUInt) [MD "b" [] (Some 3)] (MCons nq int' [MPad 0] MNil)))) []
      (MCons nq (SName 0) [MD "back" [] None]
      (MCons nq (SRef false "List") [MD "items" [DArr (Some 4)] None]
      (MCons nq (SEnumRef "Color") [MD "c" [] None] MNil)))));
    (* const FP p, *q; *)
    EDecl false (Q true false false) (SName 0) [] [[DPtr nq]];
    EOpen;
    (* struct List { char c; } hidden; *)
    EDecl false nq (SDef false (Some "List") (MCons nq (SBasic BChar) [MD "c" [] None] MNil)) [] [];
    EClose;
    (* struct List x; *)
    EDecl false nq (SRef false "List") [] [] ].

Ltac leaf :=
  try match goal with
  | |- true = true \/ _ => left; reflexivity
  | |- _ \/ (false = false /\ _) => right; split; [reflexivity|split; [reflexivity|intros; discriminate]]
  | |- _ \/ ((exists _ _, _) /\ _) => right; split; [do 2 eexists; reflexivity|split; [reflexivity|split; [reflexivity|reflexivity]]]
  | H : Some _ = Some ?i |- _ => injection H as <-; repeat match goal with A : Some _ = Some _ |- _ => injection A as <- end; reflexivity
  end;
  try (repeat match goal with H : _ \/ _ |- _ => destruct H | H : False |- _ => destruct H | H : _ = _ |- _ => discriminate H end);
  try match goal with
  | b : list _ |- False => repeat (destruct b as [|? b]; try discriminate)
  end.
Example program_accepted : run_s program s_init <> None.
Proof. vm_compute. discriminate. Qed.
Example program_covered : cov_run program s_init.
Proof.
  vm_compute. repeat split; intros; try discriminate; try contradiction; leaf.
Qed.


Definition final : sstate := Eval vm_compute in match run_s program s_init with Some s => s | None => s_init end.
Definition k_final : kstate := Eval vm_compute in match k_run program k_init with Some s => s | None => k_init end.
Example program_run : run_s program s_init = Some final /\ k_run program k_init = Some k_final.
Proof. split; vm_compute; reflexivity. Qed.
Example program_constants : visible (s_consts final) "BLUE" = Some 6.
Proof. reflexivity. Qed.
(** (p->back->items)[0].next->v is an int, p->a is an int, x.c does not exist. *)
Definition path : list step := [PDeref; PMember "back"; PDeref; PMember "items"; PDeref; PMember "next"; PDeref; PMember "v"].
Definition used (n : nat) (ps : list step) : option ty :=
  match nth_error (k_names k_final) n with Some (_, k) => k_walk k_final k ps | None => None end.
Example program_path : used 1 path = Some (TBasic BSInt) /\ used 1 [PDeref; PMember "a"] = Some (TBasic BSInt) /\ used 4 [PMember "c"] = None.
Proof. vm_compute. repeat split. Qed.
Lemma clear_end s t : clear [] s t -> clear_walk s t [].
Proof. intros C p1 p2 t' Q W. destruct p1; [|discriminate]. inversion W; subst. exact C. Qed.
Lemma clear_pointer s t a ps : clear [] s t -> strip t = YPtr a -> clear_walk s a ps -> clear_walk s t (PDeref :: ps).
Proof.
  intros C Sh Cw p1 p2 t' Q W. destruct p1 as [|p r]; [inversion W; subst; exact C|]. injection Q as <- Q.
  inversion W as [|? a' ? ? Sa Wa|? n' a' ? ? Sa Wa|]; subst; rewrite Sh in Sa; [|discriminate]. injection Sa as <-. now apply (Cw r p2).
Qed.
Lemma clear_array s t n a ps : clear [] s t -> strip t = YArr n a -> clear_walk s a ps -> clear_walk s t (PDeref :: ps).
Proof.
  intros C Sh Cw p1 p2 t' Q W. destruct p1 as [|p r]; [inversion W; subst; exact C|]. injection Q as <- Q.
  inversion W as [|? a' ? ? Sa Wa|? n' a' ? ? Sa Wa|]; subst; rewrite Sh in Sa; [discriminate|]. injection Sa as <- <-. now apply (Cw r p2).
Qed.
Lemma clear_member s t i m a ps : wf (s_ents s) -> clear [] s t -> strip t = YTag i -> has (s_ents s) i m a ->
  clear_walk s a ps -> clear_walk s t (PMember m :: ps).
Proof.
  intros Wf C Sh Ha Cw p1 p2 t' Q W. destruct p1 as [|p r]; [inversion W; subst; exact C|]. injection Q as <- Q.
  inversion W as [| | |? i' ? a' ? ? Ti Ha' Wa]; subst. rewrite Sh in Ti. injection Ti as <-.
  rewrite <- (has_unique _ _ _ _ Wf Ha _ Ha') in Wa. now apply (Cw r p2).
Qed.
Ltac clear_type := vm_compute; intros i e x A B C; try discriminate A; injection A as <-; injection B as <-; injection C as <-; (split; [reflexivity|intros []]).
Example program_clear : exists d t, nth_error (s_names final) 1 = Some (d, t) /\ clear_walk final t path.
Proof.
  do 2 eexists. split; [reflexivity|].
  assert (Wf : wf (s_ents final)).
  { pose proof (run_sim program s_init k_init R_init program_covered) as H.
    rewrite (proj1 program_run) in H. destruct H as (st & _ & HR). apply HR. }
  unfold path. eapply clear_pointer; [clear_type|reflexivity|].
  eapply clear_member; [exact Wf|clear_type|reflexivity|eapply has_member; [reflexivity|cbn; auto]|].
  eapply clear_pointer; [clear_type|reflexivity|].
  eapply clear_member; [exact Wf|clear_type|reflexivity|eapply has_member; [reflexivity|cbn; auto]|].
  eapply clear_array; [clear_type|reflexivity|].
  eapply clear_member; [exact Wf|clear_type|reflexivity|eapply has_member; [reflexivity|cbn; auto]|].
  eapply clear_pointer; [clear_type|reflexivity|].
  eapply clear_member; [exact Wf|clear_type|reflexivity|eapply has_member; [reflexivity|cbn; auto]|].
  apply clear_end. clear_type.
Qed.
(** A covered sequence that is refused: a member twice *)
Example refused : let es := [EBare (SDef true (Some "U") (MCons nq int' [MD "a" [] None; MD "a" [DPtr nq] None] MNil))] in
  cov_run es s_init /\ run_s es s_init = None /\ k_run es k_init = None.
Proof. split; [|split; reflexivity]. vm_compute. repeat split; intros; try discriminate; try contradiction; leaf; now left. Qed.
Example enumeration : exists st' t, k_spec (SEnumDef (Some "E") [("A", Some (fun _ => Some (-1))); ("B", None)]) k_init = Some (st', t) /\
  lookup (k_consts st') "A" = Some (-1) /\ lookup (k_consts st') "B" = Some 0.
Proof. do 2 eexists. split; [reflexivity|split; reflexivity]. Qed.

(** ** Where the compiler differs from the standard *)

Definition accepts_more (es : list event) : Prop := run_s es s_init = None /\ k_run es k_init <> None.
Definition accepts_less (es : list event) : Prop := run_s es s_init <> None /\ k_run es k_init = None.
Ltac differ := split; vm_compute; [reflexivity|discriminate] || (split; [vm_compute; discriminate|vm_compute; reflexivity]).
Definition def (u : bool) (x : string) (ms : mdecls) : spec := SDef u (Some x) ms.
Definition one (p : spec) (m : string) (sh : list dmod) : mdecls := MCons nq p [MD m sh None] MNil.

(** 6.2.1p7: the scope of a tag begins just after the tag. struct S { int a; }; { struct S { struct S *next; }; }: the
    member refers to the outer structure. *)
Definition self : list event :=
  [EBare (def false "S" (one int' "a" [])); EOpen; EDecl false nq (def false "S" (one (SRef false "S") "next" [DPtr nq])) [] []].
Theorem c54_hiding_self_reference_refuted :
  exists s st d t d' k t', run_s self s_init = Some s /\ k_run self k_init = Some st /\
  nth_error (s_names s) 0 = Some (d, t) /\ nth_error (k_names st) 0 = Some (d', k) /\
  walk (s_ents s) t [PMember "next"; PDeref; PMember "next"] t' /\
  k_walk st k [PMember "next"; PDeref; PMember "next"] = None /\ k_walk st k [PMember "next"; PDeref; PMember "a"] <> None.
Proof.
  set (r := run_s self s_init). vm_compute in r. set (r' := k_run self k_init). vm_compute in r'.
  do 7 eexists. split; [reflexivity|]. split; [reflexivity|]. split; [reflexivity|]. split; [reflexivity|].
  split; [|split; vm_compute; [reflexivity|discriminate]].
  eapply walk_member; [reflexivity|eapply has_member; [reflexivity|now left]|].
  eapply walk_pointer; [reflexivity|]. eapply walk_member; [reflexivity|eapply has_member; [reflexivity|now left]|]. apply walk_end.
Qed.

(** 6.7.2.3p7: struct S { int a; }; { struct S; struct S *p; struct S { int b; }; }: the pointer points to the outer
    structure. *)
Definition redeclare : list event :=
  [EBare (def false "S" (one int' "a" [])); EOpen; EBare (SRef false "S"); EDecl false nq (SRef false "S") [DPtr nq] [];
   EBare (def false "S" (one int' "b" []))].
Theorem c54_redeclared_tag_refuted :
  exists s st d t d' k t', run_s redeclare s_init = Some s /\ k_run redeclare k_init = Some st /\
  nth_error (s_names s) 0 = Some (d, t) /\ nth_error (k_names st) 0 = Some (d', k) /\
  walk (s_ents s) t [PDeref; PMember "b"] t' /\
  k_walk st k [PDeref; PMember "b"] = None /\ k_walk st k [PDeref; PMember "a"] <> None.
Proof.
  set (r := run_s redeclare s_init). vm_compute in r. set (r' := k_run redeclare k_init). vm_compute in r'.
  do 7 eexists. split; [reflexivity|]. split; [reflexivity|]. split; [reflexivity|]. split; [reflexivity|].
  split; [|split; vm_compute; [reflexivity|discriminate]].
  eapply walk_pointer; [reflexivity|]. eapply walk_member; [reflexivity|eapply has_member; [reflexivity|now left]|]. apply walk_end.
Qed.

(** struct S *p; { struct S { int b; }; ... p->b ... }: the outer structure is incomplete and has no members. *)
Definition capture : list event :=
  [EDecl false nq (SRef false "S") [DPtr nq] []; EOpen; EBare (def false "S" (one int' "b" []))].
Theorem c54_captured_tag_refuted :
  exists s st d t d' k, run_s capture s_init = Some s /\ k_run capture k_init = Some st /\
  nth_error (s_names s) 0 = Some (d, t) /\ nth_error (k_names st) 0 = Some (d', k) /\
  (forall t', ~ walk (s_ents s) t [PDeref; PMember "b"] t') /\ k_walk st k [PDeref; PMember "b"] <> None.
Proof.
  set (r := run_s capture s_init). vm_compute in r. set (r' := k_run capture k_init). vm_compute in r'.
  do 6 eexists. split; [reflexivity|]. split; [reflexivity|]. split; [reflexivity|]. split; [reflexivity|].
  split; [|vm_compute; discriminate]. intros t' W. inversion W as [|? a' ? ? Sa Wa|? n' a' ? ? Sa Wa|]; subst; cbn in Sa; [|discriminate].
  injection Sa as <-. inversion Wa as [| | |? i' ? a' ? ? Ti Ha' Wb]; subst. cbn in Ti. injection Ti as <-.
  inversion Ha' as [i0 ms fl fx m0 t0 w C I|i0 ms fl fx t0 j m0 t1 C I Q H]; subst; discriminate C.
Qed.

(** 6.7.2.2p2: enum { A = 4294967296 }; *)
Theorem c54_enumerator_range_refuted : accepts_more [EBare (SEnumDef None [("A", Some (fun _ => Some 4294967296))])].
Proof. differ. Qed.
(** 6.7.2.3p3: enum E x; without a definition of E *)
Theorem c54_unknown_enumeration_refuted : accepts_more [EDecl false nq (SEnumRef "E") [] []].
Proof. differ. Qed.
(** 6.7p2: int; *)
Theorem c54_empty_declaration_refuted : accepts_more [EBare int'].
Proof. differ. Qed.
(** 6.7.2.1p2: struct T { int a; }; struct S { struct T; }; *)
Theorem c54_tagged_anonymous_refuted :
  accepts_more [EBare (def false "T" (one int' "a" [])); EBare (def false "S" (MCons nq (SRef false "T") [] MNil))].
Proof. differ. Qed.
(** 6.7.2.1p13: struct S { const struct { int a; }; }; *)
Theorem c54_qualified_anonymous_refuted :
  accepts_less [EBare (def false "S" (MCons (Q true false false) (SDef false None (one int' "a" [])) [] MNil))].
Proof. differ. Qed.
(** 6.7.2.1p13, 6.2.3: struct S { int a; struct { int a; }; }; *)
Theorem c54_duplicate_anonymous_refuted :
  accepts_more [EBare (def false "S" (MCons nq int' [MD "a" [] None] (MCons nq (SDef false None (one int' "a" [])) [] MNil)))].
Proof. differ. Qed.
(** 6.7.2.1p3: struct F { int n; int a[]; }; struct S { struct F f; }; and struct F x[2]; *)
Definition with_flexible : event := EBare (def false "F" (MCons nq int' [MD "n" [] None; MD "a" [DArr None] None] MNil)).
Theorem c54_flexible_member_refuted : accepts_more [with_flexible; EBare (def false "S" (one (SRef false "F") "f" []))].
Proof. differ. Qed.
Theorem c54_flexible_element_refuted : accepts_more [with_flexible; EDecl false nq (SRef false "F") [DArr (Some 2)] []].
Proof. differ. Qed.
(** 6.7.2.1p18: struct S { int : 3; int a[]; }; *)
Theorem c54_flexible_alone_refuted : accepts_more [EBare (def false "S" (MCons nq int' [MPad 3; MD "a" [DArr None] None] MNil))].
Proof. differ. Qed.
(** 6.7.2.1p4: struct S { _Bool b : 2; }; *)
Theorem c54_bool_width_refuted : accepts_more [EBare (def false "S" (MCons nq (SBasic BBool) [MD "b" [] (Some 2)] MNil))].
Proof. differ. Qed.
(** 6.7.6.2p1: int a[-1]; *)
Theorem c54_array_length_refuted : accepts_more [EDecl false nq int' [DArr (Some (-1))] []].
Proof. differ. Qed.
(** 6.7.3p2: restrict int x; *)
Theorem c54_restrict_refuted : accepts_more [EDecl false (Q false true false) int' [] []].
Proof. differ. Qed.
(** 6.7.6.2p1: a function that returns a pointer to an array of functions *)
Theorem c54_return_type_refuted : accepts_more [EDecl false nq int' [DFun; DArr (Some 3); DPtr nq; DFun] []].
Proof. differ. Qed.

Print Assumptions c54_declarations_partial.
Print Assumptions c54_tags_partial.
Print Assumptions c54_members_partial.
Print Assumptions c54_enumeration_represents.
Print Assumptions program_covered.
Print Assumptions program_clear.
Print Assumptions c54_hiding_self_reference_refuted.
Print Assumptions c54_redeclared_tag_refuted.
Print Assumptions c54_captured_tag_refuted.
Print Assumptions c54_qualified_anonymous_refuted.
