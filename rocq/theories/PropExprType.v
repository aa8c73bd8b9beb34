(** C53: the analyzer accepts the expressions that satisfy the constraints of C17 6.5 and gives them their types. *)
(* The rules are in ExprTypeSpec ([typed]); the analyzer gives sizeof and _Alignof the type int, see the first refutation,
   so the theorem takes the rules with int there. *)
From Coq Require Import ZArith List Bool String Lia.
From Verif Require Import CTypes TypeConvModel PropTypes CompatModel CompositeModel PropCompatSpec ExprTypeModel ExprTypeSpec ExprTypeProofs.
Import ListNotations.
Open Scope string_scope.
Open Scope Z_scope.

Theorem c53_expression_types_partial : forall G e, sound G -> covered G e ->
  (forall t k, typed (TBasic BSInt) G e t k -> exists p, analyze G e = Ok p /\ n_type p = t /\ n_bits p = k_bits k) /\
  (forall p, analyze G e = Ok p -> exists k, typed (TBasic BSInt) G e (n_type p) k /\ n_bits p = k_bits k) /\
  analyze G e <> Bad.
Proof.
  intros G e S C. destruct (analyze_typed G S e C) as (M1 & M2 & M3). split; [|split; [|exact M3]].
  - intros t k H. destruct (M1 t k H) as (p & E & R). exists p. split; [exact E|]. split; [apply (r_type _ _ _ _ _ R)|apply (r_bits _ _ _ _ _ R)].
  - intros p H. destruct (M2 p H) as (t & k & T & R). exists k. rewrite (r_type _ _ _ _ _ R). split; [exact T|apply (r_bits _ _ _ _ _ R)].
Qed.

(** An expression that satisfies the constraints is one for which it has exactly the type found. *)
Theorem c53_type_found_partial : forall G e p t k, sound G -> covered G e -> analyze G e = Ok p ->
  typed (TBasic BSInt) G e t k -> t = n_type p /\ k_bits k = n_bits p.
Proof.
  intros G e p t k S C A H. destruct (c53_expression_types_partial G e S C) as (M & _). destruct (M t k H) as (p' & E & X & Y). split; congruence.
Qed.

(** What violates a constraint is rejected, and nothing else. *)
Theorem c53_rejected_partial : forall G e, sound G -> covered G e ->
  (analyze G e = Err <-> forall t k, ~ typed (TBasic BSInt) G e t k).
Proof.
  intros G e S C. destruct (c53_expression_types_partial G e S C) as (M1 & M2 & M3). split.
  - intros H t k T. destruct (M1 t k T) as (p & X & _). congruence.
  - intros N. destruct (analyze G e) as [p| |]; [|reflexivity|congruence]. destruct (M2 p eq_refl) as (k & T & _). destruct (N _ _ T).
Qed.

(** What the analyzer takes for assignable and for addressable: lvalues except arrays, and what 6.5.3.2p1 allows. *)
Theorem c53_designators_partial : forall G e p t k, sound G -> covered G e -> analyze G e = Ok p -> typed (TBasic BSInt) G e t k ->
  (is_member e = true -> rooted e = true /\ unregistered G e = true) -> strip t <> void -> ~ function t -> ~ array t ->
  (n_lvalue p = true <-> k_lvalue k = true) /\ (is_string e = false -> n_addr p = true <-> may_take_address e t k).
Proof.
  intros G e p t k S C A H M V F NA. destruct (analyze_typed G S e C) as (M1 & _).
  destruct (M1 t k H) as (p' & E & R). assert (p' = p) by congruence. subst p'. split.
  - split; intros X; [apply (r_lvalue' _ _ _ _ _ R); auto; intros Y; now apply M|now apply (r_lvalue _ _ _ _ _ R)].
  - intros NS. split; intros X; [now apply (r_addr' _ _ _ _ _ R)|now apply (r_addr _ _ _ _ _ R)].
Qed.

(** ** Examples *)

Definition names (l : list (string * ident)) (x : string) : option ident := option_map snd (find (fun p => String.eqb (fst p) x) l).
Definition scope (l : list (string * ident)) : ctx :=
  {| c_ids := names l; c_tags := fun _ => None; c_eval := fun e => match e with EConst _ z => VInt z | _ => VNot end |}.
Definition well_kept (i : ident) : bool :=
  match i with IObject t _ => negb (is_function (strip t)) | IFunction t => is_function (strip t) | IEnumerator _ => true end.
Lemma scope_sound : forall l, forallb (fun p => well_kept (snd p)) l = true -> sound (scope l).
Proof.
  intros l W. assert (X : forall x i, names l x = Some i -> well_kept i = true).
  { intros x i H. unfold names in H. destruct (find _ l) as [[y j]|] eqn:F; [|discriminate H]. injection H as <-.
    apply find_some in F. rewrite forallb_forall in W. exact (W _ (proj1 F)). }
  split; [discriminate|]. split.
  - intros x t s H F. apply X in H. cbn in H. unfold function in F. destruct (strip t); try destruct F. discriminate H.
  - intros x t H. apply X in H. cbn in H. unfold function. destruct (strip t); try discriminate H. exact I.
Qed.

Definition int : ty := TBasic BSInt.
Definition S0 : ty := TStruct true (Some "S") [Field (Some "n") int 0 None; Field (Some "b") (TBasic BUInt) 0 (Some 3)].
Definition F0 : ty := TFun int ModeParameters [Param (Some int) None] false.
Definition G0 : ctx := scope [("x", IObject int SAuto); ("p", IObject (TPtr int) SAuto); ("q", IObject (TPtr (TQual (Q true false false) int)) SAuto);
  ("a", IObject (TArr (Bounded 4) unq int) SStatic); ("s", IObject S0 SAuto); ("f", IFunction F0)].
Lemma sound0 : sound G0.
Proof. now apply scope_sound. Qed.
Local Notation typed0 := (typed (TBasic BSInt) G0).

Ltac known C H := let X := fresh in let Y := fresh in
  pose proof (c53_type_found_partial G0 _ _ _ _ sound0 C eq_refl H) as (X & Y); cbn in X, Y; subst; clear H.
Ltac bits := repeat match goal with X : k_bits _ = _ |- _ => rewrite X in *; clear X end.
Ltac tamed := repeat split; try discriminate; try exact I; try reflexivity.

Lemma cov_id : forall x t s, c_ids G0 x = Some (IObject t s) -> tame t -> covered G0 (EId x).
Proof.
  intros x t s E T. split; [|exact I]. intros t' k H. cbn in H. unfold rule_id in H. rewrite E in H. destruct H as (-> & ->). split; [exact T|exact I].
Qed.
Lemma cov_const : forall c z, covered G0 (EConst c z).
Proof. intros c z. split; [|exact I]. intros t' k (-> & ->). split; [|exact I]. destruct c; tamed. Qed.
Lemma cov_x : covered G0 (EId "x"). Proof. eapply cov_id; [reflexivity|tamed]. Qed.
Lemma cov_p : covered G0 (EId "p"). Proof. eapply cov_id; [reflexivity|tamed]. Qed.
Lemma cov_q : covered G0 (EId "q"). Proof. eapply cov_id; [reflexivity|tamed]. Qed.
Lemma cov_a : covered G0 (EId "a"). Proof. eapply cov_id; [reflexivity|tamed]. Qed.
Lemma cov_s : covered G0 (EId "s"). Proof. eapply cov_id; [reflexivity|tamed]. Qed.
Lemma cov_f : covered G0 (EId "f").
Proof. split; [|exact I]. intros t' k H. cbn in H. destruct H as (-> & ->). split; [|exact I]. tamed. Qed.
(* a[1] *)
Lemma cov_a1 : covered G0 (ESub (EId "a") (EConst KInt 1)).
Proof.
  split.
  - intros t k (t1 & k1 & t2 & k2 & H1 & H2 & [(X & _)|(X & _)] & ->); known cov_a H1; known (cov_const KInt 1) H2; try discriminate X.
    injection X as <-. split; [tamed|exact I].
  - split; [apply cov_a|]. split; [apply cov_const|]. intros t1 k1 t2 k2 H1 H2. known cov_a H1; known (cov_const KInt 1) H2.
    split; intros b X; try discriminate X. injection X as <-. exact I.
Qed.
Lemma members0 : forall m t w, has_member [Field (Some "n") int 0 None; Field (Some "b") (TBasic BUInt) 0 (Some 3)] m t w ->
  (m = "n" /\ t = int /\ w = None) \/ (m = "b" /\ t = TBasic BUInt /\ w = Some 3).
Proof.
  intros m t w H. inversion H as [fs m' t' a w' J|fs t1 a w1 m' t' w' c i gs J]; subst.
  - destruct J as [J|[J|[]]]; inversion J; subst; auto.
  - destruct J as [J|[J|[]]]; discriminate J.
Qed.
Lemma cov_sb : covered G0 (EMember (EId "s") "b").
Proof.
  assert (RM : forall t w, rule_member G0 S0 "b" t w -> t = TBasic BUInt /\ w = Some 3).
  { intros t w (i & fs & t' & D & _ & HM & ->). cbn in D. destruct D as [D|D]; inversion D; subst; clear D.
    apply members0 in HM. destruct HM as [(X & _)|(_ & -> & ->)]; [discriminate X|]. split; reflexivity. }
  split.
  - intros t k (t1 & k1 & w & H1 & R & ->). known cov_s H1. apply RM in R. destruct R as (-> & ->).
    split; [tamed|]. cbn. exists IUInt. repeat split; discriminate.
  - split; [apply cov_s|]. intros t k H. known cov_s H. split; [tamed|]. intros i fs D. cbn in D. destruct D as [D|D]; inversion D; subst; clear D. repeat split.
    + apply members0 in H, H0. destruct H as [(X & _)|(_ & -> & _)]; [discriminate X|]. now destruct H0 as [(X & _)|(_ & -> & _)].
    + apply members0 in H, H0. destruct H as [(X & _)|(_ & _ & ->)]; [discriminate X|]. now destruct H0 as [(X & _)|(_ & _ & ->)].
    + intros t' w HM Z. discriminate Z.
Qed.
(* f(a[1]) *)
Lemma cov_call : covered G0 (ECall (EId "f") [ESub (EId "a") (EConst KInt 1)]).
Proof.
  split.
  - intros t k (tf & kf & ts & H1 & _ & (r & m & ps & el & E & _ & _ & _ & ->) & ->). known cov_f H1. cbn in E. injection E as <- <- <- <-. split; [tamed|exact I].
  - split; [apply cov_f|]. split; [split; [apply cov_a1|exact I]|]. intros tf kf ts H1 H2. known cov_f H1.
    inversion H2 as [|? t ? r (k & Y) Z]; subst. inversion Z; subst. known cov_a1 Y. intros r m ps el E. cbn in E. injection E as <- <- <- <-.
    split; [now right|]. split; [repeat constructor|]. intros _. exists [int]. repeat split; try discriminate; try exact I.
    all: try (repeat constructor; discriminate).
    intros [b X] _. discriminate X.
Qed.
(* x + f(a[1]) *)
Definition sum : expr := EBin BAdd (EId "x") (ECall (EId "f") [ESub (EId "a") (EConst KInt 1)]).
Lemma cov_sum : covered G0 sum.
Proof.
  assert (St : steady G0 int) by (intros a X; discriminate X).
  split.
  - intros t k (t1 & k1 & t2 & k2 & H1 & H2 & R & ->). known cov_x H1. known cov_call H2. bits.
    destruct R as [R|[((a & X & _) & _)|(_ & (a & X & _) & _)]]; try discriminate X. cbn in R. subst t. split; [tamed|exact I].
  - split; [apply cov_x|]. split; [apply cov_call|]. intros t1 k1 t2 k2 H1 H2. known cov_x H1. known cov_call H2. bits.
    split; [|split; exact St]. intros i j A B. cbn in A, B. injection A as <-. injection B as <-. reflexivity.
Qed.
(* p[s.b] *)
Definition place : expr := ESub (EId "p") (EMember (EId "s") "b").
Lemma cov_place : covered G0 place.
Proof.
  split.
  - intros t k (t1 & k1 & t2 & k2 & H1 & H2 & [(X & _)|(X & _)] & ->); known cov_p H1; known cov_sb H2; try discriminate X.
    injection X as <-. split; [tamed|exact I].
  - split; [apply cov_p|]. split; [apply cov_sb|]. intros t1 k1 t2 k2 H1 H2. known cov_p H1; known cov_sb H2.
    split; intros b X; try discriminate X. injection X as <-. exact I.
Qed.
(* p[s.b] = x + f(a[1]) *)
Example assignment_covered : covered G0 (EAssign ASimple place sum).
Proof.
  split.
  - intros t k (t1 & k1 & t2 & k2 & H1 & H2 & (_ & -> & _) & ->). known cov_place H1. split; [tamed|exact I].
  - split; [apply cov_place|]. split; [apply cov_sum|]. intros t1 k1 t2 k2 H1 H2. known cov_place H1. known cov_sum H2. split.
    + right. split; [intros X; exact X|]. repeat split; try exact I; discriminate.
    + split; [intros []|]. split; [discriminate|]. intros (b & X). discriminate X.
Qed.
Example assignment_typed : exists k, typed0 (EAssign ASimple place sum) int k.
Proof. destruct (c53_expression_types_partial G0 _ sound0 assignment_covered) as (_ & M & _). destruct (M _ eq_refl) as (k & T & _). now exists k. Qed.

Lemma exact_int : exact int int.
Proof.
  split; [|split; discriminate]. split; [|reflexivity]. intros _. constructor. constructor.
Qed.
Lemma quals_only : forall a b, strip a = int -> strip b = int -> exact (strip a) (strip b).
Proof. intros a b -> ->. apply exact_int. Qed.
(* the pointer to const int takes the address of the int, the pointer to int does not take the pointer to const int *)
Lemma cov_addr : covered G0 (EUn UAddr (EId "x")).
Proof.
  split.
  - intros t k (t1 & k1 & H1 & (-> & _ & ->)). known cov_x H1. split; [tamed|exact I].
  - split; [apply cov_x|]. intros t k H. split; [reflexivity|discriminate].
Qed.
Example address_covered : covered G0 (EAssign ASimple (EId "q") (EUn UAddr (EId "x"))).
Proof.
  split.
  - intros t k (t1 & k1 & t2 & k2 & H1 & H2 & (_ & -> & _) & ->). known cov_q H1. split; [tamed|exact I].
  - split; [apply cov_q|]. split; [apply cov_addr|]. intros t1 k1 t2 k2 H1 H2. known cov_q H1. known cov_addr H2. split.
    + right. split; [intros X; exact X|]. repeat split; try exact I; discriminate.
    + split; [intros []|]. split; [|intros _ (b & X); discriminate X]. intros a b A B. injection A as <-. injection B as <-.
      split; [intros [X|X]; discriminate X|]. intros _ _. apply exact_int.
Qed.
Example address_typed : exists k, typed0 (EAssign ASimple (EId "q") (EUn UAddr (EId "x"))) (TPtr (TQual (Q true false false) int)) k.
Proof. destruct (c53_expression_types_partial G0 _ sound0 address_covered) as (_ & M & _). destruct (M _ eq_refl) as (k & T & _). now exists k. Qed.
Example discard_covered : covered G0 (EAssign ASimple (EId "p") (EId "q")).
Proof.
  split.
  - intros t k (t1 & k1 & t2 & k2 & H1 & H2 & (_ & -> & _) & ->). known cov_p H1. split; [tamed|exact I].
  - split; [apply cov_p|]. split; [apply cov_q|]. intros t1 k1 t2 k2 H1 H2. known cov_p H1. known cov_q H2. split.
    + right. split; [intros X; exact X|]. repeat split; try exact I; discriminate.
    + split; [intros []|]. split; [|intros _ (b & X); discriminate X]. intros a b A B. injection A as <-. injection B as <-.
      split; [intros [X|X]; discriminate X|]. intros _ _. apply exact_int.
Qed.
Example discard_rejected : forall t k, ~ typed0 (EAssign ASimple (EId "p") (EId "q")) t k.
Proof. now apply (c53_rejected_partial G0 _ sound0 discard_covered). Qed.
Example place_designator : exists p k, analyze G0 place = Ok p /\ typed0 place int k /\ (n_lvalue p = true <-> k_lvalue k = true).
Proof.
  destruct (c53_expression_types_partial G0 _ sound0 cov_place) as (_ & M & _). destruct (M _ eq_refl) as (k & T & _). eexists _, k. split; [reflexivity|]. split; [exact T|].
  apply (c53_designators_partial G0 place _ int k sound0 cov_place eq_refl T); try discriminate; intros X; exact X.
Qed.

(** ** What is wrong *)

Definition A0 : ty := TStruct true (Some "A") [Field (Some "x") int 0 None; Field (Some "a") (TArr (Bounded 2) unq int) 0 None].
Definition cint : ty := TQual (Q true false false) int.
Definition C0 : ty := TStruct true (Some "C") [Field (Some "c") cint 0 None].
Definition I0 : ty := TStruct false (Some "I") [].
Definition G1 : ctx :=
  {| c_ids := names [("x", IObject int SAuto); ("p", IObject (TPtr int) SAuto); ("vp", IObject (TPtr void) SAuto); ("fp", IObject (TPtr F0) SAuto);
       ("s", IObject A0 SAuto); ("cs", IObject (TQual (Q true false false) A0) SAuto); ("rs", IObject A0 SRegister);
       ("sf", IFunction (TFun A0 ModeParameters [Param (Some void) None] false)); ("c", IObject C0 SAuto); ("ip", IObject (TPtr I0) SAuto);
       ("tp", IObject (TPtr (TStruct false (Some "T") [])) SAuto); ("l", IObject (TBasic BSLong) SAuto)];
     c_tags := fun x => if String.eqb x "T" then Some (TStruct true (Some "T") [Field (Some "y") int 0 None]) else None;
     c_eval := fun e => match e with EConst _ z => VInt z | _ => VNot end |}.
Lemma sound1 : sound G1.
Proof.
  split.
  - intros x t H. cbn in H. destruct (String.eqb x "T"); [|discriminate H]. injection H as <-. eexists _, _. left. reflexivity.
  - destruct (scope_sound [("x", IObject int SAuto); ("p", IObject (TPtr int) SAuto); ("vp", IObject (TPtr void) SAuto); ("fp", IObject (TPtr F0) SAuto);
       ("s", IObject A0 SAuto); ("cs", IObject (TQual (Q true false false) A0) SAuto); ("rs", IObject A0 SRegister);
       ("sf", IFunction (TFun A0 ModeParameters [Param (Some void) None] false)); ("c", IObject C0 SAuto); ("ip", IObject (TPtr I0) SAuto);
       ("tp", IObject (TPtr (TStruct false (Some "T") [])) SAuto); ("l", IObject (TBasic BSLong) SAuto)] eq_refl) as (_ & H). exact H.
Qed.

(** Accepted though a constraint is violated; rejected though all are satisfied *)
Definition accepted_wrongly (G : ctx) (e : expr) : Prop :=
  sound G /\ (exists p, analyze G e = Ok p) /\ forall size_type t k, ~ typed size_type G e t k.
Definition rejected_wrongly (G : ctx) (e : expr) : Prop :=
  sound G /\ analyze G e = Err /\ forall size_type, exists t k, typed size_type G e t k.

(** 6.5.3.4p5: the result of sizeof and _Alignof has an unsigned type; the analyzer gives int. *)
Theorem c53_size_type_refuted : forall i t k, isigned i = false ->
  (typed (basic_ty i) G1 (ESizeof (EId "x")) t k -> forall p, analyze G1 (ESizeof (EId "x")) = Ok p -> n_type p <> t) /\
  (typed (basic_ty i) G1 (EAlignofT int) t k -> forall p, analyze G1 (EAlignofT int) = Ok p -> n_type p <> t) /\
  (exists t k, typed (basic_ty i) G1 (ESizeof (EId "x")) t k) /\ (exists p, analyze G1 (ESizeof (EId "x")) = Ok p).
Proof.
  intros i t k U. repeat split.
  - intros (t1 & k1 & _ & _ & _ & -> & _) p H. cbn in H. injection H as <-. destruct i; discriminate.
  - intros (_ & -> & _) p H. cbn in H. injection H as <-. destruct i; discriminate.
  - exists (basic_ty i), rvalue, int, (K true false None). repeat split.
  - eexists. reflexivity.
Qed.

Ltac parts := repeat match goal with
  | H : exists _, _ |- _ => destruct H
  | H : _ /\ _ |- _ => destruct H
  | H : _ \/ _ |- _ => destruct H
  | H : False |- _ => destruct H
  end; subst.
Ltac absurd_all := try discriminate; try tauto; try congruence.

(** 6.5.3.2p1: a string literal is an lvalue, its address may be taken. *)
Theorem c53_string_address_refuted : rejected_wrongly G1 (EUn UAddr (EStr SMultibyte 4)).
Proof.
  split; [exact sound1|]. split; [reflexivity|]. intros z. exists (TPtr (TArr (Bounded 4) unq (TBasic BChar))), rvalue.
  eexists _, _. split; [split; reflexivity|]. split; [reflexivity|]. split; [|reflexivity]. right. right. right. repeat split.
Qed.
Ltac wrong := split; [exact sound1|]; split; [eexists; vm_compute; reflexivity|]; intros ? ? ? H.
Local Notation one := (EConst KInt 1).
Local Notation V x := (EId x).

(** 6.3.2.1p1: a member of the value of a call is no lvalue. *)
Theorem c53_call_member_refuted :
  accepted_wrongly G1 (EAssign ASimple (EMember (ECall (V "sf") []) "x") one) /\ accepted_wrongly G1 (EUn UAddr (EMember (ECall (V "sf") []) "x")).
Proof.
  split; wrong.
  - destruct H as (t1 & k1 & t2 & k2 & (t3 & k3 & w & (tf & kf & ts & _ & _ & _ & ->) & _ & ->) & _ & ((X & _) & _) & _). discriminate X.
  - destruct H as (t1 & k1 & (t3 & k3 & w & (tf & kf & ts & Y & _ & (r & m & ps & el & E & _ & _ & _ & ->) & ->) & (i & fs & t' & D & _ & M & ->) & ->) & _ & X & _).
    cbn in Y. destruct Y as (-> & _). cbn in E. injection E as <- <- <- <-. cbn in D. destruct D as [D|D]; inversion D; subst; clear D.
    inversion M as [? ? ? ? ? J|? ? ? ? ? ? ? ? ? ? J]; subst; destruct J as [J|[J|[]]]; inversion J; subst.
    destruct X as [X|[(? & ? & X)|[(? & X)|(X & _)]]]; try discriminate X. exact X.
Qed.

Lemma member_a : forall t w, rule_member G1 A0 "a" t w -> t = TArr (Bounded 2) unq int.
Proof.
  intros t w (i & fs & t' & D & _ & M & ->). cbn in D. destruct D as [D|D]; inversion D; subst; clear D.
  inversion M as [? ? ? ? ? J|? ? ? ? ? ? ? ? ? ? J]; subst; destruct J as [J|[J|[]]]; inversion J; subst. reflexivity.
Qed.
(** 6.3.2.1p1: an array is not modifiable. *)
Theorem c53_array_assignment_refuted : accepted_wrongly G1 (EAssign ASimple (EMember (V "s") "a") (V "p")).
Proof.
  wrong. destruct H as (t1 & k1 & t2 & k2 & (t3 & k3 & w & Y & M & ->) & _ & ((_ & X & _) & _) & _).
  cbn in Y. destruct Y as (-> & ->). apply member_a in M. subst t1. apply X. exact I.
Qed.

(** 6.3.2.1p1: nor is a structure with a const member, nor an object of incomplete type. *)
Theorem c53_const_member_refuted : accepted_wrongly G1 (EAssign ASimple (V "c") (V "c")).
Proof.
  wrong. destruct H as (t1 & k1 & t2 & k2 & Y & _ & ((_ & _ & _ & X) & _) & _). cbn in Y. destruct Y as (-> & ->). destruct X as ((X & _) & _). discriminate X.
Qed.
Theorem c53_incomplete_object_refuted : accepted_wrongly G1 (EAssign ASimple (EUn UDeref (V "ip")) (EUn UDeref (V "ip"))).
Proof.
  wrong. destruct H as (t1 & k1 & t2 & k2 & (t3 & k3 & Y & D & _) & _ & ((_ & _ & X & _) & _) & _). cbn in Y. destruct Y as (-> & ->).
  injection D as <-. now apply X.
Qed.

(** 6.5.2.4p1, 6.5.6p2, p3, 6.5.8p2: arithmetic and comparison need pointers to complete objects. *)
Theorem c53_pointer_arithmetic_refuted :
  accepted_wrongly G1 (EUn UPostInc (V "vp")) /\ accepted_wrongly G1 (EBin BAdd (V "fp") one) /\
  accepted_wrongly G1 (EBin BSub (V "fp") (V "fp")) /\ accepted_wrongly G1 (EBin BLt (V "fp") (V "fp")) /\ accepted_wrongly G1 (ESub (V "vp") one).
Proof.
  split; [|split; [|split; [|split]]]; wrong.
  - destruct H as (t1 & k1 & Y & _ & _ & -> & [X|(a & X & C)]); cbn in Y; destruct Y as (-> & ->); [now apply X|]. injection X as <-. exact C.
  - destruct H as (t1 & k1 & t2 & k2 & Y & Z & X & _). cbn in Y, Z. destruct Y as (-> & ->). destruct Z as (-> & ->).
    destruct X as [X|[((a & E & C) & _)|((i & X) & _)]]; [exact X| |discriminate X]. injection E as <-. exact C.
  - destruct H as (t1 & k1 & t2 & k2 & Y & Z & X & _). cbn in Y, Z. destruct Y as (-> & ->). destruct Z as (-> & ->).
    destruct X as [X|[((a & E & C) & _)|(a & b & E & _ & C & _)]]; [exact X| |]; injection E as <-; exact C.
  - destruct H as (t1 & k1 & t2 & k2 & Y & Z & (_ & X) & _). cbn in Y, Z. destruct Y as (-> & ->). destruct Z as (-> & ->).
    destruct X as [(X & _)|(a & b & E & _ & C & _)]; [now apply X|]. injection E as <-. apply C. exact I.
  - destruct H as (t1 & k1 & t2 & k2 & Y & Z & [(X & C & _)|(X & _)] & _); cbn in Y, Z; destruct Y as (-> & ->); destruct Z as (-> & ->); [|discriminate X].
    injection X as <-. exact C.
Qed.
(** A structure completed since the pointer was declared: 6.2.5p22 *)
Theorem c53_completed_since_refuted : rejected_wrongly G1 (EBin BAdd (V "tp") one).
Proof.
  split; [exact sound1|]. split; [reflexivity|]. intros z. exists (TPtr (TStruct false (Some "T") [])), rvalue.
  eexists _, _, _, _. split; [split; reflexivity|]. split; [split; reflexivity|]. split; [|reflexivity]. right. left.
  split; [exists (TStruct false (Some "T") []); split; [reflexivity|discriminate]|]. split; [exists IInt; reflexivity|reflexivity].
Qed.

Lemma npc_one : ~ npc G1 one.
Proof. intros [(_ & X)|(t & a & X & _)]; discriminate X. Qed.
Lemma npc_id : forall x i, c_ids G1 x = Some i -> (match i with IEnumerator _ => false | _ => true end) = true -> ~ npc G1 (V x).
Proof. intros x i E N [((z & X) & _)|(t & a & X & _)]; [|discriminate X]. rewrite E in X. injection X as ->. discriminate N. Qed.
Lemma not_conforms : forall b r m ps el, ~ conforms (TBasic b) (TFun r m ps el) /\ ~ conforms (TFun r m ps el) (TBasic b).
Proof. intros b r m ps el. split; intros C; inversion C as [? ? X]; inversion X. Qed.

(** 6.5.9p2, 6.5.16.1p1: an integer that is no null pointer constant does not go with a pointer, void * not with a pointer to function. *)
Theorem c53_mixed_equality_refuted : accepted_wrongly G1 (EBin BEq (V "p") one) /\ accepted_wrongly G1 (EBin BEq (V "vp") (V "fp")).
Proof.
  split; wrong; destruct H as (t1 & k1 & t2 & k2 & Y & Z & (_ & X) & _); cbn in Y, Z; destruct Y as (-> & ->); destruct Z as (-> & ->).
  - destruct X as [(X & _)|[(a & b & _ & X & _)|[(_ & X)|(_ & (a & X))]]]; [now apply X|discriminate X|now apply npc_one|discriminate X].
  - destruct X as [(X & _)|[(a & b & E & F & X)|[(_ & X)|(X & _)]]]; [now apply X| | |].
    + injection E as <-. injection F as <-. destruct X as [X|(_ & _ & X)]; [now apply not_conforms in X|]. apply X. exact I.
    + eapply npc_id in X; [exact X|reflexivity|reflexivity].
    + eapply npc_id in X; [exact X|reflexivity|reflexivity].
Qed.
Theorem c53_mixed_assignment_refuted :
  accepted_wrongly G1 (EAssign ASimple (V "p") one) /\ accepted_wrongly G1 (EAssign ASimple (V "p") (V "l")) /\ accepted_wrongly G1 (EAssign ASimple (V "fp") (V "vp")).
Proof.
  split; [|split]; wrong; destruct H as (t1 & k1 & t2 & k2 & Y & Z & (_ & _ & X) & _); cbn in Y, Z; destruct Y as (-> & ->); destruct Z as (-> & ->).
  - destruct X as [(X & _)|[(X & _)|[(a & b & _ & X & _)|[(a & b & _ & X & _)|[(_ & X)|(X & _)]]]]]; try discriminate X; [now apply X|exact X|now apply npc_one].
  - destruct X as [(X & _)|[(X & _)|[(a & b & _ & X & _)|[(a & b & _ & X & _)|[(_ & X)|(X & _)]]]]]; try discriminate X; [now apply X|exact X|].
    eapply npc_id in X; [exact X|reflexivity|reflexivity].
  - destruct X as [(X & _)|[(X & _)|[(a & b & E & F & X & _)|[(a & b & E & F & _ & X & _)|[(_ & X)|(X & _)]]]]]; try discriminate X; [now apply X|exact X| | |].
    + injection E as <-. injection F as <-. now apply not_conforms in X.
    + injection E as <-. apply X. exact I.
    + eapply npc_id in X; [exact X|reflexivity|reflexivity].
Qed.
Theorem c53_mixed_conditional_refuted : accepted_wrongly G1 (ECond (V "x") (V "vp") (V "fp")).
Proof.
  wrong. destruct H as (tc & kc & t1 & k1 & t2 & k2 & _ & Y & Z & (_ & X) & _). cbn in Y, Z. destruct Y as (-> & ->). destruct Z as (-> & ->).
  destruct X as [X|[(X & _)|[(X & _)|[(_ & X & _)|[(X & _)|(_ & _ & a & b & E & F & [(X & _)|(_ & _ & X & _)])]]]]]; try discriminate X; try exact X.
  - eapply npc_id in X; [exact X|reflexivity|reflexivity].
  - eapply npc_id in X; [exact X|reflexivity|reflexivity].
  - injection E as <-. now apply X.
  - injection F as <-. apply X. exact I.
Qed.

(** 6.7.3p9: the elements of an array member of a const structure are const; the analyzer lets them be assigned. *)
Theorem c53_const_array_member_refuted : accepted_wrongly G1 (EAssign ASimple (ESub (EMember (V "cs") "a") one) one).
Proof.
  wrong. destruct H as (t1 & k1 & t2 & k2 & (t3 & k3 & t4 & k4 & (t5 & k5 & w & Y & (i & fs & t' & D & _ & M & ->) & ->) & Z & R & ->) & _ & ((_ & _ & _ & X) & _) & _).
  cbn in Y, Z. destruct Y as (-> & ->). destruct Z as (-> & ->). cbn in D. destruct D as [D|D]; inversion D; subst; clear D.
  inversion M as [? ? ? ? ? J|? ? ? ? ? ? ? ? ? ? J]; subst; destruct J as [J|[J|[]]]; inversion J; subst.
  destruct R as [(R & _)|(R & _)]; [|discriminate R]. cbn in R. injection R as <-. destruct X as (X & _). discriminate X.
Qed.

(** 6.5.3.2p1: no address of a member of a register object *)
Theorem c53_register_member_refuted : accepted_wrongly G1 (EUn UAddr (EMember (V "rs") "x")).
Proof.
  wrong. destruct H as (t1 & k1 & (t3 & k3 & w & Y & (i & fs & t' & D & _ & M & ->) & ->) & _ & X & _). cbn in Y. destruct Y as (-> & ->).
  cbn in D. destruct D as [D|D]; inversion D; subst; clear D.
  inversion M as [? ? ? ? ? J|? ? ? ? ? ? ? ? ? ? J]; subst; destruct J as [J|[J|[]]]; inversion J; subst.
  destruct X as [X|[(? & ? & X)|[(? & X)|(_ & X & _)]]]; try discriminate X. exact X.
Qed.

Print Assumptions c53_expression_types_partial.
Print Assumptions c53_type_found_partial.
Print Assumptions c53_rejected_partial.
Print Assumptions c53_designators_partial.
Print Assumptions c53_size_type_refuted.
Print Assumptions c53_register_member_refuted.
