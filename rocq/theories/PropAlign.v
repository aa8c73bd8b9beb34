(** C68: alignment specifiers give objects the alignment they ask for. *)
From Coq Require Import ZArith Bool List Lia.
From Verif Require Import AlignModel AlignSpec AlignProofs.
Import ListNotations.
Open Scope Z_scope.

(** An object (or member) of alignment [n], with any number of declarations and specifiers, is
    accepted exactly if every declaration meets the constraints, and then has the strictest
    alignment that any of them asks for, or that of its type.  (Partial: for alignments up to 128
    that are powers of two, and declarators that leave the alignment of the type as it is.  The
    rest is refuted below.) *)
Theorem c68_alignment_partial : forall ds t n,
  natural t n -> 0 < n -> (forall d, In d ds -> tame n d) ->
  match object_alignment ds t with
  | Some a => (forall d, In d ds -> permitted d) /\ effective ds n a
  | None => exists d, In d ds /\ ~ permitted d
  end.
Proof.
  intros * T N D. unfold object_alignment.
  assert (S0 : strictest [] 0) by (repeat split; [auto|lia|intros ? ? []]).
  destruct (declare_all_tame n ds 0 [] N S0 ltac:(lia) D) as [(m & -> & M & R & P)|(-> & P)]; [|exact P].
  unfold laid_out. apply natural_fun in T. rewrite T. split; [exact P|]. exists m. split; [exact M|].
  unfold entry_alignment. pose proof M as (_ & ? & _). rewrite Z.mod_small; [reflexivity|]. change (2 ^ 8) with 256. lia.
Qed.

(** Then the object is also aligned as its type requires. *)
Theorem c68_multiple : forall ds t n k a,
  n = 2 ^ k -> 0 <= k -> natural t n -> (forall d, In d ds -> tame n d) -> object_alignment ds t = Some a -> (n | a).
Proof.
  intros * -> K T D O. assert (N : 0 < 2 ^ k) by (apply Z.pow_pos_nonneg; lia).
  pose proof (c68_alignment_partial ds t (2 ^ k) T N D) as C. rewrite O in C. destruct C as (P & m & M & ->).
  destruct (Z.eqb_spec m 0) as [Q|Q]; [apply Z.divide_refl|].
  destruct M as ([->|(x & X & A)] & M2 & M3); [lia|]. apply in_flat_map in X as (d & DI & X).
  destruct (D d DI) as (_ & _ & TD & S). destruct (S x X) as (j & AJ & V & _).
  rewrite (asks_det _ _ _ AJ A) in V. destruct V as [V|(j' & J & ->)]; [lia|].
  apply pow2_divides; auto.
  destruct (evaluate_all (d_alignas d) 0 S ltac:(lia)) as (m & _ & M & _).
  assert (2 ^ j' <= m) by (destruct M as (_ & _ & M); eauto).
  destruct (P d DI) as [E|(_ & _ & C)]; [rewrite E in X; destruct X|].
  destruct (C m (2 ^ k) M TD) as [->|C']; [lia|].
  assert (m <= 2 ^ j').
  { destruct M as ([->|(y & Y & AY)] & _ & _); [lia|]. apply (M3 y m); [apply in_flat_map; eauto|auto]. }
  lia.
Qed.

(** Specifiers that ask for an alignment are rejected in the declarations of types, functions,
    named parameters and bit-fields. *)
Theorem c68_restricted : forall d x n,
  d_kind d = Typedef \/ d_kind d = Param true \/ d_kind d = BitField \/
  (d_kind d = Object \/ d_kind d = Register) /\ (exists t, declared_type d = Function t) ->
  In x (d_alignas d) -> asks x n -> 0 < n < 2 ^ 64 -> declare d = None.
Proof.
  intros * K X A N.
  assert (G : forall l a r, evaluate_alignments l a = Some r -> a <= r).
  { induction l as [|y l IH]; cbn [evaluate_alignments]; intros a r E; [injection E as <-; lia|].
    destruct y as [t|z]; cbn [evaluate_alignment] in E.
    - destruct (type_alignment t); [|discriminate E]. apply IH in E. lia.
    - apply IH in E. lia. }
  assert (P : forall l a r, In x l -> evaluate_alignments l a = Some r -> n <= r).
  { induction l as [|y l IH]; intros a r I E; [destruct I|]. destruct I as [->|I]; cbn [evaluate_alignments] in E.
    - inversion A; subst; cbn [evaluate_alignment] in E.
      + match goal with H : natural _ _ |- _ => apply natural_fun in H; rewrite H in E end. apply G in E. lia.
      + rewrite Z.mod_small in E by lia. apply G in E. lia.
    - destruct (evaluate_alignment y a); [eauto|discriminate E]. }
  unfold declare, specifier_alignment. destruct (evaluate_alignments (d_alignas d) 0) as [a|] eqn:E; [|reflexivity].
  specialize (P _ _ _ X E). destruct (Z.ltb_spec 0 a); [|lia].
  destruct (type_alignment (d_base d)) as [b|]; [|reflexivity]. destruct (b <=? a); [|reflexivity].
  destruct (Z.eqb_spec a 0); [lia|].
  destruct K as [-> |[-> |[-> |[[-> | ->] [t T]]]]]; auto; now rewrite T.
Qed.

Definition int := Base 4.
Definition object (l : list alignas) (t : ty) (dr : list derivation) : declaration :=
  {| d_alignas := l; d_base := t; d_declarator := dr; d_kind := Object |}.

(** extern _Alignas(8) _Alignas(int) _Alignas(0) int a[3]; _Alignas(32) int a[3]; *)
Example c68_case :
  let ds := [object [AExpr 8; AType int; AExpr 0] int [ToArray]; object [AExpr 32] int [ToArray]] in
  (forall d, In d ds -> tame 4 d) /\ object_alignment ds (Array int) = Some 32.
Proof.
  split; [|reflexivity]. intros d D.
  assert (B : forall l, bearing (object l int [ToArray])) by (split; [now left|discriminate]).
  assert (S : forall k, 0 <= k <= 7 -> small (AExpr (2 ^ k))).
  { intros k K. exists (2 ^ k). split; [constructor|]. split; [right; exists k; split; [lia|auto]|].
    split; [apply Z.pow_nonneg; lia|]. change 128 with (2 ^ 7). apply Z.pow_le_mono_r; lia. }
  assert (small (AType int)) by (exists 4; split; [repeat constructor|]; split; [right; exists 2; split; [lia|reflexivity]|lia]).
  assert (small (AExpr 0)) by (exists 0; split; [constructor|]; split; [now left|lia]).
  destruct D as [<-|[<-|[]]]; (split; [apply B|]); (split; [repeat constructor|]); (split; [repeat constructor|]);
    cbn [object d_alignas In]; intros x X; repeat (destruct X as [<-|X]; [|]); try destruct X; auto.
  - apply (S 3); lia.
  - apply (S 5); lia.
Qed.

(** _Alignas(2) int x; is rejected. *)
Example c68_weak_case : object_alignment [object [AExpr 2] int []] int = None.
Proof. reflexivity. Qed.

Example c68_restricted_case :
  declare {| d_alignas := [AExpr 16]; d_base := int; d_declarator := []; d_kind := Typedef |} = None /\
  declare (object [AExpr 16] int [ToFunction]) = None.
Proof. split; reflexivity. Qed.

(** The alignment is compared with that of the type before the declarator:
    _Alignas(4) char *p; is accepted and gives a pointer aligned to 4 ... *)
Theorem c68_pointer_refuted :
  let d := object [AExpr 4] (Base 1) [ToPointer] in
  object_alignment [d] (declared_type d) = Some 4 /\ ~ permitted d.
Proof.
  split; [reflexivity|]. intros [E|(_ & _ & C)]; [discriminate E|].
  destruct (C 4 8); [|constructor|lia|lia].
  split; [right; exists (AExpr 4); split; [now left|constructor]|]. split; [lia|].
  intros x n [<-|[]] A. inversion A; lia.
Qed.

(** ... and _Alignas(8) long double *p; is rejected. *)
Theorem c68_pointer_rejected_refuted :
  let d := object [AExpr 8] (Base 16) [ToPointer] in
  object_alignment [d] (declared_type d) = None /\ permitted d.
Proof.
  split; [reflexivity|]. right. split; [split; [now left|discriminate]|]. split.
  - intros x [<-|[]]. exists 8. split; [constructor|]. right. exists 3. split; [lia|reflexivity].
  - intros m n ([->|(x & [<-|[]] & A)] & _ & _) T; [auto|]. inversion A; subst. inversion T; subst. lia.
Qed.

(** Alignments of 256 and more are permitted and accepted, and have no effect. *)
Theorem c68_large_refuted : forall k, 8 <= k < 63 ->
  let d := object [AExpr (2 ^ k)] int [] in
  permitted d /\ object_alignment [d] int = Some 4 /\ ~ effective [d] 4 4.
Proof.
  intros k K d.
  assert (256 <= 2 ^ k) by (change 256 with (2 ^ 8); apply Z.pow_le_mono_r; lia).
  assert (2 ^ k < 2 ^ 64) by (apply Z.pow_lt_mono_r; lia).
  split; [|split].
  - right. split; [split; [now left|discriminate]|]. split.
    + intros x [<-|[]]. exists (2 ^ k). split; [constructor|]. right. exists k. split; [lia|reflexivity].
    + intros m n ([->|(x & [<-|[]] & A)] & _ & _) T; [auto|]. inversion A; subst. cbn in T. inversion T; subst. lia.
  - unfold object_alignment, declare_all, declare, specifier_alignment. cbn [d_alignas d_base d_kind d object evaluate_alignments evaluate_alignment].
    rewrite Z.mod_small by lia. rewrite Z.max_r by lia.
    destruct (Z.ltb_spec 0 (2 ^ k)); [|lia]. cbn [int type_alignment]. destruct (Z.leb_spec 4 (2 ^ k)); [|lia].
    destruct (Z.eqb_spec (2 ^ k) 0); [lia|]. cbn [is_function declared_type d_declarator fold_left d object d_base int].
    unfold merge_alignment. destruct (Z.eqb_spec (2 ^ k) 0); [lia|]. destruct (Z.ltb_spec 0 (2 ^ k)); [|lia].
    unfold laid_out, entry_alignment. cbn [type_alignment].
    replace (2 ^ k mod 2 ^ 8) with 0; [reflexivity|]. symmetry. apply Z.mod_divide; [discriminate|].
    apply pow2_divides; [lia|lia|apply Z.pow_le_mono_r; lia].
  - intros (m & (_ & _ & M) & E). specialize (M (AExpr (2 ^ k)) (2 ^ k) (or_introl eq_refl) (a_expr _)).
    destruct (Z.eqb_spec m 0); lia.
Qed.

(** register _Alignas(16) int x; and void f(_Alignas(16) int); are accepted, and so is
    typedef _Alignas(0) int t; *)
Theorem c68_places_refuted :
  let r := {| d_alignas := [AExpr 16]; d_base := int; d_declarator := []; d_kind := Register |} in
  let p := {| d_alignas := [AExpr 16]; d_base := int; d_declarator := []; d_kind := Param false |} in
  let t := {| d_alignas := [AExpr 0]; d_base := int; d_declarator := []; d_kind := Typedef |} in
  (declare r = Some 16 /\ ~ permitted r) /\ (declare p = Some 16 /\ ~ permitted p) /\ (declare t = Some 0 /\ ~ permitted t).
Proof.
  repeat split; try reflexivity; (intros [E|(([E|E] & _) & _ & _)]; discriminate E).
Qed.

(** _Alignas(-8) long x; is accepted and gives the alignment 248. *)
Theorem c68_negative_refuted :
  let d := object [AExpr (-8)] (Base 8) [] in object_alignment [d] (Base 8) = Some 248 /\ ~ permitted d.
Proof.
  split; [reflexivity|]. intros [E|(_ & V & _)]; [discriminate E|].
  destruct (V (AExpr (-8)) (or_introl eq_refl)) as (n & A & [->|(k & K & ->)]); inversion A.
  pose proof (Z.pow_nonneg 2 k). lia.
Qed.

Print Assumptions c68_alignment_partial.
Print Assumptions c68_multiple.
Print Assumptions c68_restricted.
Print Assumptions c68_pointer_refuted.
Print Assumptions c68_pointer_rejected_refuted.
Print Assumptions c68_large_refuted.
Print Assumptions c68_places_refuted.
Print Assumptions c68_negative_refuted.
