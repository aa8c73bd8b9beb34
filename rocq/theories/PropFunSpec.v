(** C19: merging of function specifiers (source/ast/type.c:284-323). *)

From Coq Require Import Bool List Permutation.
Import ListNotations.

(** ** Model *)

(** kefir_ast_function_specifier_t, headers/kefir/ast/base.h *)
Inductive fspec := FNone | FInline | FNoreturn | FInlineNoreturn.

(** MATRIX and kefir_ast_context_merge_function_specifiers, type.c:294-317 *)
Definition merge (a b : fspec) : fspec :=
  match a with
  | FNone => match b with FNone => FNone | FInline => FInline | FNoreturn => FNoreturn | FInlineNoreturn => FInlineNoreturn end
  | FInline => match b with FNone => FInline | FInline => FInline | FNoreturn => FInlineNoreturn | FInlineNoreturn => FInlineNoreturn end
  | FNoreturn => match b with FNone => FNoreturn | FInline => FInlineNoreturn | FNoreturn => FNoreturn | FInlineNoreturn => FInlineNoreturn end
  | FInlineNoreturn => match b with FNone => FInlineNoreturn | FInline => FInlineNoreturn | FNoreturn => FInlineNoreturn | FInlineNoreturn => FInlineNoreturn end
  end.

(** A function identifier after its declarations: the first one sets the specifiers, each
    later one merges (kefir_ast_context_merge_function_specifiers is applied as
    [merge old new] in source/ast/global_context.c and local_context.c). *)
Definition after (first : fspec) (later : list fspec) : fspec := fold_left merge later first.

(** ** Specification: a set of specifiers *)
Definition has_inline (s : fspec) : Prop := s = FInline \/ s = FInlineNoreturn.
Definition has_noreturn (s : fspec) : Prop := s = FNoreturn \/ s = FInlineNoreturn.

(** ** Theorems *)

Lemma merge_sets : forall a b,
  (has_inline (merge a b) <-> has_inline a \/ has_inline b) /\
  (has_noreturn (merge a b) <-> has_noreturn a \/ has_noreturn b).
Proof. intros [] []; unfold has_inline, has_noreturn; cbn; intuition congruence. Qed.

(** No specifier is lost and none is invented. *)
Theorem c19_union : forall first later,
  (has_inline (after first later) <-> exists d, In d (first :: later) /\ has_inline d) /\
  (has_noreturn (after first later) <-> exists d, In d (first :: later) /\ has_noreturn d).
Proof.
  intros first later. revert first. unfold after. induction later as [|d l IH]; intro first.
  - cbn. split; (split; [intro H; exists first; auto|intros (d & [<-|[]] & H); exact H]).
  - cbn [fold_left]. destruct (IH (merge first d)) as [I N]. destruct (merge_sets first d) as [MI MN].
    rewrite I, N. split; split.
    + intros (x & [<-|Hx] & H); [apply MI in H; destruct H; [exists first|exists d]|exists x]; cbn; auto.
    + intros (x & [Ex|[Ex|Hx]] & H); [subst x; exists (merge first d)|subst x; exists (merge first d)|exists x]; cbn; rewrite ?MI; auto.
    + intros (x & [<-|Hx] & H); [apply MN in H; destruct H; [exists first|exists d]|exists x]; cbn; auto.
    + intros (x & [Ex|[Ex|Hx]] & H); [subst x; exists (merge first d)|subst x; exists (merge first d)|exists x]; cbn; rewrite ?MN; auto.
Qed.

(** The order of declarations does not matter. *)
Theorem c19_order : forall a l b l', Permutation (a :: l) (b :: l') -> after a l = after b l'.
Proof.
  intros a l b l' P. destruct (c19_union a l) as [I1 N1]. destruct (c19_union b l') as [I2 N2].
  assert (E : forall Q : fspec -> Prop, (exists d, In d (a :: l) /\ Q d) <-> (exists d, In d (b :: l') /\ Q d)).
  { intro Q. split; intros (d & H & HQ); exists d; (split; [|exact HQ]).
    - eapply Permutation_in; eauto.
    - eapply Permutation_in; [apply Permutation_sym|]; eauto. }
  assert (X : (has_inline (after a l) <-> has_inline (after b l')) /\ (has_noreturn (after a l) <-> has_noreturn (after b l'))).
  { split; [rewrite I1, I2|rewrite N1, N2]; apply E. }
  destruct X as [X1 X2]. clear -X1 X2. unfold has_inline, has_noreturn in *.
  destruct (after a l), (after b l'); try reflexivity; exfalso; intuition congruence.
Qed.

Example c19_example : after FNone [FNoreturn; FNone; FInline] = FInlineNoreturn /\
  Permutation (FNone :: [FNoreturn; FInline]) (FInline :: [FNone; FNoreturn]).
Proof.
  split; [reflexivity|]. apply Permutation_trans with (FNone :: [FInline; FNoreturn]).
  - constructor. apply perm_swap.
  - apply perm_swap.
Qed.

Print Assumptions c19_union.
Print Assumptions c19_order.
