(** More fuel does not change what the parser of [SynModel] answers. *)
From Coq Require Import ZArith List Bool Lia.
From Verif Require ParseModel.
From Verif Require Import SynModel.
Import ListNotations.
Import ParseModel (punct(..), outcome(..)).

Section Mono.
Context {ex : Type}.
Context (expression assignment constant : (Z -> bool) -> list tok -> outcome ex * list tok).
Notation goal := (goal (ex := ex)).

Definition mono {A} (p q : pr A) : Prop := forall s, fst (p s) <> NoFuel -> q s = p s.

Lemma m_refl : forall A (p : pr A), mono p p.
Proof. intros A p s _. reflexivity. Qed.
Lemma m_bind : forall A B (p q : pr A) (f g : A -> pr B), mono p q -> (forall a, mono (f a) (g a)) -> mono (bind p f) (bind q g).
Proof.
  intros A B p q f g P F s H. unfold bind in *. destruct (p s) as [o s'] eqn:Q. rewrite (P s); rewrite Q.
  - destruct o; auto. apply F. exact H.
  - destruct o; cbn in *; congruence.
Qed.
Lemma m_match : forall A B (p q : pr A) (f g : A -> pr B) (h h' : st -> outcome B * st) s, mono p q -> (forall a, mono (f a) (g a)) ->
  (forall s', fst (h s') <> NoFuel -> h' s' = h s') ->
  fst (match p s with (Ok a, s') => f a s' | (NoMatch, s') => h s' | (Syntax, s') => (Syntax, s') | (NoFuel, s') => (NoFuel, s') end) <> NoFuel ->
  match q s with (Ok a, s') => g a s' | (NoMatch, s') => h' s' | (Syntax, s') => (Syntax, s') | (NoFuel, s') => (NoFuel, s') end =
  match p s with (Ok a, s') => f a s' | (NoMatch, s') => h s' | (Syntax, s') => (Syntax, s') | (NoFuel, s') => (NoFuel, s') end.
Proof.
  intros A B p q f g h h' s P F Hh H. destruct (p s) as [o s'] eqn:Q. rewrite (P s); rewrite Q.
  - destruct o; auto. apply F. exact H.
  - destruct o; cbn in *; congruence.
Qed.
Lemma m_apply : forall A (p q : pr A), mono p q -> mono (apply p) (apply q).
Proof.
  intros A p q P s H. unfold apply in *. destruct (p s) as [o s'] eqn:Q. rewrite (P s); rewrite Q; auto; destruct o; cbn in *; congruence.
Qed.
Lemma m_must : forall A (p q : pr A), mono p q -> mono (must p) (must q).
Proof.
  intros A p q P s H. unfold must in *. destruct (p s) as [o s'] eqn:Q. rewrite (P s); rewrite Q; auto; destruct o; cbn in *; congruence.
Qed.
Lemma m_orelse : forall A (p q p' q' : pr A), mono p q -> mono p' q' -> mono (orelse p p') (orelse q q').
Proof.
  intros A p q p' q' P P' s H. unfold orelse in *. destruct (p s) as [o s'] eqn:Q. rewrite (P s); rewrite Q; auto.
  - destruct o; auto.
  - destruct o; cbn in *; congruence.
Qed.
Lemma m_shift : forall A (p q : pr A), mono p q -> mono (shift p) (shift q).
Proof. intros A p q P s H. apply P. exact H. Qed.
Lemma m_expect : forall A p o (k k' : pr A), mono k k' -> mono (expect p o k) (expect p o k').
Proof. intros A p o k k' K s H. unfold expect in *. destruct (is p s); auto. now apply (m_shift _ _ _ K). Qed.
Lemma m_semi : forall A (k k' : pr A), mono k k' -> mono (semi k) (semi k').
Proof. intros A k k' K s H. unfold semi in *. destruct (is_semi s); auto. now apply (m_shift _ _ _ K). Qed.
Lemma m_when : forall A c (p q p' q' : pr A), mono p q -> mono p' q' -> mono (when c p p') (when c q q').
Proof. intros A c p q p' q' P Q s H. unfold when in *. destruct (c s); auto. Qed.
Lemma m_if : forall A (b : bool) (p q p' q' : pr A), mono p q -> mono p' q' -> mono (if b then p else p') (if b then q else q').
Proof. intros A []; auto. Qed.
Lemma m_quals : forall A (k k' : list kw -> pr A), (forall q, mono (k q) (k' q)) -> mono (quals k) (quals k').
Proof. intros A k k' K s H. unfold quals in *. destruct (qualifiers (snd s)). now apply K. Qed.
Lemma m_static : forall A (k k' : bool -> pr A), (forall q, mono (k q) (k' q)) -> mono (opt_static k) (opt_static k').
Proof. intros A k k' K s H. unfold opt_static in *. destruct (snd s) as [|[| []| | | | |] r]; apply K; exact H. Qed.

Context (run run' : forall A, goal A -> pr A) (Hrun : forall A g, mono (run A g) (run' A g)).
Ltac m1 :=
  match goal with
  | |- mono (bind _ _) _ => apply m_bind; [|intros ?]
  | |- mono (apply _) _ => apply m_apply
  | |- mono (must _) _ => apply m_must
  | |- mono (orelse _ _) _ => apply m_orelse
  | |- mono (shift _) _ => apply m_shift
  | |- mono (expect _ _ _) _ => apply m_expect
  | |- mono (semi _) _ => apply m_semi
  | |- mono (when _ _ _) _ => apply m_when
  | |- mono (if _ then _ else _) _ => apply m_if
  | |- mono (quals _) _ => apply m_quals; intros ?
  | |- mono (opt_static _) _ => apply m_static; intros ?
  | |- mono (run _ _) _ => apply Hrun
  | |- mono _ _ => apply m_refl
  | |- forall s, fst (?p s) <> NoFuel -> ?q s = ?p s => change (mono p q)
  end.
Ltac mm := repeat m1.

Lemma m_compound : mono (compound run) (compound run').
Proof. unfold compound. apply m_expect. intros s H. refine (m_bind _ _ _ _ _ _ _ _ _ H); [apply Hrun|]. intros ?. apply m_refl. Qed.
Lemma m_stmt : mono (stmt_ run) (stmt_ run').
Proof. unfold stmt_. mm. Qed.
Lemma m_parens : forall A (k k' : ex -> pr A), (forall e, mono (k e) (k' e)) -> mono (parens expression k) (parens expression k').
Proof. intros A k k' K. unfold parens. mm. apply K. Qed.
Ltac mm' := repeat
  match goal with
  | |- mono (stmt_ _) _ => apply m_stmt
  | |- mono (compound _) _ => apply m_compound
  | |- mono (parens _ _) _ => apply m_parens; intros ?
  | _ => m1
  end.

Lemma m_labeled : mono (labeled constant run) (labeled constant run').
Proof.
  intros s H. unfold labeled in *. destruct (snd s) as [|[x|k| | | | |] r]; auto.
  - destruct r as [|[| |[]| | | |] r]; auto. revert s H. mm'.
  - destruct k; auto; revert s H; mm'.
Qed.
Lemma m_expr : mono (expression_statement expression) (expression_statement expression).
Proof. apply m_refl. Qed.
Lemma m_selection : mono (selection expression run) (selection expression run').
Proof.
  intros s H. unfold selection in *. destruct (snd s) as [|[x|k| | | | |] r]; auto. destruct k; auto; revert s H; mm'.
  intros s H. destruct (snd s) as [|[x|k| | | | |] r']; auto. destruct k; auto; revert s H; mm'.
Qed.
Lemma m_for_init : mono (for_init expression run) (for_init expression run').
Proof. unfold for_init. mm'. Qed.
Lemma m_iteration : mono (iteration expression run) (iteration expression run').
Proof.
  intros s H. unfold iteration in *. destruct (snd s) as [|[x|k| | | | |] r]; auto. destruct k; auto; revert s H; mm'.
  apply m_for_init.
Qed.
Lemma m_function : mono (function_definition run) (function_definition run').
Proof. unfold function_definition. mm'. Qed.
Lemma m_field : mono (field_declaration run) (field_declaration run').
Proof. unfold field_declaration. mm'. Qed.
Lemma m_struct : forall k, mono (struct_specifier run k) (struct_specifier run' k).
Proof.
  intros k s H. unfold struct_specifier in *.
  assert (B : forall x, mono (shift (bind (run _ (GFields [])) (fun fs => expect PRBrace Syntax (ret (SpBody k x fs)))))
                             (shift (bind (run' _ (GFields [])) (fun fs => expect PRBrace Syntax (ret (SpBody k x fs)))))) by (intros; mm).
  destruct (snd s) as [|[] r]; try (destruct (is PLBrace s); auto; now apply B).
  revert s H. mm.
Qed.
Lemma m_enum : mono (enum_specifier run) (enum_specifier run').
Proof.
  intros s H. unfold enum_specifier in *.
  assert (B : forall x, mono (shift (bind (run _ (GEnums [])) (fun fs => expect PRBrace Syntax (ret (SpEnum x fs)))))
                             (shift (bind (run' _ (GEnums [])) (fun fs => expect PRBrace Syntax (ret (SpEnum x fs)))))) by (intros; mm).
  destruct (snd s) as [|[] r]; try (destruct (is PLBrace s); auto; now apply B).
  revert s H. mm.
Qed.
Lemma m_specifier : forall acc, mono (specifier run acc) (specifier run' acc).
Proof.
  intros acc s H. unfold specifier in *. destruct (snd s) as [|[x|k| | | | |] r]; auto.
  destruct k as [| | | | | | |[]| | | | | | | | | | | | | |]; auto.
  - destruct r as [|[| |[]| | | |] r]; auto. revert s H. mm.
  - revert s H. mm. apply m_struct.
  - revert s H. mm. apply m_struct.
  - revert s H. mm. apply m_enum.
Qed.
Lemma m_array : forall d k k', (forall d, mono (k d) (k' d)) -> mono (array_declarator assignment d k) (array_declarator assignment d k').
Proof. intros d k k' K. unfold array_declarator. mm. apply K. Qed.
Lemma m_parameters : forall abs, mono (parameters run abs) (parameters run' abs).
Proof.
  intros abs s H. unfold parameters in *.
  assert (B : mono (bind (run _ GParam) (fun p => run _ (GParams [p]))) (bind (run' _ GParam) (fun p => run' _ (GParams [p])))) by mm.
  destruct (bind (run _ GParam) _ s) as [o s'] eqn:Q. rewrite (B s); rewrite Q; [|destruct o; cbn in *; congruence].
  destruct o; auto. destruct abs; auto. revert H. cbv zeta. generalize (fst s', snd s). intros s0 H.
  refine (m_bind _ _ _ _ _ _ _ _ _ H); [|intros; apply m_refl]. destruct (snd s0) as [|[] r]; try apply m_refl. apply Hrun.
Qed.
Lemma m_pointer : forall p q, mono p q -> mono (pointer (ex := ex) p) (pointer q).
Proof. intros p q P. unfold pointer. mm. exact P. Qed.
Lemma m_direct : mono (direct_base run) (direct_base run').
Proof. intros s H. unfold direct_base in *. destruct (is PLParen s); auto. revert s H. mm. Qed.
Lemma m_abstract : mono (abstract_base run) (abstract_base run').
Proof.
  intros s H. unfold abstract_base in *. destruct (is PLParen s); auto.
  assert (B : mono (shift (bind (run _ GAbs) (fun d => expect PRParen Syntax (ret d)))) (shift (bind (run' _ GAbs) (fun d => expect PRParen Syntax (ret d))))) by mm.
  destruct (shift (bind (run _ GAbs) _) s) as [o s'] eqn:Q. rewrite (B s); rewrite Q; auto. destruct o; cbn in *; congruence.
Qed.
Lemma m_dabs : forall b, mono (direct_abstract run b) (direct_abstract run' b).
Proof. intros b. unfold direct_abstract. mm. apply m_abstract. Qed.

Theorem m_step : forall A (g : goal A), mono (step expression assignment constant run A g) (step expression assignment constant run' A g).
Proof.
  intros A g. destruct g; cbn [step]; mm'.
  - intros s H. refine (m_match _ _ _ _ _ _ (fun s' => match acc with [] => (NoMatch, s') | _ => (Ok acc, s') end) _ s _ _ _ H).
    + apply m_apply, m_specifier.
    + intros a. apply Hrun.
    + reflexivity.
  - intros s H. refine (m_match _ _ _ _ _ _ (fun s' => (Ok acc, s')) _ s _ _ _ H); [apply m_field|intros; apply Hrun|reflexivity].
  - intros s H. destruct (snd s) as [|[] r]; auto. revert s H. mm. intros s H.
    destruct (declare false x (fst s)); auto. refine (m_when _ _ _ _ _ _ _ _ _ H); mm.
  - apply m_pointer, Hrun.
  - apply m_direct.
  - apply m_array. intros. apply Hrun.
  - apply m_parameters.
  - intros s H. refine (m_match _ _ _ _ _ _ (fun s' => match snd s' with TEllipsis :: _ => shift (ret (acc, true)) s' | _ => (Syntax, s') end) _ s _ _ _ H);
      [apply Hrun|intros; apply Hrun|reflexivity].
  - intros s H. destruct (snd s) as [|[] r]; auto. destruct (is_typedef _ _); auto. revert s H. mm.
  - apply m_pointer, Hrun.
  - apply m_dabs.
  - apply m_pointer, Hrun.
  - apply m_dabs.
  - intros s H. destruct (snd s) as [|[] r]; auto. revert s H. mm.
  - apply m_labeled.
  - apply m_selection.
  - apply m_iteration.
  - intros s H. refine (m_match _ _ _ _ _ _ (fun s' => (Ok acc, s')) _ s _ _ _ H); [apply Hrun|intros; apply Hrun|reflexivity].
  - apply m_function.
  - intros s H. destruct (snd s); auto. revert s H. mm.
Qed.
End Mono.

Section Fuel.
Context {ex : Type}.
Context (expression assignment constant : (Z -> bool) -> list tok -> outcome ex * list tok).
Lemma parse_mono : forall n m, n <= m -> forall A (g : goal (ex := ex) A),
  mono (parse expression assignment constant n A g) (parse expression assignment constant m A g).
Proof.
  induction n as [|n IH]; intros m L A g.
  - intros s H. cbn in H. congruence.
  - destruct m as [|m]; [lia|]. cbn [parse]. apply m_step. intros. apply IH. lia.
Qed.
Theorem fuel_irrelevant : forall n m ts o, translation_unit expression assignment constant n ts = o -> o <> NoFuel -> n <= m ->
  translation_unit expression assignment constant m ts = o.
Proof. intros n m ts o <- H L. unfold translation_unit in *. rewrite (parse_mono n m L); auto. Qed.
End Fuel.
