(** The parser of [SynModel] stops on every sequence of tokens. *)
From Coq Require Import ZArith List Bool Lia.
From Verif Require ParseModel.
From Verif Require Import SynModel SynFuel.
Import ListNotations.
Import ParseModel (punct(..), outcome(..)).

(** What is needed of the rules for expressions: they stop, and do not move back *)
Definition stopping {ex} (r : (Z -> bool) -> list tok -> outcome ex * list tok) : Prop :=
  forall c ts, fst (r c ts) <> NoFuel /\ forall e ts', r c ts = (Ok e, ts') -> length ts' <= length ts.

Section Term.
Context {ex : Type}.
Context (expression assignment constant : (Z -> bool) -> list tok -> outcome ex * list tok).
Hypothesis Hexp : stopping expression.
Hypothesis Hasg : stopping assignment.
Hypothesis Hcon : stopping constant.
Notation goal := (goal (ex := ex)).

(** [p] stops on [s], with fewer than [b] tokens left if it matches *)
Definition T {A} (p : pr A) (s : st) (b : nat) : Prop :=
  match p s with
  | (Ok _, s') => length (snd s') < b
  | (NoMatch, s') => length (snd s') <= length (snd s)
  | (Syntax, _) => True
  | (NoFuel, _) => False
  end.
Notation len s := (length (snd s)).

Lemma T_ret : forall A (a : A) s b, len s < b -> T (ret a) s b.
Proof. intros. exact H. Qed.
Lemma T_fail : forall A (o : outcome A) s b, o = NoMatch \/ o = Syntax -> T (fail o) s b.
Proof. intros A o s b [-> | ->]; [apply le_n|exact I]. Qed.
Lemma T_weak : forall A (p : pr A) s b b', T p s b -> b <= b' -> T p s b'.
Proof. unfold T. intros. destruct (p s) as [[] s']; auto. lia. Qed.
Lemma T_bind : forall A B (p : pr A) (f : A -> pr B) s b b1, T p s b1 -> b1 <= S (len s) ->
  (forall a s', len s' < b1 -> T (f a) s' b) -> T (bind p f) s b.
Proof.
  unfold T, bind. intros A B p f s b b1 P L F. destruct (p s) as [[] s']; auto.
  specialize (F a s' P). destruct (f a s') as [[] s'']; auto. lia.
Qed.
Lemma T_apply : forall A (p : pr A) s b, T p s b -> T (apply p) s b.
Proof. unfold T, apply. intros. destruct (p s) as [[] s']; auto. Qed.
Lemma T_must : forall A (p : pr A) s b, T p s b -> T (must p) s b.
Proof. unfold T, must. intros. destruct (p s) as [[] s']; auto. Qed.
Lemma T_orelse : forall A (p q : pr A) s b, T p s b -> (forall s', len s' <= len s -> T q s' b) -> T (orelse p q) s b.
Proof.
  unfold T, orelse. intros A p q s b P Q. destruct (p s) as [[] s']; auto. specialize (Q s' P).
  destruct (q s') as [[] s'']; auto. lia.
Qed.
Lemma T_shift : forall A (p : pr A) s b, T p (fst s, tl (snd s)) b -> T (shift p) s b.
Proof.
  unfold T, shift. intros A p s b P. destruct (p _) as [[] s']; auto. cbn [fst snd] in *. destruct (snd s); cbn [tl length] in *; lia.
Qed.
Lemma is_some : forall p (s : st), is p s = true -> S (length (tl (snd s))) = len s.
Proof. intros p s H. unfold is in H. destruct (snd s); [discriminate|reflexivity]. Qed.
Lemma T_expect : forall A p (o : outcome A) k s b, o = NoMatch \/ o = Syntax ->
  (S (length (tl (snd s))) = len s -> T k (fst s, tl (snd s)) b) -> T (expect p o k) s b.
Proof.
  intros A p o k s b Ho K. unfold expect, T. destruct (is p s) eqn:Q.
  - apply T_shift. apply K. eapply is_some. exact Q.
  - destruct Ho as [-> | ->]; [apply le_n|exact I].
Qed.
Lemma T_semi : forall A (k : pr A) s b, (S (length (tl (snd s))) = len s -> T k (fst s, tl (snd s)) b) -> T (semi k) s b.
Proof.
  intros A k s b K. unfold semi, T. destruct (is_semi s) eqn:Q; [|exact I]. apply T_shift, K.
  unfold is_semi in Q. destruct (snd s); [discriminate|reflexivity].
Qed.
Lemma T_when : forall A c (p q : pr A) s b, (c s = true -> T p s b) -> (c s = false -> T q s b) -> T (when c p q) s b.
Proof. intros A c p q s b P Q. unfold when, T. destruct (c s); [apply P|apply Q]; reflexivity. Qed.
Lemma T_when_is : forall A p (f g : pr A) s b, (S (length (tl (snd s))) = len s -> T f s b) -> T g s b -> T (when (is p) f g) s b.
Proof. intros A p f g s b F G. apply T_when; intros H; [apply F; eapply is_some; exact H|exact G]. Qed.
Lemma T_when_semi : forall A (f g : pr A) s b, (S (length (tl (snd s))) = len s -> T f s b) -> T g s b -> T (when is_semi f g) s b.
Proof.
  intros A f g s b F G. apply T_when; intros H; [apply F; unfold is_semi in H; destruct (snd s); [discriminate|reflexivity]|exact G].
Qed.
Lemma T_if : forall A (c : bool) (p q : pr A) s b, T p s b -> T q s b -> T (if c then p else q) s b.
Proof. intros A [] p q s b P Q; auto. Qed.
Lemma qualifiers_len : forall ts, length (snd (qualifiers ts)) <= length ts.
Proof.
  induction ts as [|t ts IH]; [apply le_n|]. cbn. destruct t as [|[]| | | | |]; cbn; try lia; destruct (qualifiers ts); cbn in *; lia.
Qed.
Lemma T_quals : forall A (k : list kw -> pr A) s b, (forall q s', len s' <= len s -> T (k q) s' b) -> T (quals k) s b.
Proof.
  intros A k s b K. unfold quals, T. pose proof (qualifiers_len (snd s)) as L. destruct (qualifiers (snd s)) as [q r]. cbn in L.
  specialize (K q (fst s, r) L). unfold T in K. destruct (k q (fst s, r)) as [[] s']; auto. cbn in K. lia.
Qed.
Lemma T_static : forall A (k : bool -> pr A) s b, (forall q s', len s' <= len s -> T (k q) s' b) -> T (opt_static k) s b.
Proof.
  intros A k s b K. unfold opt_static, T.
  assert (F : T (k false) s b) by (apply K, le_n).
  destruct (snd s) as [|t r] eqn:Q; [unfold T in F; now rewrite Q in F|].
  destruct t as [|[]| | | | |]; try (unfold T in F; rewrite Q in F; exact F).
  assert (L : len (fst s, r) <= length (TKw KStatic :: r)) by (cbn; lia).
  specialize (K true (fst s, r) L). unfold T in K. destruct (k true (fst s, r)) as [[] s']; auto. cbn in *. lia.
Qed.
Lemma T_erule : forall (r : (Z -> bool) -> list tok -> outcome ex * list tok) s, stopping r -> T (erule r) s (S (len s)).
Proof.
  intros r s H. unfold erule, T, apply. destruct (H (is_typedef (fst s)) (snd s)) as [N O].
  destruct (r _ _) as [[] ts]; auto.
  cbn. apply Nat.lt_succ_r, (O _ _ eq_refl).
Qed.
Lemma T_match : forall A B (p : pr A) (f : A -> pr B) (h : st -> outcome B * st) s b b1, T p s b1 -> b1 <= S (len s) ->
  (forall a s', len s' < b1 -> T (f a) s' b) ->
  (forall s', len s' <= len s -> T h s' b) ->
  T (fun s => match p s with (Ok a, s') => f a s' | (NoMatch, s') => h s' | (Syntax, s') => (Syntax, s') | (NoFuel, s') => (NoFuel, s') end) s b.
Proof.
  unfold T. intros A B p f h s b b1 P L F Hh. destruct (p s) as [[] s']; auto.
  - specialize (F a s' P). destruct (f a s') as [[] s'']; auto. lia.
  - specialize (Hh s' P). destruct (h s') as [[] s'']; auto. lia.
Qed.

Definition rank {A} (g : goal A) : nat :=
  match g with
  | GSpecs _ | GEnums _ | GTail _ _ | GParams _ | GIds _ | GDesig _ => 0
  | GDeclr | GAbs | GPtrTail | GInit | GTypeName | GFields _ | GParam | GDecl | GStmt => 1
  | GInitList _ | GFieldDecls _ | GInitDecls _ | GItems _ | GDecls _ | GUnit _ => 2
  end.
(** the least number of tokens of a match *)
Definition adv {A} (g : goal A) : nat :=
  match g with
  | GSpecs [] | GTypeName | GDeclr | GParam | GDecl | GStmt => 1
  | _ => 0
  end.
Definition mu {A} (g : goal A) (s : st) : nat := 3 * len s + rank g.

Section Step.
Context (run : forall A, goal A -> pr A) (N : nat).
Arguments run {A}.
Hypothesis Hrun : forall A (g : goal A) s, mu g s < N -> T (run g) s (S (len s) - adv g).

(* a call: enough tokens have been read *)
Lemma call : forall A (g : goal A) s b, mu g s < N -> S (len s) - adv g <= b -> T (run g) s b.
Proof. intros A g s b H L. eapply T_weak; [apply Hrun, H|exact L]. Qed.

Ltac len := cbn [fst snd rank adv length tl] in *; unfold mu in *; cbn [fst snd rank adv length tl] in *; lia.
Ltac tt1 :=
  match goal with
  | |- T (ret _) _ _ => apply T_ret; len
  | |- T (fail _) _ _ => apply T_fail; auto
  | |- T (bind (run _) _) ?s _ => eapply T_bind; [apply call; [len|apply le_n]|len|cbn [adv]; intros ? ? ?]
  | |- T (bind (apply (run _)) _) ?s _ => eapply T_bind; [apply T_apply, call; [len|apply le_n]|len|cbn [adv]; intros ? ? ?]
  | |- T (bind (must (run _)) _) ?s _ => eapply T_bind; [apply T_must, call; [len|apply le_n]|len|cbn [adv]; intros ? ? ?]
  | |- T (bind (must (apply (run _))) _) ?s _ => eapply T_bind; [apply T_must, T_apply, call; [len|apply le_n]|len|cbn [adv]; intros ? ? ?]
  | |- T (bind (erule _) _) ?s _ => eapply T_bind; [apply T_erule; assumption|apply le_n|intros ? ? ?]
  | |- T (bind (must (erule _)) _) ?s _ => eapply T_bind; [apply T_must, T_erule; assumption|apply le_n|intros ? ? ?]
  | |- T (bind _ _) ?s _ => apply (T_bind _ _ _ _ s _ (S (length (snd s)))); [|apply le_n|intros ? ? ?]
  | |- T (apply _) _ _ => apply T_apply
  | |- T (must _) _ _ => apply T_must
  | |- T (orelse _ _) _ _ => apply T_orelse; [|intros ? ?]
  | |- T (shift _) _ _ => apply T_shift
  | |- T (expect _ _ _) _ _ => apply T_expect; [auto|intros ?]
  | |- T (semi _) _ _ => apply T_semi; intros ?
  | |- T (when (is _) _ _) _ _ => apply T_when_is; [intros ?|]
  | |- T (when is_semi _ _) _ _ => apply T_when_semi; [intros ?|]
  | |- T (when _ _ _) _ _ => apply T_when; intros ?
  | |- T (if _ then _ else _) _ _ => apply T_if
  | |- T (quals _) _ _ => apply T_quals; intros ? ? ?
  | |- T (opt_static _) _ _ => apply T_static; intros ? ? ?
  | |- T (run _) _ _ => apply call; len
  end.
Ltac tt := repeat tt1.

Lemma t_compound : forall s b, 3 * len s <= N -> len s <= b -> T (compound (@run)) s b.
Proof.
  intros s b L B. unfold compound. tt.
  pose (s1 := push (fst s, tl (snd s))). change (T (bind (run (GItems [])) (fun its => expect PRBrace Syntax (pop (ret its)))) s1 b).
  assert (len s1 = length (tl (snd s))) by reflexivity. tt. unfold T, pop, ret. len.
Qed.
Lemma t_stmt : forall s b, 3 * len s + 1 < N -> len s <= b -> T (stmt_ (@run)) s b.
Proof. intros s b L B. unfold stmt_. tt. Qed.
Lemma t_parens : forall A (k : ex -> pr A) s b, (forall e s', len s' + 2 <= len s -> T (k e) s' b) -> T (parens expression k) s b.
Proof. intros A k s b K. unfold parens. tt. apply K. len. Qed.
Ltac tt' := repeat
  match goal with
  | |- T (bind (stmt_ _) _) _ _ => eapply T_bind; [apply t_stmt; [len|apply le_n]|len|intros ? ? ?]
  | |- T (compound _) _ _ => apply t_compound; len
  | |- T (parens _ _) _ _ => apply t_parens; intros ? ? ?
  | |- T (stmt_ _) _ _ => apply t_stmt; len
  | _ => tt1
  end.
Lemma T_ext : forall A (p q : pr A) s b, p s = q s -> T q s b -> T p s b.
Proof. unfold T. intros A p q s b ->. auto. Qed.
(* the next token is known, by Q *)
Ltac known f Q := eapply T_ext; [unfold f; rewrite Q; reflexivity|];
  match type of Q with snd ?s = _ => try (assert (S (length (tl (snd s))) = length (snd s)) by (rewrite Q; reflexivity));
    try (assert (S (S (length (tl (tl (snd s))))) = length (snd s)) by (rewrite Q; reflexivity)) end.
Lemma t_opt : forall c s, T (opt_expr expression c) s (S (len s)).
Proof. intros c s. unfold opt_expr. tt. Qed.
Lemma t_for_init : forall s, 3 * len s + 1 < N -> T (for_init expression (@run)) s (len s).
Proof.
  intros s L. unfold for_init. tt. apply t_opt.
Qed.
Ltac toks s ts Q := assert (exists l, snd s = l) as [ts Q] by (eexists; reflexivity).
Ltac none f Q := known f Q; apply T_fail; auto; fail.
Lemma t_labeled : forall s, 3 * len s + 1 <= N -> T (labeled constant (@run)) s (len s).
Proof.
  intros s L. toks s ts Q. destruct ts as [|t r]; [none (@labeled) Q|].
  destruct t as [x|k| | | | |]; try none (@labeled) Q.
  - destruct r as [|t r]; [none (@labeled) Q|]. destruct t as [| |[]| | | |]; try none (@labeled) Q. known (@labeled) Q. tt'.
  - destruct k; try none (@labeled) Q; known (@labeled) Q; tt'.
Qed.
Lemma t_expression : forall s, T (expression_statement expression) s (len s).
Proof. intros s. unfold expression_statement. tt. Qed.
Lemma t_else : forall e a s b, 3 * len s + 1 <= N -> len s < b ->
  T (fun s1 => match snd s1 with
               | TKw KElse :: _ => shift (bind (stmt_ (@run)) (fun b => ret (SIf e a (Some b)))) s1
               | _ => (Ok (SIf e a None), s1)
               end) s b.
Proof.
  intros e a s b L B. toks s ts Q.
  assert (D : T (ret (SIf e a None)) s b) by tt.
  destruct ts as [|t r]; [eapply T_ext; [rewrite Q; reflexivity|exact D]|].
  destruct t as [x|k| | | | |]; try (eapply T_ext; [rewrite Q; reflexivity|exact D]).
  destruct k; try (eapply T_ext; [rewrite Q; reflexivity|exact D]).
  eapply T_ext; [rewrite Q; reflexivity|]. assert (S (length (tl (snd s))) = len s) by (rewrite Q; reflexivity). tt'.
Qed.
Lemma t_selection : forall s, 3 * len s + 1 <= N -> T (selection expression (@run)) s (len s).
Proof.
  intros s L. toks s ts Q. destruct ts as [|t r]; [none (@selection) Q|].
  destruct t as [x|k| | | | |]; try none (@selection) Q.
  destruct k; try none (@selection) Q; known (@selection) Q; tt'. apply t_else; len.
Qed.
Lemma t_do : forall d s b, len s <= b ->
  T (fun s1 => match snd s1 with
               | TKw KWhile :: _ => shift (parens expression (fun e => semi (ret (SDo d e)))) s1
               | _ => (Syntax, s1)
               end) s b.
Proof.
  intros d s b B. toks s ts Q. assert (D : T (fail (A := stmt (ex := ex)) Syntax) s b) by tt.
  destruct ts as [|t r]; [eapply T_ext; [rewrite Q; reflexivity|exact D]|].
  destruct t as [x|k| | | | |]; try (eapply T_ext; [rewrite Q; reflexivity|exact D]).
  destruct k; try (eapply T_ext; [rewrite Q; reflexivity|exact D]).
  eapply T_ext; [rewrite Q; reflexivity|]. assert (S (length (tl (snd s))) = len s) by (rewrite Q; reflexivity). tt'.
Qed.
Lemma t_iteration : forall s, 3 * len s + 1 <= N -> T (iteration expression (@run)) s (len s).
Proof.
  intros s L. toks s ts Q. destruct ts as [|t r]; [none (@iteration) Q|].
  destruct t as [x|k| | | | |]; try none (@iteration) Q.
  destruct k; try none (@iteration) Q; known (@iteration) Q.
  - tt'.
  - tt'. apply t_do. len.
  - tt'; first [eapply T_weak; [apply t_for_init|]; len|eapply T_weak; [apply t_opt|len]].
Qed.
Lemma t_jump : forall s, T (jump expression) s (len s).
Proof.
  intros s. toks s ts Q. destruct ts as [|t r]; [none (@jump) Q|].
  destruct t as [x|k| | | | |]; try none (@jump) Q.
  destruct k; try none (@jump) Q.
  - known (@jump) Q. tt. apply t_opt.
  - destruct r as [|t r]; [none (@jump) Q|]. destruct t; try none (@jump) Q. known (@jump) Q. tt.
  - known (@jump) Q. tt.
  - known (@jump) Q. tt.
Qed.
Lemma t_function : forall s, 3 * len s < N -> T (function_definition (@run)) s (len s).
Proof. intros s L. unfold function_definition. tt'. Qed.
Lemma t_field : forall s, 3 * len s < N -> T (field_declaration (@run)) s (len s).
Proof. intros s L. unfold field_declaration. tt'. Qed.
Lemma t_struct : forall k s, 3 * len s + 1 < N -> T (struct_specifier (@run) k) s (S (len s)).
Proof.
  intros k s L. toks s ts Q.
  assert (B : forall x s0, 3 * len s0 + 1 < N -> is PLBrace s0 = true -> len s0 <= len s ->
    T (shift (bind (run (GFields [])) (fun fs => expect PRBrace Syntax (ret (SpBody k x fs))))) s0 (S (len s))).
  { intros x s0 L0 I0 L1. pose proof (is_some _ _ I0). tt. }
  assert (W : T (fun s => if is PLBrace s then shift (bind (run (GFields [])) (fun fs => expect PRBrace Syntax (ret (SpBody k None fs)))) s else (Syntax, s)) s (S (len s))).
  { apply (T_when _ (is PLBrace) _ (fail Syntax)); intros H; [apply B; auto|apply T_fail; auto]. }
  destruct ts as [|t r]; [eapply T_ext; [|exact W]; unfold struct_specifier; rewrite Q; reflexivity|].
  destruct t as [x|k'| | | | |]; try (eapply T_ext; [|exact W]; unfold struct_specifier; rewrite Q; reflexivity).
  known (@struct_specifier) Q. tt.
Qed.
Lemma t_enum : forall s, 3 * len s + 1 < N -> T (enum_specifier (@run)) s (S (len s)).
Proof.
  intros s L. toks s ts Q.
  assert (B : forall x s0, 3 * len s0 + 1 < N -> is PLBrace s0 = true -> len s0 <= len s ->
    T (shift (bind (run (GEnums [])) (fun fs => expect PRBrace Syntax (ret (SpEnum x fs))))) s0 (S (len s))).
  { intros x s0 L0 I0 L1. pose proof (is_some _ _ I0). tt. }
  assert (W : T (fun s => if is PLBrace s then shift (bind (run (GEnums [])) (fun fs => expect PRBrace Syntax (ret (SpEnum None fs)))) s else (Syntax, s)) s (S (len s))).
  { apply (T_when _ (is PLBrace) _ (fail Syntax)); intros H; [apply B; auto|apply T_fail; auto]. }
  destruct ts as [|t r]; [eapply T_ext; [|exact W]; unfold enum_specifier; rewrite Q; reflexivity|].
  destruct t as [x|k'| | | | |]; try (eapply T_ext; [|exact W]; unfold enum_specifier; rewrite Q; reflexivity).
  known (@enum_specifier) Q. tt.
Qed.
Lemma t_specifier : forall acc s, 3 * len s <= N -> T (specifier (@run) acc) s (len s).
Proof.
  intros acc s L. toks s ts Q. destruct ts as [|t r]; [none (@specifier) Q|].
  destruct t as [x|k| | | | |]; try none (@specifier) Q.
  - apply (T_ext _ _ (if negb (has_type acc) && is_typedef (fst s) x then shift (ret (SpName x)) else fail NoMatch)).
    + unfold specifier. rewrite Q. destruct (_ && _); reflexivity.
    + assert (S (length (tl (snd s))) = len s) by (rewrite Q; reflexivity). tt.
  - destruct k as [| | | | | | |[]| | | | | | | | | | | | | |]; try none (@specifier) Q; try (known (@specifier) Q; tt; fail).
    + destruct r as [|t r]; [known (@specifier) Q; tt|]. destruct t as [| |[]| | | |]; known (@specifier) Q; tt.
    + known (@specifier) Q. tt. eapply T_weak; [apply t_struct|]; len.
    + known (@specifier) Q. tt. eapply T_weak; [apply t_struct|]; len.
    + known (@specifier) Q. tt. eapply T_weak; [apply t_enum|]; len.
Qed.
Lemma t_array : forall d k s b, (forall d s', len s' < len s -> T (k d) s' b) -> T (array_declarator assignment d k) s b.
Proof.
  intros d k s b K. unfold array_declarator. tt.
  - apply (T_match _ _ (erule assignment) (fun e => ret (ALen e)) (fun s' => (if _ || _ then Syntax else Ok AUnb, s')) _ _ (S (len s'1)));
      [apply T_erule; assumption|apply le_n|intros; tt|]. intros s2 L2. destruct (_ || _); cbn; [exact I|]. unfold T; len.
  - apply K. len.
Qed.
Lemma t_parameters : forall abs s, 3 * len s + 1 < N -> T (parameters (@run) abs) s (S (len s)).
Proof.
  intros abs s L.
  assert (P : T (bind (run GParam) (fun p => run (GParams [p]))) s (S (len s))) by tt.
  unfold parameters, T in *. destruct (bind (run GParam) _ s) as [[] s']; auto.
  change (T (fun s0 => if abs then (Ok ([], false), s0) else
    bind match snd s0 with TId _ :: _ => run (GIds []) | _ => ret [] end (fun ps => ret (ps, false)) s0) (fst s', snd s) (S (len s))).
  destruct abs; [apply (T_ret _ (([] : list param), false)); len|].
  change (T (bind (match snd (fst s', snd s) with TId _ :: _ => run (GIds []) | _ => ret [] end) (fun ps => ret (ps, false))) (fst s', snd s) (S (len s))).
  cbn [snd]. tt. destruct (snd s) as [|[] r]; tt.
Qed.
Lemma t_pointer : forall sub s, (forall s', len s' < len s -> T sub s' (S (len s'))) -> T (pointer (ex := ex) sub) s (len s).
Proof. intros sub s K. unfold pointer. tt. apply K. len. Qed.
Lemma t_direct : forall s, 3 * len s <= N -> T (direct_base (@run)) s (len s).
Proof.
  intros s L.
  change (T (when (is PLParen) (shift (bind (run GDeclr) (fun d => expect PRParen Syntax (ret d))))
    (fun s => match snd s with TId x :: _ => shift (ret (DId (Some x))) s | _ => (NoMatch, s) end)) s (len s)).
  tt. toks s ts Q. destruct ts as [|[] r]; eapply T_ext; try (rewrite Q; reflexivity); try (apply (T_fail _ NoMatch); auto; fail).
  assert (S (length (tl (snd s))) = len s) by (rewrite Q; reflexivity). tt.
Qed.
Lemma t_abstract : forall s, 3 * len s <= N -> T (abstract_base (@run)) s (S (len s)).
Proof.
  intros s L. unfold abstract_base, T. destruct (is PLParen s) eqn:I; [|apply le_n]. pose proof (is_some _ _ I).
  assert (P : T (shift (bind (run GAbs) (fun d => expect PRParen Syntax (ret d)))) s (S (len s))) by tt.
  unfold T in P. destruct (shift _ s) as [[] s']; auto.
Qed.
Lemma t_dabs : forall b s, 3 * len s < N -> T (direct_abstract (@run) b) s (S (len s)).
Proof.
  intros b s L. unfold direct_abstract. tt; [apply t_abstract; lia|]. destruct a0 as [[]| | |]; tt.
Qed.

Lemma step_stops : forall A (g : goal A) s, mu g s <= N ->
  T (step expression assignment constant (@run) A g) s (S (len s) - adv g).
Proof.
  intros A g s L. destruct g; cbn [step]; unfold mu in L; cbn [rank] in L.
  - apply (T_match _ _ (apply (specifier (@run) acc)) (fun sp => run (GSpecs (acc ++ [sp])))
      (fun s' => match acc with [] => (NoMatch, s') | _ => (Ok acc, s') end) s _ (len s)); [|lia| |].
    + apply T_apply, t_specifier. lia.
    + intros a s' H. eapply T_weak; [apply Hrun; len|]. destruct acc; cbn [adv app]; [|lia]. lia.
    + intros s' H. destruct acc; [apply (T_fail _ NoMatch); auto|]. cbn [adv]. apply (T_ret _ (s0 :: acc)). len.
  - apply (T_match _ _ (field_declaration (@run)) (fun f => run (GFields (acc ++ [f]))) (fun s' => (Ok acc, s')) s _ (len s)); [|lia| |].
    + apply t_field. lia.
    + intros a s' H. tt.
    + intros s' H. apply (T_ret _ acc). len.
  - cbn [adv]. tt.
  - toks s ts Q. cbn [adv]. destruct ts as [|[] r]; eapply T_ext; try (rewrite Q; reflexivity); try (apply (T_fail _ Syntax); auto; fail).
    assert (S (length (tl (snd s))) = len s) by (rewrite Q; reflexivity). tt.
    unfold T. destruct (declare false x (fst s')); [|exact I].
    match goal with |- match when ?c ?p ?q ?s with _ => _ end => assert (W : T (when c p q) s (S (len s))) by tt end.
    unfold T in W. destruct (when _ _ _ _) as [[] s2]; auto; len.
  - cbn [adv]. tt.
  - cbn [adv]. apply T_apply, T_when_is; [intros|].
    + eapply T_weak; [apply t_pointer|lia]. intros. tt.
    + eapply T_bind; [apply t_direct|..]; [lia|lia|]. intros. tt.
  - cbn [adv]. tt.
    + apply t_array. intros. eapply T_weak; [apply Hrun|]; len.
    + eapply T_weak; [apply t_parameters|]; len.
  - cbn [adv]. tt.
  - cbn [adv]. tt.
    match goal with |- T _ ?s _ => apply (T_match _ _ (run GParam) (fun p => run (GParams (acc ++ [p])))
      (fun s' => match snd s' with TEllipsis :: _ => shift (ret (acc, true)) s' | _ => (Syntax, s') end) s _ (len s)) end; [|lia| |].
    + eapply T_weak; [apply Hrun|]; len.
    + intros. tt.
    + intros s' Hs. toks s' ts Q. destruct ts as [|[] r]; eapply T_ext; try (rewrite Q; reflexivity); try (apply (T_fail _ Syntax); auto; fail).
      assert (S (length (tl (snd s'))) = len s') by (rewrite Q; reflexivity). tt.
  - toks s ts Q. cbn [adv]. destruct ts as [|t r]; [eapply T_ext; [rewrite Q; reflexivity|apply (T_fail _ Syntax); auto]|].
    destruct t; try (eapply T_ext; [rewrite Q; reflexivity|apply (T_fail _ Syntax); auto]; fail).
    assert (S (length (tl (snd s))) = len s) by (rewrite Q; reflexivity).
    eapply (T_ext _ _ (if is_typedef (fst s) x then fail Syntax else _)); [rewrite Q; destruct (is_typedef (fst s) x); reflexivity|]. tt.
  - cbn [adv]. tt.
    + eapply T_weak; [apply t_pointer|lia]. intros. tt.
    + eapply T_weak; [apply t_dabs|]; lia.
  - cbn [adv]. tt.
    + eapply T_weak; [apply t_pointer|lia]. intros. tt.
    + eapply T_weak; [apply t_dabs|]; lia.
  - cbn [adv]. tt.
  - cbn [adv]. tt.
  - cbn [adv]. tt.
    match goal with |- T _ ?s _ => toks s ts Q; destruct ts as [|[] r]; eapply T_ext; try (rewrite Q; reflexivity); try (apply (T_fail _ Syntax); auto; fail) end.
    match type of Q with snd ?s = _ => assert (S (length (tl (snd s))) = len s) by (rewrite Q; reflexivity) end. tt.
  - cbn [adv]. tt.
  - cbn [adv]. tt. unfold T. destruct (declare_all _ _ _); [len|exact I].
  - cbn [adv]. replace (S (len s) - 1) with (len s) by lia.
    repeat match goal with |- T (orelse _ _) _ _ => apply T_orelse; [|intros ? ?] | |- T (apply _) _ _ => apply T_apply end.
    + apply t_labeled. lia.
    + eapply T_bind; [apply t_compound; [lia|apply le_n]|lia|intros; tt].
    + eapply T_weak; [apply t_expression|lia].
    + eapply T_weak; [apply t_selection|]; lia.
    + eapply T_weak; [apply t_iteration|]; lia.
    + eapply T_weak; [apply t_jump|]; lia.
  - cbn [adv]. apply T_when_is; [intros; tt|].
    apply (T_bind _ _ _ _ s _ (len s)); [|lia|intros; tt]. tt.
  - cbn [adv]. apply (T_match _ _ (run GDecl) (fun d => run (GDecls (acc ++ [d]))) (fun s' => (Ok acc, s')) s _ (len s)); [|lia| |].
    + tt.
    + intros. tt.
    + intros s' H. apply (T_ret _ acc). len.
  - cbn [adv]. apply (T_bind _ _ _ _ s _ (len s)); [|lia|].
    + tt. eapply T_weak; [apply t_function|]; lia.
    + intros x s' H. toks s' ts Q. destruct ts as [|t r]; eapply T_ext; try (rewrite Q; reflexivity).
      * apply (T_ret _ (acc ++ [x])). lia.
      * tt.
Qed.
End Step.

Lemma parse_stops : forall n A (g : goal A) s, mu g s < n -> T (parse expression assignment constant n A g) s (S (len s) - adv g).
Proof.
  induction n as [|n IH]; intros A g s H; [lia|]. cbn [parse]. apply (step_stops _ n); [exact IH|lia].
Qed.
(** With this much fuel there is an answer *)
Definition enough (ts : list tok) : nat := 3 * length ts + 3.
Theorem unit_stops : forall ts, translation_unit expression assignment constant (enough ts) ts <> NoFuel.
Proof.
  intros ts H. unfold translation_unit in H. assert (P : mu (GUnit [] : goal _) (([[]] : scope), ts) < enough ts).
  { unfold mu, enough. cbn [rank snd]. lia. }
  pose proof (parse_stops _ _ _ _ P) as R. unfold T in R. destruct (parse _ _ _ _ _ _ _) as [[] s']; try discriminate. exact R.
Qed.
End Term.
