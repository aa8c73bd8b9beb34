(** The expression parser: fuel, progress, and the equation of its rules. *)
From Coq Require Import ZArith List Bool Lia PeanoNat.
From Verif Require Import ParseModel.
Import ListNotations.

Definition suffix (s' s : list tok) : Prop := exists p, s = p ++ s'.
Lemma suffix_refl : forall s, suffix s s. Proof. intros s. now exists []. Qed.
Lemma suffix_trans : forall a b c, suffix a b -> suffix b c -> suffix a c.
Proof. intros a b c (p & ->) (q & ->). exists (q ++ p). now rewrite app_assoc. Qed.
Lemma suffix_cons : forall t a b, suffix a b -> suffix a (t :: b).
Proof. intros t a b (p & ->). now exists (t :: p). Qed.
Lemma suffix_length : forall a b, suffix a b -> length a <= length b.
Proof. intros a b (p & ->). rewrite app_length. lia. Qed.

Lemma punct_eqb_eq : forall a b, punct_eqb a b = true <-> a = b.
Proof. intros. unfold punct_eqb. destruct (punct_eq_dec a b); split; congruence. Qed.
Lemma is_cons : forall p s, is p s = true -> s = TP p :: shift s.
Proof. intros p s H. destruct s as [|t s]; [discriminate|]. destruct t; try discriminate. cbn in H. apply punct_eqb_eq in H. now subst. Qed.

(** [p] and [q] agree on [s], do not run out of fuel there, and on success stop later in the input. *)
Definition E {A} (p q : parser A) (s : list tok) : Prop :=
  p s = q s /\ fst (p s) <> NoFuel /\ forall a s', p s = (Ok a, s') -> suffix s' s.

Lemma E_ret : forall A (a : A) s, E (ret a) (ret a) s.
Proof. intros. split; [reflexivity|split; [discriminate|]]. intros b s' H. injection H as _ <-. apply suffix_refl. Qed.
Lemma E_ok : forall A (a : A) s s', suffix s' s -> E (fun _ => (Ok a, s')) (fun _ => (Ok a, s')) s.
Proof. intros. split; [reflexivity|split; [discriminate|]]. intros b s2 E2. injection E2 as _ <-. assumption. Qed.
Lemma E_stop : forall A (o : outcome A) s s', o = NoMatch \/ o = Syntax -> E (fun _ => (o, s')) (fun _ => (o, s')) s.
Proof.
  intros A o s s' [-> | ->]; (split; [reflexivity|split; [discriminate|]]); intros a s2 H; discriminate.
Qed.

Lemma E_syntax : forall A (p q : parser A) s s', p s = (Syntax, s') -> q s = (Syntax, s') -> E p q s.
Proof. unfold E. intros A p q s s' -> ->. split; [reflexivity|split; [discriminate|intros; discriminate]]. Qed.

Lemma E_conv : forall A (p q p' q' : parser A) s, p s = p' s -> q s = q' s -> E p q s -> E p' q' s.
Proof. unfold E. intros A p q p' q' s <- <-. auto. Qed.

Lemma E_at : forall A (p q p' q' : parser A) s t, p s = p' t -> q s = q' t -> suffix t s -> E p' q' t -> E p q s.
Proof.
  unfold E. intros A p q p' q' s t H1 H2 S (A1 & A2 & A3). rewrite H1, H2. split; [assumption|split; [assumption|]].
  intros a s' H. eapply suffix_trans; [|exact S]. eauto.
Qed.

Lemma E_bind : forall A B (p q : parser A) (f g : A -> parser B) s,
  E p q s -> (forall a s', p s = (Ok a, s') -> suffix s' s -> E (f a) (g a) s') -> E (bind p f) (bind q g) s.
Proof.
  intros A B p q f g s (H1 & H2 & H3) HF. unfold E, bind. rewrite <- H1.
  destruct (p s) as [[a| | |] s'] eqn:P; cbn [fst] in *.
  - specialize (H3 _ _ eq_refl). destruct (HF a s' eq_refl H3) as (F1 & F2 & F3). split; [assumption|split; [assumption|]].
    intros b s2 Hb. eapply suffix_trans; eauto.
  - split; [reflexivity|split; [discriminate|intros; discriminate]].
  - split; [reflexivity|split; [discriminate|intros; discriminate]].
  - congruence.
Qed.

Lemma E_apply : forall A (p q : parser A) s, E p q s -> E (apply p) (apply q) s.
Proof.
  intros A p q s (H1 & H2 & H3). unfold E, apply. rewrite <- H1.
  destruct (p s) as [[a| | |] s'] eqn:P; cbn [fst] in *.
  - split; [reflexivity|split; [discriminate|]]. intros b s2 Hb. injection Hb as <- <-. eauto.
  - split; [reflexivity|split; [discriminate|intros; discriminate]].
  - split; [reflexivity|split; [discriminate|intros; discriminate]].
  - congruence.
Qed.

Lemma E_must : forall A (p q : parser A) s, E p q s -> E (must p) (must q) s.
Proof.
  intros A p q s (H1 & H2 & H3). unfold E, must. rewrite <- H1.
  destruct (p s) as [[a| | |] s'] eqn:P; cbn [fst] in *.
  - split; [reflexivity|split; [discriminate|]]. intros b s2 Hb. injection Hb as <- <-. eauto.
  - split; [reflexivity|split; [discriminate|intros; discriminate]].
  - split; [reflexivity|split; [discriminate|intros; discriminate]].
  - congruence.
Qed.

(** the first alternative leaves the cursor in place if it does not match *)
Definition still {A} (p : parser A) (s : list tok) : Prop := forall s', p s = (NoMatch, s') -> s' = s.
Lemma still_apply : forall A (p : parser A) s, still (apply p) s.
Proof. intros A p s s'. unfold apply. destruct (p s) as [[]]; congruence. Qed.

Lemma E_orelse : forall A (p q p' q' : parser A) s, E p q s -> still p s -> E p' q' s -> E (orelse p p') (orelse q q') s.
Proof.
  intros A p q p' q' s (H1 & H2 & H3) St (G1 & G2 & G3). unfold E, orelse. rewrite <- H1.
  destruct (p s) as [[a| | |] s'] eqn:P; cbn [fst] in *.
  - split; [reflexivity|split; [discriminate|]]. intros b s2 Hb. injection Hb as <- <-. eauto.
  - rewrite (St s' P). split; [assumption|split; assumption].
  - split; [reflexivity|split; [discriminate|intros; discriminate]].
  - congruence.
Qed.

Lemma E_expect : forall A p (o : outcome A) (k k' : parser A) s, o = NoMatch \/ o = Syntax ->
  (forall t, s = TP p :: t -> E k k' t) -> E (expect p o k) (expect p o k') s.
Proof.
  intros A p o k k' s Ho H. unfold E, expect. destruct (is p s) eqn:I.
  - pose proof (is_cons _ _ I) as C. destruct (H _ C) as (H1 & H2 & H3). split; [assumption|split; [assumption|]].
    intros a s' Ha. rewrite C. apply suffix_cons. eauto.
  - destruct Ho as [-> | ->]; (split; [reflexivity|split; [discriminate|intros; discriminate]]).
Qed.

Section Fuel.
Context {tyname init : Type} (type_name : parser tyname) (initializer_list : parser init) (cfg : config).
Notation ast := (ast tyname init). Notation goal := (goal tyname init).

(** What is assumed of the two rules that are not modelled: they stop, and move forward. *)
Definition forward {A} (p : parser A) : Prop := forall s, fst (p s) <> NoFuel /\ forall a s', p s = (Ok a, s') -> suffix s' s.
Hypothesis Ht : forward type_name.
Hypothesis Hi : forward initializer_list.

Definition mu (g : goal) (s : list tok) : nat := 40 * length s + rank g.

Lemma E_type_name : forall s, E type_name type_name s.
Proof. intros s. split; [reflexivity|]. apply Ht. Qed.
Lemma E_init : forall s, E initializer_list initializer_list s.
Proof. intros s. split; [reflexivity|]. apply Hi. Qed.

Lemma rank_tighter : forall k, rank (tighter k : goal) < rank (Bin k : goal).
Proof.
  intros k. unfold tighter. cbn [rank]. destruct (Nat.leb_spec 12 k).
  - cbn [rank]. destruct (Nat.leb_spec k 12); lia.
  - cbn [rank]. destruct (Nat.leb_spec k 12); destruct (Nat.leb_spec (S k) 12); lia.
Qed.
Lemma rank_le : forall g : goal, rank g <= 30.
Proof. intros []; cbn [rank]; try lia. destruct (Nat.leb k 12); lia. Qed.

Section Ext.
Context (r r' : goal -> parser ast) (g : goal) (s : list tok).
Hypothesis small : forall g' s', mu g' s' < mu g s -> E (r g') (r' g') s'.

Lemma here : forall g', rank g' < rank g -> E (r g') (r' g') s.
Proof. intros g' L. apply small. unfold mu. lia. Qed.
Lemma below : forall g' (s' : list tok), rank g' < rank g -> length s' <= length s -> E (r g') (r' g') s'.
Proof. intros g' s' L1 L2. apply small. unfold mu. lia. Qed.
Lemma after : forall g' (s' : list tok), length s' < length s -> E (r g') (r' g') s'.
Proof. intros g' s' L. apply small. unfold mu. pose proof (rank_le g'). lia. Qed.
End Ext.

Ltac len := repeat match goal with H : suffix _ _ |- _ => apply suffix_length in H end; cbn [length] in *; lia.
Ltac e_run := first [ eapply here; [eassumption|cbn [rank Nat.leb Nat.sub]; lia]
                    | eapply after; [eassumption|len]
                    | eapply below; [eassumption|cbn [rank Nat.leb Nat.sub]; lia|len] ].
Ltac e_go :=
  lazymatch goal with
  | |- E (bind _ _) (bind _ _) _ => apply E_bind; [e_go | intros ? ? _ ?; e_go]
  | |- E (apply _) (apply _) _ => apply E_apply; e_go
  | |- E (must _) (must _) _ => apply E_must; e_go
  | |- E (orelse _ _) (orelse _ _) _ => apply E_orelse; [e_go | try apply still_apply | e_go]
  | |- E (expect _ _ _) (expect _ _ _) _ => apply E_expect; [auto | let h := fresh in intros ? h; try (injection h as ? ?); subst; e_go]
  | |- E (ret _) (ret _) _ => apply E_ret
  | |- E type_name _ _ => apply E_type_name
  | |- E initializer_list _ _ => apply E_init
  | _ => first [e_run | idtac]
  end.

Lemma step_E : forall r r' g s, (forall g' s', mu g' s' < mu g s -> E (r g') (r' g') s') ->
  E (step type_name initializer_list cfg r g) (step type_name initializer_list cfg r' g) s.
Proof.
  intros r r' g s small. destruct g; cbn [step].
  - e_go.
  - (* CommaLoop *)
    destruct (is PComma s) eqn:I.
    + pose proof (is_cons _ _ I) as C. eapply (E_at _ _ _ _ _ s (shift s)); cbv beta; [rewrite I; reflexivity|rewrite I; reflexivity| |].
      * rewrite C. apply suffix_cons, suffix_refl.
      * set (t := shift s) in *. clearbody t. subst s. e_go.
    + eapply E_conv; [| |apply (E_ok _ e s s), suffix_refl]; cbv beta; now rewrite I.
  - e_go.
  - (* Reduce *)
    apply E_bind; [e_go|]. intros a s' _ Sf. destruct s' as [|[| | |p| | |] s']; try (apply E_stop; auto).
    destruct (asgop_of p) eqn:O.
    + eapply (E_at _ _ _ _ _ (TP p :: s') s'); cbv beta; try (rewrite O; reflexivity); [apply suffix_cons, suffix_refl|].
      e_go.
    + eapply E_conv; [| |apply (E_stop _ NoMatch (TP p :: s') (TP p :: s')); auto]; cbv beta; now rewrite O.
  - (* Conditional *)
    apply E_bind; [e_go|]. intros a s' _ Sf. cbv zeta. destruct (is PQuestion s') eqn:I.
    + pose proof (is_cons _ _ I) as C. set (t := shift s') in *.
      assert (L : length t < length s) by (rewrite C in Sf; len).
      destruct (negb (is PColon t) || negb (omitted_operand cfg)) eqn:D.
      * eapply (E_at _ _ _ _ _ s' t); cbv beta; [fold t; now rewrite I, D|fold t; now rewrite I, D| |].
        -- rewrite C. apply suffix_cons, suffix_refl.
        -- clearbody t. subst s'. e_go.
      * apply orb_false_iff in D as D'. destruct D' as (D' & _). apply negb_false_iff in D'. pose proof (is_cons _ _ D') as C2.
        eapply (E_at _ _ _ _ _ s' (shift t)); cbv beta; [fold t; now rewrite I, D|fold t; now rewrite I, D| |].
        -- rewrite C. apply suffix_cons. rewrite C2 at 2. apply suffix_cons, suffix_refl.
        -- assert (L2 : length (shift t) < length s) by (rewrite C2 in L; cbn [length] in L; lia). set (u := shift t) in *. clearbody u. clear C C2. e_go.
    + eapply E_conv; [| |apply (E_ok _ a s' s'), suffix_refl]; cbv beta; now rewrite I.
  - (* Bin *)
    apply E_bind; [apply E_apply; eapply here; [eassumption|apply rank_tighter]|]. intros a s' _ Sf.
    eapply below; [eassumption| |len]. cbn [rank]. destruct (Nat.leb_spec k 12); lia.
  - (* BinLoop *)
    destruct s as [|[| | |p| | |] s]; try (apply E_ok, suffix_refl).
    destruct (binop_at k p) eqn:O.
    + eapply (E_at _ _ _ _ _ (TP p :: s) s); cbv beta; try (rewrite O; reflexivity); [apply suffix_cons, suffix_refl|].
      e_go.
    + eapply E_conv; [| |apply (E_ok _ e (TP p :: s) (TP p :: s)), suffix_refl]; cbv beta; now rewrite O.
  - e_go.
  - (* ScanCast *)
    apply E_expect; [auto|]. intros t ->. apply E_bind; [e_go|]. intros ty s1 _ Sf1. apply E_expect; [auto|]. intros t2 ->.
    assert (K : E (apply (r Cast)) (apply (r' Cast)) t2) by e_go.
    destruct K as (K1 & K2 & K3). unfold E. cbv beta. rewrite <- K1.
    destruct (apply (r Cast) t2) as [[e| | |] s2]; cbn [fst] in *.
    + split; [reflexivity|split; [discriminate|]]. intros a s' H. injection H as _ <-. eauto.
    + destruct (is PLBrace s2); (split; [reflexivity|split; [discriminate|intros; discriminate]]).
    + split; [reflexivity|split; [discriminate|intros; discriminate]].
    + congruence.
  - (* Unary *)
    destruct s as [|[| | |p| | |] s];
      try (apply (E_conv _ (apply (r Postfix)) (apply (r' Postfix))); [reflexivity|reflexivity|]; e_go; fail).
    + destruct (prefix_of p) eqn:O.
      * eapply (E_at _ _ _ _ _ (TP p :: s) s); cbv beta; try (rewrite O; reflexivity); [apply suffix_cons, suffix_refl|]. e_go.
      * destruct (punct_eqb p PAndAnd && label_addressing cfg) eqn:A.
        -- destruct s as [|[n| | | | | |] s].
           2: eapply E_conv; [| |apply (E_ok _ (ELabel n) (TP p :: TName n :: s) s)]; cbv beta; try (rewrite O, A; reflexivity);
              apply suffix_cons, suffix_cons, suffix_refl.
           all: (eapply E_syntax; cbv beta; rewrite O, A; reflexivity).
        -- eapply (E_conv _ (apply (r Postfix)) (apply (r' Postfix))); cbv beta; try (rewrite O, A; reflexivity). e_go.
    + (* sizeof *)
      assert (K : E (apply (r Unary)) (apply (r' Unary)) s) by e_go.
      pose proof (still_apply _ (r Unary) s) as St. destruct K as (K1 & K2 & K3).
      destruct (apply (r Unary) s) as [[e| | |] s2] eqn:P; cbn [fst] in *.
      * eapply E_conv; [| |apply (E_ok _ (EUn OSizeof e) (TSizeof :: s) s2)]; cbv beta; [now rewrite P|now rewrite <- K1|].
        apply suffix_cons. eauto.
      * pose proof (St s2 P) as Q. rewrite Q in P, K1. clear Q s2 K3 St.
        eapply (E_at _ _ _ _ _ (TSizeof :: s) s); cbv beta; [rewrite P; reflexivity|rewrite <- K1; reflexivity| |].
        -- apply suffix_cons, suffix_refl.
        -- e_go.
      * eapply E_conv; [| |apply (E_stop _ Syntax (TSizeof :: s) s2); auto]; cbv beta; [now rewrite P|now rewrite <- K1].
      * congruence.
    + (* _Alignof *)
      eapply (E_at _ _ _ _ _ (TAlignof :: s) s); cbv beta; try reflexivity; [apply suffix_cons, suffix_refl|].
      apply E_expect; [auto|]. intros t ->. apply E_bind.
      * apply E_orelse; [e_go| |e_go]. intros s'. unfold bind, apply. destruct (type_name t) as [[] ?]; intros H; inversion H; reflexivity.
      * intros e s1 _ Sf. e_go.
  - apply E_orelse; [e_go|apply still_apply|]. e_go.
  - (* Postfixes *)
    destruct (is PLBracket s) eqn:I1; [|destruct (is PLParen s) eqn:I2; [|destruct (is PDot s || is PArrow s) eqn:I3;
      [|destruct (is PInc s) eqn:I4; [|destruct (is PDec s) eqn:I5]]]].
    + pose proof (is_cons _ _ I1) as C. set (t := shift s) in *.
      eapply (E_at _ _ _ _ _ s t); cbv beta; [now rewrite I1|now rewrite I1| |].
      * rewrite C. apply suffix_cons, suffix_refl.
      * clearbody t. subst s. e_go.
    + pose proof (is_cons _ _ I2) as C. set (t := shift s) in *.
      eapply (E_at _ _ _ _ _ s t); cbv beta; [now rewrite I1, I2|now rewrite I1, I2| |].
      * rewrite C. apply suffix_cons, suffix_refl.
      * clearbody t. subst s. e_go.
    + assert (C : exists p, s = TP p :: shift s).
      { apply orb_prop in I3. destruct I3 as [I|I]; apply is_cons in I; eauto. }
      destruct C as (p & C). set (t := shift s) in *. assert (L : length t < length s) by (rewrite C; cbn [length]; lia).
      assert (Sf : suffix t s) by (rewrite C; apply suffix_cons, suffix_refl).
      destruct t as [|[n| | | | | |] t'] eqn:T;
        try (eapply E_syntax; cbv beta; rewrite I1, I2, I3; fold t; rewrite ?T; reflexivity).
      eapply (E_at _ _ _ _ _ s t'); cbv beta; try (rewrite I1, I2, I3; fold t; rewrite T; reflexivity).
      * eapply suffix_trans; [|exact Sf]. apply suffix_cons, suffix_refl.
      * cbn [length] in L. e_go.
    + pose proof (is_cons _ _ I4) as C. set (t := shift s) in *.
      eapply (E_at _ _ _ _ _ s t); cbv beta; [now rewrite I1, I2, I3, I4|now rewrite I1, I2, I3, I4| |].
      * rewrite C. apply suffix_cons, suffix_refl.
      * clearbody t. subst s. e_go.
    + pose proof (is_cons _ _ I5) as C. set (t := shift s) in *.
      eapply (E_at _ _ _ _ _ s t); cbv beta; [now rewrite I1, I2, I3, I4, I5|now rewrite I1, I2, I3, I4, I5| |].
      * rewrite C. apply suffix_cons, suffix_refl.
      * clearbody t. subst s. e_go.
    + eapply E_conv; [| |apply (E_ok _ e s s), suffix_refl]; cbv beta; now rewrite I1, I2, I3, I4, I5.
  - (* ArgList *)
    destruct (is PRParen s) eqn:I.
    + pose proof (is_cons _ _ I) as C. eapply E_conv; [| |apply (E_ok _ e s (shift s))]; cbv beta; try (now rewrite I).
      rewrite C at 2. apply suffix_cons, suffix_refl.
    + eapply (E_conv _ (bind _ _) (bind _ _)); cbv beta; try (rewrite I; reflexivity).
      apply E_bind; [e_go|]. intros a s1 _ Sf. destruct (is PComma s1) eqn:I1; [|destruct (is PRParen s1) eqn:I2].
      * pose proof (is_cons _ _ I1) as C. set (t := shift s1) in *.
        eapply (E_at _ _ _ _ _ s1 t); cbv beta; [now rewrite I1|now rewrite I1| |].
        -- rewrite C. apply suffix_cons, suffix_refl.
        -- clearbody t. subst s1. e_go.
      * pose proof (is_cons _ _ I2) as C. eapply E_conv; [| |apply (E_ok _ (call_append e a) s1 (shift s1))]; cbv beta; try (now rewrite I1, I2).
        rewrite C at 2. apply suffix_cons, suffix_refl.
      * eapply E_conv; [| |apply (E_stop _ Syntax s1 s1); auto]; cbv beta; now rewrite I1, I2.
  - e_go.
  - (* Primary *)
    destruct s as [|[| | |p| | |] s]; try (apply E_stop; auto; fail);
      try (apply E_ok, suffix_cons, suffix_refl; fail).
    eapply (E_conv _ (expect PLParen NoMatch _) (expect PLParen NoMatch _)); cbv beta; try reflexivity. e_go.
Qed.

Lemma fuel_enough : forall n g s f f', mu g s < n -> n <= f -> n <= f' ->
  E (parse type_name initializer_list cfg f g) (parse type_name initializer_list cfg f' g) s.
Proof.
  induction n as [|n IH]; intros g s f f' L F F'; [lia|].
  destruct f as [|f]; [lia|]. destruct f' as [|f']; [lia|]. cbn [parse].
  apply step_E. intros g' s' L'. apply IH; lia.
Qed.

Notation run := (run type_name initializer_list cfg).
Theorem run_E : forall g s, E (run g) (step type_name initializer_list cfg run g) s.
Proof.
  intros g s. unfold ParseModel.run at 1. cbn [parse].
  eapply E_conv; [reflexivity| |apply step_E]; [reflexivity|].
  intros g' s' L. unfold ParseModel.run. apply (fuel_enough (S (mu g' s'))); unfold mu in *; lia.
Qed.

Theorem run_eq : forall g s, run g s = step type_name initializer_list cfg run g s.
Proof. intros. apply run_E. Qed.
End Fuel.
