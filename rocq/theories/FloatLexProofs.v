From Coq Require Import ZArith Bool List Lia.
From Verif Require Import FloatLexModel FloatLexSpec.
Import ListNotations.
Open Scope Z_scope.

Lemma one_of_spec : forall l c, one_of l c = true <-> In c l.
Proof.
  intros l c. unfold one_of. rewrite existsb_exists. split.
  - intros (x & I & E). apply Z.eqb_eq in E. now subst.
  - intros I. exists c. split; [auto|apply Z.eqb_refl].
Qed.

Ltac chars H := apply one_of_spec in H; cbn [In] in H.

Lemma is_digit_spec : forall c, is_digit c = true <-> digit c.
Proof. intros c. unfold is_digit, digit. rewrite one_of_spec. cbn [In]. lia. Qed.
Lemma is_hexdigit_spec : forall c, is_hexdigit c = true <-> hexdigit c.
Proof.
  intros c. unfold is_hexdigit, hexdigit. rewrite orb_true_iff, is_digit_spec, one_of_spec. cbn [In]. unfold digit. lia.
Qed.

(** What the two instances have in common *)
Record scheme (D E : Z -> bool) (P : Z -> Prop) (l u : Z) : Prop :=
  { sc_digit : forall c, D c = true <-> P c; sc_exp : forall c, E c = true <-> c = l \/ c = u;
    sc_dot : D dot = false; sc_disjoint : forall c, E c = true -> D c = false;
    sc_suffix : forall c v ty, suffix (c :: v) ty -> E c = false /\ c <> dot;
    sc_expdot : E dot = false }.

Lemma suffix_chars : forall c v ty, suffix (c :: v) ty -> v = [] /\ (c = 102 \/ c = 70 \/ c = 108 \/ c = 76).
Proof. intros * S. inversion S as [|? I|? I]; subst; cbn [In] in I; (split; [auto|lia]). Qed.

Lemma dec_scheme : scheme is_digit is_e digit 101 69.
Proof.
  constructor; try reflexivity.
  - apply is_digit_spec.
  - intros c. unfold is_e. rewrite one_of_spec. cbn [In]. lia.
  - intros c H. chars H. destruct H as [<-|[<-|[]]]; reflexivity.
  - intros c v ty S. apply suffix_chars in S as (_ & S). unfold dot. split; [|lia].
    destruct S as [->|[->|[->| ->]]]; reflexivity.
Qed.
Lemma hex_scheme : scheme is_hexdigit is_p hexdigit 112 80.
Proof.
  constructor; try reflexivity.
  - apply is_hexdigit_spec.
  - intros c. unfold is_p. rewrite one_of_spec. cbn [In]. lia.
  - intros c H. chars H. destruct H as [<-|[<-|[]]]; reflexivity.
  - intros c v ty S. apply suffix_chars in S as (_ & S). unfold dot. split; [|lia].
    destruct S as [->|[->|[->| ->]]]; reflexivity.
Qed.

Definition stops (p : Z -> bool) (r : list Z) : Prop := match r with c :: _ => p c = false | [] => True end.

Lemma digits_sound : forall p s d r, digits p s = (d, r) -> s = d ++ r /\ Forall (fun c => p c = true) d /\ stops p r.
Proof.
  induction s as [|c s]; cbn [digits]; intros d r H.
  - injection H as <- <-. cbn. auto.
  - destruct (p c) eqn:P.
    + destruct (digits p s) as [d' r'] eqn:E. injection H as <- <-. destruct (IHs _ _ eq_refl) as (-> & F & S). auto.
    + injection H as <- <-. cbn. auto.
Qed.
Lemma digits_complete : forall p d r, Forall (fun c => p c = true) d -> stops p r -> digits p (d ++ r) = (d, r).
Proof.
  intros p d r F S. induction F as [|c d C F]; cbn [app digits].
  - destruct r as [|c r]; [auto|]. cbn in *. now rewrite S.
  - now rewrite C, IHF.
Qed.

Lemma suffix_sound : forall s ty r, match_suffix s = (ty, r) -> exists u, s = u ++ r /\ suffix u ty.
Proof.
  intros [|c s] ty r; cbn [match_suffix]; intros H.
  - injection H as <- <-. exists []. split; [auto|constructor].
  - destruct (one_of [108; 76] c) eqn:L.
    + injection H as <- <-. exists [c]. split; [auto|]. constructor. now apply one_of_spec.
    + destruct (one_of [102; 70] c) eqn:F; injection H as <- <-.
      * exists [c]. split; [auto|]. constructor. now apply one_of_spec.
      * exists []. split; [auto|constructor].
Qed.
Lemma suffix_complete : forall u ty, suffix u ty -> match_suffix u = (ty, []).
Proof. intros * S. inversion S as [|c I|c I]; subst; cbn [In] in *; [auto| |]; destruct I as [<-|[<-|[]]]; reflexivity. Qed.

Lemma forall_digits : forall D (P : Z -> Prop) l, (forall c, D c = true <-> P c) -> Forall (fun c => D c = true) l <-> Forall P l.
Proof. intros D P l H. split; (apply Forall_impl; intros a A; now apply H). Qed.

Lemma exponent_sound : forall D E P l u s e r, scheme D E P l u -> exponent_part E s = Some (e, r) ->
  s = e ++ r /\ ((e = [] /\ stops E s) \/ exponent l u e).
Proof.
  intros * SC H. destruct s as [|c s]; cbn [exponent_part] in H.
  - injection H as <- <-. cbn. auto.
  - destruct (E c) eqn:EC; [|injection H as <- <-; cbn; auto].
    set (q := match s with x :: r1 => if one_of [43; 45] x then ([x], r1) else ([], s) | [] => ([], []) end) in H.
    assert (Q : s = fst q ++ snd q /\ In (fst q) [[]; [43]; [45]]).
    { subst q. destruct s as [|x s]; cbn [fst snd app]; [split; [auto|now left]|].
      destruct (one_of [43; 45] x) eqn:X; cbn [fst snd app]; (split; [auto|]); [|now left].
      chars X. destruct X as [<-|[<-|[]]]; cbn; auto. }
    destruct q as [sg r1]. cbn [fst snd] in Q. destruct Q as (-> & Q).
    destruct (digits is_digit r1) as [d r2] eqn:DD. destruct d as [|d0 d]; [discriminate H|]. cbn [none] in H.
    injection H as <- <-. destruct (digits_sound _ _ _ _ DD) as (-> & F & _).
    split; [cbn; now rewrite <- app_assoc|]. right. constructor; [now apply (sc_exp _ _ _ _ _ SC)|exact Q|].
    split; [discriminate|]. now apply (forall_digits is_digit digit _ is_digit_spec).
Qed.

Lemma exponent_complete : forall D E P l u e v ty, scheme D E P l u -> exponent l u e -> suffix v ty ->
  exponent_part E (e ++ v) = Some (e, v).
Proof.
  intros * SC X S. destruct X as [c sg d C G (N & F)]. cbn [app exponent_part].
  apply (sc_exp _ _ _ _ _ SC) in C. rewrite C.
  apply (forall_digits is_digit digit _ is_digit_spec) in F.
  assert (SV : stops is_digit v).
  { destruct v as [|a v]; [exact I|]. apply suffix_chars in S as (_ & S). cbn. destruct S as [->|[->|[->| ->]]]; reflexivity. }
  destruct d as [|d0 d]; [easy|].
  assert (DG : digits is_digit ((d0 :: d) ++ v) = (d0 :: d, v)) by now apply digits_complete.
  assert (NS : one_of [43; 45] d0 = false).
  { inversion F as [|? ? H0]; subst. chars H0. destruct (one_of [43; 45] d0) eqn:Q; [|auto]. chars Q. lia. }
  destruct G as [<-|[<-|[<-|[]]]].
  - cbn [app] in *. rewrite NS, DG. reflexivity.
  - cbn [app] in *. change (one_of [43; 45] 43) with true. cbv iota. rewrite DG. reflexivity.
  - cbn [app] in *. change (one_of [43; 45] 45) with true. cbv iota. rewrite DG. reflexivity.
Qed.

Lemma exponent_none : forall D E P l u v ty, scheme D E P l u -> suffix v ty -> exponent_part E v = Some ([], v).
Proof.
  intros * SC S. destruct v as [|c v]; [auto|]. cbn [exponent_part].
  now rewrite (proj1 (sc_suffix _ _ _ _ _ SC _ _ _ S)).
Qed.

Ltac lists := repeat (rewrite <- ?app_assoc, ?app_nil_r; cbn [app]); rewrite <- ?app_assoc; reflexivity.

(** The texts of the two instances *)
Inductive body (P : Z -> Prop) (l u : Z) : bool -> list Z -> Prop :=
| b_fraction t : fractional P t -> body P l u false t
| b_fraction_exp t e : fractional P t -> exponent l u e -> body P l u true (t ++ e)
| b_integer_exp i e : sequence P i -> exponent l u e -> body P l u true (i ++ e).

Lemma fractional_intro : forall (P : Z -> Prop) i f, Forall P i -> Forall P f -> none i && none f = false -> fractional P (i ++ dot :: f).
Proof.
  intros P i f I F N. destruct i as [|a i], f as [|b f]; try discriminate N.
  - apply f_fraction. split; [discriminate|auto].
  - apply f_integer. split; [discriminate|auto].
  - apply f_both; (split; [discriminate|auto]).
Qed.
Lemma fractional_elim : forall P t, fractional P t -> exists i f, t = i ++ dot :: f /\ Forall P i /\ Forall P f /\ none i && none f = false.
Proof.
  intros * F. destruct F as [i f (A & B) (C & G)|f (A & B)|i (A & B)].
  - exists i, f. repeat split; auto. destruct i; [easy|reflexivity].
  - exists [], f. repeat split; auto. destruct f; [easy|reflexivity].
  - exists i, []. repeat split; auto. destruct i; [easy|reflexivity].
Qed.

Lemma fractional_part_complete : forall D E P l u t r, scheme D E P l u -> fractional P t -> stops D r ->
  fractional_part D E (t ++ r) = (true, t, r).
Proof.
  intros * SC F S. apply fractional_elim in F as (i & f & -> & I & F & N).
  apply (forall_digits D P _ (sc_digit _ _ _ _ _ SC)) in I. apply (forall_digits D P _ (sc_digit _ _ _ _ _ SC)) in F.
  unfold fractional_part. rewrite <- app_assoc. cbn [app].
  rewrite (digits_complete D i (dot :: f ++ r) I); [|apply (sc_dot _ _ _ _ _ SC)].
  change (dot =? 46) with true. cbv iota. rewrite (digits_complete D f r F S), N. reflexivity.
Qed.
Lemma exponent_stops : forall D E P l u e v, scheme D E P l u -> exponent l u e -> stops D (e ++ v).
Proof.
  intros * SC X. destruct X as [c sg d C G Q]. cbn. apply (sc_disjoint _ _ _ _ _ SC). now apply (sc_exp _ _ _ _ _ SC).
Qed.

Lemma constant_complete : forall D E P l u b t v ty, scheme D E P l u -> body P l u b t -> suffix v ty ->
  (b = false -> stops D v) -> constant D E (t ++ v) = Match t ty [].
Proof.
  intros * SC B S ST. unfold constant. destruct B as [t F|t e F X|i e (N & F) X].
  - rewrite (fractional_part_complete D E P l u t v SC F (ST eq_refl)).
    rewrite (exponent_none D E P l u v ty SC S), (suffix_complete _ _ S), app_nil_r. reflexivity.
  - rewrite <- app_assoc, (fractional_part_complete D E P l u t (e ++ v) SC F (exponent_stops D E P l u e v SC X)).
    rewrite (exponent_complete D E P l u e v ty SC X S), (suffix_complete _ _ S). reflexivity.
  - unfold fractional_part. rewrite <- app_assoc.
    apply (forall_digits D P _ (sc_digit _ _ _ _ _ SC)) in F.
    rewrite (digits_complete D i (e ++ v) F (exponent_stops D E P l u e v SC X)).
    pose proof (exponent_complete D E P l u e v ty SC X S) as EX.
    destruct X as [c sg d C G Q]. cbn [app] in *.
    pose proof C as EC. apply (sc_exp _ _ _ _ _ SC) in EC.
    destruct (Z.eqb_spec c 46) as [->|_]; [pose proof (sc_expdot _ _ _ _ _ SC) as ED; unfold dot in ED; congruence|].
    rewrite EC. destruct i as [|i0 i]; [easy|]. cbn [none negb andb]. rewrite EX, (suffix_complete _ _ S). reflexivity.
Qed.

Lemma constant_sound : forall D E P l u s t ty r, scheme D E P l u -> constant D E s = Match t ty r ->
  exists b v, s = t ++ v ++ r /\ body P l u b t /\ suffix v ty /\ (b = false -> stops D (v ++ r)).
Proof.
  intros * SC H. unfold constant, fractional_part in H. destruct (digits D s) as [i r0] eqn:DI.
  destruct (digits_sound _ _ _ _ DI) as (-> & FI & SI). apply (forall_digits D P _ (sc_digit _ _ _ _ _ SC)) in FI.
  destruct r0 as [|c r1]; [discriminate H|]. destruct (Z.eqb_spec c 46) as [->|NC].
  - destruct (digits D r1) as [f r2] eqn:DF. destruct (digits_sound _ _ _ _ DF) as (-> & FF & SF).
    apply (forall_digits D P _ (sc_digit _ _ _ _ _ SC)) in FF.
    destruct (none i && none f) eqn:N; [discriminate H|]. cbn [negb] in H.
    pose proof (fractional_intro P i f FI FF N) as FR.
    destruct (exponent_part E r2) as [[e r3]|] eqn:EX; [|discriminate H].
    destruct (match_suffix r3) as [ty' r4] eqn:SX. injection H as <- <- <-.
    destruct (exponent_sound _ _ _ _ _ _ _ _ SC EX) as (-> & EC). destruct (suffix_sound _ _ _ SX) as (v & -> & SV).
    destruct EC as [(-> & SE)|EC].
    + exists false, v. split; [lists|]. rewrite app_nil_r. split; [now constructor|]. split; [auto|]. intros _. exact SF.
    + exists true, v. split; [lists|]. split; [now constructor|]. split; [auto|discriminate].
  - destruct i as [|i0 i]; [discriminate H|]. cbn [none negb andb] in H. destruct (E c) eqn:EC0; [|discriminate H].
    destruct (exponent_part E (c :: r1)) as [[e r3]|] eqn:EX; [|discriminate H].
    destruct (match_suffix r3) as [ty' r4] eqn:SX. injection H as <- <- <-.
    destruct (exponent_sound _ _ _ _ _ _ _ _ SC EX) as (Q & EC). destruct (suffix_sound _ _ _ SX) as (v & -> & SV).
    destruct EC as [(-> & SE)|EC]; [cbn in SE; congruence|].
    exists true, v. split; [rewrite Q; lists|]. split; [apply (b_integer_exp P l u (i0 :: i) e); [split; [discriminate|auto]|auto]|]. split; [auto|discriminate].
Qed.

(** Where a failed attempt leaves the cursor *)
Lemma constant_nomatch : forall D E P l u s r, scheme D E P l u -> constant D E s = NoMatch r ->
  r = [] \/ s = dot :: r \/ exists c r', r = c :: r' /\ D c = false /\ c <> dot.
Proof.
  intros * SC H. unfold constant, fractional_part in H. destruct (digits D s) as [i r0] eqn:DI.
  destruct (digits_sound _ _ _ _ DI) as (-> & FI & SI).
  destruct r0 as [|c r1]; [injection H as <-; auto|]. destruct (Z.eqb_spec c 46) as [->|NC].
  - destruct (digits D r1) as [f r2] eqn:DF. destruct (digits_sound _ _ _ _ DF) as (-> & FF & SF).
    destruct i as [|i0 i], f as [|f0 f]; cbn [none andb negb app] in H;
      try (destruct (exponent_part E r2) as [[e r3]|]; [destruct (match_suffix r3)|]; discriminate H).
    injection H as <-. right; left; reflexivity.
  - destruct (negb (none i) && E c).
    + destruct (exponent_part E (c :: r1)) as [[e r3]|]; [destruct (match_suffix r3)|]; discriminate H.
    + injection H as <-. right; right. exists c, r1. auto.
Qed.

Lemma body_decimal : forall b t, body digit 101 69 b t -> decimal t.
Proof. intros * B. destruct B; now constructor. Qed.
Lemma decimal_body : forall t, decimal t -> exists b, body digit 101 69 b t.
Proof. intros * B. destruct B; eexists; now constructor. Qed.

Lemma match_decimal_exact : forall s t ty,
  match_decimal s = Match t ty [] <-> exists v, s = t ++ v /\ decimal t /\ suffix v ty.
Proof.
  intros. split.
  - intros H. destruct (constant_sound _ _ _ _ _ _ _ _ _ dec_scheme H) as (b & v & -> & B & S & _).
    exists v. rewrite app_nil_r. split; [auto|]. split; [eapply body_decimal; eauto|auto].
  - intros (v & -> & Dt & S). apply decimal_body in Dt as (b & B).
    apply (constant_complete _ _ _ _ _ b t v ty dec_scheme B S). intros _.
    destruct v as [|c v]; [exact I|]. apply suffix_chars in S as (_ & S). cbn. destruct S as [->|[->|[->| ->]]]; reflexivity.
Qed.

(** Decimal constants begin with a digit or a dot, and no x is second *)
Lemma decimal_head : forall t, decimal t -> exists c r, t = c :: r /\ (digit c \/ c = dot) /\
  (exists d r', r = d :: r' /\ (digit d \/ d = dot \/ d = 101 \/ d = 69)).
Proof.
  intros t B. apply decimal_body in B as (b & B).
  assert (FH : forall t, fractional digit t -> exists c r, t = c :: r /\ (digit c \/ c = dot) /\ (exists d r', r = d :: r' /\ (digit d \/ d = dot \/ d = 101 \/ d = 69))).
  { intros u F. destruct F as [i f (A & FI) (C & FF)|f (A & FF)|i (A & FI)].
    - destruct i as [|a i]; [easy|]. inversion FI as [|? ? HA HI]; subst. exists a. eexists. split; [reflexivity|]. split; [auto|].
      destruct i as [|a' i]; cbn; [eauto 6|]. inversion HI; subst. eauto 6.
    - destruct f as [|a f]; [easy|]. inversion FF; subst. exists dot. eexists. split; [reflexivity|]. split; [auto|]. eauto 6.
    - destruct i as [|a i]; [easy|]. inversion FI as [|? ? HA HI]; subst. exists a. eexists. split; [reflexivity|]. split; [auto|].
      destruct i as [|a' i]; cbn; [eauto 6|]. inversion HI; subst. eauto 6. }
  destruct B as [t F|t e F X|i e (N & FI) X].
  - auto.
  - destruct (FH t F) as (c & r & -> & C & d & r' & -> & Q). cbn [app]. eauto 10.
  - destruct i as [|a i]; [easy|]. inversion FI as [|? ? HA HI]; subst. exists a. eexists. split; [reflexivity|]. split; [auto|].
    destruct i as [|a' i]; cbn [app].
    + destruct X as [c sg d C G Q]. exists c. eexists. split; [reflexivity|]. destruct C; auto.
    + inversion HI; subst. eauto 6.
Qed.

Lemma prefix_split : forall s, (exists x r, s = 48 :: x :: r /\ In x [120; 88]) \/ match_hexadecimal s = NoMatch s.
Proof.
  intros [|a [|b s]]; cbn [match_hexadecimal]; auto.
  destruct (Z.eqb_spec a 48) as [->|]; cbn [andb]; [|auto].
  destruct (one_of [120; 88] b) eqn:O; [|auto]. apply one_of_spec in O. eauto.
Qed.

Lemma hex_prefix : forall x r, In x [120; 88] -> match_hexadecimal (48 :: x :: r) =
  match constant is_hexdigit is_p r with Match t ty r => Match (48 :: x :: t) ty r | o => o end.
Proof. intros x r I. cbn [match_hexadecimal]. apply one_of_spec in I. now rewrite I. Qed.

Theorem scan_exact : forall s t ty,
  scan_floating s = Match t ty [] <-> floating_constant s t ty \/ no_exponent s t ty \/ behind_prefix s t ty.
Proof.
  intros s t ty. split.
  - intros H. unfold scan_floating in H. destruct (prefix_split s) as [(x & r & -> & X)|N].
    + rewrite (hex_prefix x r X) in H. destruct (constant is_hexdigit is_p r) as [t' ty' r'|r'|] eqn:C.
      * injection H as <- <- ->. destruct (constant_sound _ _ _ _ _ _ _ _ _ hex_scheme C) as (b & v & -> & B & S & ST).
        rewrite app_nil_r in *. destruct B as [t F|t e F Q|i e F Q].
        -- right; left. exists x, t, v. repeat split; auto. intros ->. specialize (ST eq_refl).
           inversion S as [|c I|]; subst. cbn [In] in I. destruct I as [<-|[<-|[]]]; discriminate ST.
        -- left. exists v. split; [reflexivity|]. split; [right; now constructor|auto].
        -- left. exists v. split; [reflexivity|]. split; [right; now constructor|auto].
      * apply match_decimal_exact in H as (v & E & Dt & S).
        destruct (decimal_head t Dt) as (c & w & -> & HC & _). cbn [app] in E. subst r'.
        destruct (constant_nomatch _ _ _ _ _ _ _ hex_scheme C) as [Q|[->|(c' & r'' & Q & HD & ND)]]; [discriminate Q| |].
        -- destruct HC as [HC| ->].
           ++ exfalso. unfold constant, fractional_part in C. cbn [digits] in C.
              change (is_hexdigit dot) with false in C. cbv iota in C. change (dot =? 46) with true in C. cbv iota in C.
              apply is_digit_spec in HC. cbn [digits] in C. unfold is_hexdigit at 1 in C. rewrite HC, orb_true_r in C.
              destruct (digits is_hexdigit (w ++ v)) as [d2 r2]. cbn [none andb negb] in C.
              destruct (exponent_part is_p r2) as [[e3 r3]|]; [destruct (match_suffix r3)|]; discriminate C.
           ++ right; right. exists x, (dot :: w ++ v), w. repeat split; auto. exists v. auto.
        -- injection Q as <- <-. destruct HC as [HC|HC]; [|congruence]. exfalso.
           apply is_digit_spec in HC. unfold is_hexdigit in HD. rewrite HC, orb_true_r in HD. discriminate HD.
      * discriminate H.
    + rewrite N in H. apply match_decimal_exact in H as (v & -> & Dt & S). left. exists v. auto.
  - unfold scan_floating. intros [(v & -> & [Dt|Hx] & S)|[(x & f & v & -> & -> & X & F & S & NF)|(x & s' & t' & -> & X & -> & v & -> & Dt & S)]].
    + destruct (prefix_split (t ++ v)) as [(x & r & E & X)|N].
      * exfalso. destruct (decimal_head t Dt) as (c & w & -> & _ & d & w' & -> & Q). cbn [app] in E. injection E as _ <- _.
        cbn [In] in X. unfold digit, dot in Q. lia.
      * rewrite N. apply match_decimal_exact. eauto.
    + destruct Hx as [x t e X F Q|x i e X F Q]; cbn [app]; rewrite (hex_prefix _ _ X).
      * rewrite (constant_complete _ _ _ _ _ true (t ++ e) v ty hex_scheme); auto; [now constructor|discriminate].
      * rewrite (constant_complete _ _ _ _ _ true (i ++ e) v ty hex_scheme); auto; [now constructor|discriminate].
    + cbn [app]. rewrite (hex_prefix _ _ X), (constant_complete _ _ _ _ _ false f v ty hex_scheme); auto; [now constructor|].
      intros _. inversion S as [|c I|c I]; subst; [exact Logic.I|congruence|]. cbn [In] in I. destruct I as [<-|[<-|[]]]; reflexivity.
    + cbn [app]. rewrite (hex_prefix _ _ X).
      replace (constant is_hexdigit is_p (dot :: dot :: t' ++ v)) with (NoMatch (dot :: t' ++ v)) by reflexivity.
      apply match_decimal_exact. exists v. auto.
Qed.
