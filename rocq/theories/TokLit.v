(** Character constants and string literals as preprocessing tokens. *)

From Coq Require Import ZArith Bool List String Lia.
From Verif Require Import CTypes LexModel StrModel PropPunct TokModel TokSpec TokProofs.
Import ListNotations.
Open Scope Z_scope.
Local Notation length := List.length.

(** ** Escape sequences *)

Lemma simple_iff : forall c, In c (text "'""?\abfnrtv") <-> exists v, zassoc c simple_escapes = Some v.
Proof.
  intro c. split.
  - cbn. intros H. repeat (destruct H as [<-|H]; [eexists; reflexivity|]). contradiction.
  - intros (v & H). unfold simple_escapes in H. cbn [zassoc] in H.
    repeat match type of H with
      | (if ?a =? c then _ else _) = _ =>
          let E := fresh in destruct (a =? c) eqn:E; [apply Z.eqb_eq in E; subst c; cbn; tauto|clear E]
      end. discriminate.
Qed.

Lemma hex_loop_sound : forall s v v' r, hex_loop v s = (v', r) -> exists d, Forall hexadecimal_digit d /\ s = d ++ r.
Proof.
  induction s as [|c s IH]; intros v v' r H; cbn [hex_loop] in H.
  - injection H as _ <-. exists []. auto.
  - destruct (is_hex c) eqn:E.
    + destruct (IH _ _ _ H) as (d & D & ->). exists (c :: d). split; [|reflexivity]. constructor; [now apply hex_iff|exact D].
    + injection H as _ <-. exists []. auto.
Qed.

Lemma escape_sound : forall s v r, next_escape s = Ok (v, r) -> exists e, escape_sequence e /\ s = e ++ r.
Proof.
  intros s v r H. unfold next_escape in H. destruct (char_at s 0 =? 92) eqn:E0; [|discriminate].
  destruct s as [|a s]; [discriminate|]. apply Z.eqb_eq in E0. cbn in E0. subst a.
  unfold or_else in H. destruct (next_simple (92 :: s)) as [[x y]| | |] eqn:E1; try discriminate.
  { injection H as -> ->. unfold next_simple in E1. destruct (zassoc _ _) as [z|] eqn:Z1; [|discriminate]. injection E1 as -> <-.
    destruct s as [|c s]; [discriminate|]. exists [92; c]. split; [|reflexivity]. apply es_simple. apply simple_iff. eauto. }
  destruct (next_octal_escape (92 :: s)) as [[x y]| | |] eqn:E2; try discriminate.
  { injection H as -> ->. clear E1. unfold next_octal_escape in E2.
    destruct s as [|a [|b [|c s]]]; cbn [char_at nth skipn] in E2; unfold char_at in E2; cbn in E2;
      rewrite ?andb_false_r in E2; try discriminate;
      repeat match type of E2 with context [is_octal ?x] => let F := fresh "F" in destruct (is_octal x) eqn:F end;
      cbn in E2; try discriminate; injection E2 as _ <-;
      repeat match goal with F : is_octal _ = true |- _ => apply octal_iff in F end.
    all: first
      [ eexists (92 :: [_; _; _]); split; [|reflexivity]; apply es_octal; [cbn; lia|repeat (apply Forall_cons; [assumption|]); apply Forall_nil]
      | eexists (92 :: [_; _]); split; [|reflexivity]; apply es_octal; [cbn; lia|repeat (apply Forall_cons; [assumption|]); apply Forall_nil]
      | eexists (92 :: [_]); split; [|reflexivity]; apply es_octal; [cbn; lia|repeat (apply Forall_cons; [assumption|]); apply Forall_nil] ]. }
  destruct (next_hex_escape (92 :: s)) as [[x y]| | |] eqn:E3; try discriminate.
  { injection H as -> ->. unfold next_hex_escape in E3. destruct (_ =? 120) eqn:X in E3; [|discriminate].
    destruct s as [|a s]; [discriminate|]. apply Z.eqb_eq in X. cbn in X. subst a. cbn [skipn] in E3.
    destruct (is_hex (char_at s 0)) eqn:F; [|discriminate]. injection E3 as E3.
    destruct (hex_loop_sound _ _ _ _ E3) as (d & D & ->). exists (92 :: 120 :: d). split; [|reflexivity].
    apply es_hexadecimal; [|exact D]. intros ->. cbn [app] in *. destruct r as [|c r]; [discriminate|].
    cbn in F. cbn [hex_loop] in E3. rewrite F in E3. destruct (hex_loop_sound _ _ _ _ E3) as (d' & _ & R).
    apply (f_equal (@length Z)) in R. rewrite app_length in R. cbn in R. lia. }
  destruct (universal_sound _ _ _ H) as (w & W & E). exists w. split; [now apply es_ucn|exact E].
Qed.

(** ** Where a literal ends *)

(** The text after the first quote that no backslash precedes. *)
Fixpoint close (esc : bool) (q : Z) (s : list Z) : option (list Z) :=
  match s with
  | [] => None
  | c :: r => if esc then close false q r else if c =? 92 then close true q r
              else if c =? q then Some r else close false q r
  end.

Definition quote (q : Z) : Prop := q = 34 \/ q = 39.

Lemma close_plain : forall q d, quote q -> Forall hexadecimal_digit d -> forall s, close false q (d ++ s) = close false q s.
Proof.
  intros q d Q D. induction D as [|c d C D IH]; intros s; [reflexivity|]. cbn [app close].
  replace (c =? 92) with false by blia. replace (c =? q) with false by (destruct Q as [->| ->]; blia). apply IH.
Qed.

Lemma octal_hex : forall c, octal_digit c -> hexadecimal_digit c.
Proof. intros c O. apply hex_iff. blia. Qed.

Lemma close_escape : forall q e, quote q -> escape_sequence e -> forall s, close false q (e ++ s) = close false q s.
Proof.
  intros q e Q [c C|d L D|d N D|w [d L D|d L D]] s.
  - reflexivity.
  - destruct D as [|c d C D]; [cbn in L; lia|]. cbn [app close]. apply close_plain; [exact Q|].
    eapply Forall_impl; [exact octal_hex|exact D].
  - cbn [app text]. apply (close_plain q d Q D).
  - apply (close_plain q d Q D).
  - apply (close_plain q d Q D).
Qed.

Lemma close_chars : forall q w, quote q -> char_sequence q w -> forall r, close false q (w ++ q :: r) = Some r.
Proof.
  intros q w Q S. induction S as [|c w C1 C2 C3 S IH|e w E S IH]; intros r.
  - cbn [app close]. replace (q =? 92) with false by (destruct Q; lia). rewrite Z.eqb_refl. reflexivity.
  - cbn [app close]. replace (c =? 92) with false by lia. replace (c =? q) with false by lia. apply IH.
  - rewrite <- app_assoc, close_escape by assumption. apply IH.
Qed.

(** ** Sequences of characters *)

Lemma escape_head : forall e, escape_sequence e -> exists t, e = 92 :: t.
Proof. intros e [c C|d L D|d N D|w U]; [eexists; reflexivity|eexists; reflexivity|eexists; reflexivity|now apply ucn_head]. Qed.

Lemma chars_tail : forall q c w, char_sequence q (c :: w) -> c <> 92 -> char_sequence q w.
Proof.
  intros q c w H N. inversion H as [|? ? A B C S E|e x E S Q]; subst; [exact S|].
  destruct (escape_head _ E) as (t & ->). cbn in Q. injection Q as <- _. congruence.
Qed.

(** An escape sequence at the start of a sequence of characters is read, and leaves a
    sequence of characters. *)
Lemma hex_loop_chars : forall q w, quote q -> char_sequence q w -> forall v r,
  exists v' w', hex_loop v (w ++ q :: r) = (v', w' ++ q :: r) /\ char_sequence q w'.
Proof.
  intros q w Q. induction w as [|c w IH]; intros S v r.
  - exists v, []. split; [|constructor]. cbn [app hex_loop]. replace (is_hex q) with false by (destruct Q as [->| ->]; reflexivity). reflexivity.
  - cbn [app hex_loop]. destruct (is_hex c) eqn:E.
    + apply IH. eapply chars_tail; [exact S|]. intros ->. discriminate.
    + exists v, (c :: w). auto.
Qed.
Lemma hex_loop_digits : forall d, Forall hexadecimal_digit d -> forall v s, exists v', hex_loop v (d ++ s) = hex_loop v' s.
Proof.
  intros d D. induction D as [|c d C D IH]; intros v s; [exists v; reflexivity|]. cbn [app hex_loop].
  apply hex_iff in C. rewrite C. apply IH.
Qed.

Definition reads_escape (q : Z) (s r : list Z) : Prop :=
  exists v w', next_escape s = Ok (v, w' ++ q :: r) /\ char_sequence q w'.

Lemma octal_chars : forall q w, char_sequence q w -> forall c t, w = c :: t -> octal_digit c -> char_sequence q t.
Proof. intros q w S c t -> O. eapply chars_tail; [exact S|]. intros ->. blia. Qed.

Lemma escape_complete : forall q e w r, quote q -> escape_sequence e -> char_sequence q w -> reads_escape q (e ++ w ++ q :: r) r.
Proof.
  intros q e w r Q E S. unfold reads_escape, next_escape.
  assert (NQ : is_octal q = false) by (destruct Q as [->| ->]; reflexivity).
  destruct E as [c C|d L D|d N D|x U].
  - apply simple_iff in C as (v & C). exists v, w. split; [|exact S]. cbn [app char_at nth]. change (92 =? 92) with true. cbn iota.
    unfold or_else, next_simple. cbn [char_at nth]. unfold char_at. cbn [nth]. rewrite C. reflexivity.
  - cbn [app char_at nth]. change (92 =? 92) with true. cbn iota.
    assert (H0 : forall c s, is_octal c = true -> next_simple (92 :: c :: s) = NoMatch).
    { intros c s O. unfold next_simple. cbn [char_at nth]. unfold char_at. cbn [nth].
      destruct (zassoc c simple_escapes) as [v|] eqn:Z1; [|reflexivity]. exfalso.
      assert (I : In c (text "'""?\abfnrtv")) by (apply simple_iff; eauto). cbn in I. blia. }
    assert (G : exists t, d ++ w ++ q :: r = t ++ q :: r /\ (forall c u, t = c :: u -> octal_digit c) /\ t <> [] /\
              (forall a u, t = a :: u -> char_sequence q u)).
    { exists (d ++ w). rewrite <- app_assoc. split; [reflexivity|].
      destruct D as [|a d A D]; [cbn in L; lia|]. split; [intros c u K; injection K as <- _; exact A|].
      split; [discriminate|]. intros c u K. injection K as <- <-.
      clear L. induction D as [|b d B D IH]; [exact S|]. cbn [app]. apply cs_char; [| | |exact IH].
      - intros ->. destruct Q as [->| ->]; blia.
      - intros ->. blia.
      - intros ->. blia. }
    destruct G as (t & -> & G1 & G2 & G3). clear d L D S. destruct t as [|a t]; [congruence|].
    pose proof (G1 _ _ eq_refl) as A. pose proof (G3 _ _ eq_refl) as S1. apply octal_iff in A.
    cbn [app]. unfold or_else. rewrite H0 by exact A. unfold next_octal_escape. unfold char_at. cbn [nth]. rewrite A.
    destruct t as [|b t].
    { cbn [app nth]. rewrite NQ. cbn. eexists _, []. split; [reflexivity|constructor]. }
    cbn [app nth]. destruct (is_octal b) eqn:B.
    2:{ cbn. eexists _, (b :: t). split; [reflexivity|exact S1]. }
    pose proof (chars_tail q b t S1 ltac:(intros ->; discriminate)) as S2.
    destruct t as [|c t].
    { cbn [app nth]. rewrite NQ. cbn. eexists _, []. split; [reflexivity|constructor]. }
    cbn [app nth]. destruct (is_octal c) eqn:C; cbn.
    + eexists _, t. split; [reflexivity|]. eapply chars_tail; [exact S2|]. intros ->. discriminate.
    + eexists _, (c :: t). split; [reflexivity|exact S2].
  - cbn [app char_at nth]. change (92 =? 92) with true. cbn iota. destruct d as [|a d]; [congruence|].
    inversion D as [|? ? A D']; subst. apply hex_iff in A.
    destruct (hex_loop_digits (a :: d) D 0 (w ++ q :: r)) as (v1 & H1).
    destruct (hex_loop_chars q w Q S v1 r) as (v2 & w' & H2 & S').
    exists v2, w'. split; [|exact S'].
    assert (K : forall s, next_escape (92 :: 120 :: s) =
      or_else (if is_hex (char_at s 0) then Ok (hex_loop 0 s) else Error) (next_universal (92 :: 120 :: s))) by reflexivity.
    etransitivity; [exact (K ((a :: d) ++ w ++ q :: r))|]. cbn [app char_at nth]. rewrite A. cbn [app] in H1. rewrite H1, H2. reflexivity.
  - destruct (universal_complete x (w ++ q :: r) U) as (c & H). exists c, w. split; [|exact S].
    assert (K : exists u t, x ++ w ++ q :: r = 92 :: u :: t /\ (u = 117 \/ u = 85)).
    { destruct U as [d L D|d L D]; cbn; eauto. }
    destruct K as (u & t & K & Ku). rewrite K in *.
    destruct Ku as [->| ->]; exact H.
Qed.

(** ** String literals *)

Lemma insert_buffer_total : forall b f, insert_buffer b f <> NoMatch.
Proof.
  intros b f. unfold insert_buffer, ensure_capacity, blit. destruct f as [|x f]; [discriminate|].
  repeat match goal with |- context [if ?c then _ else _] => destruct c; cbn [bind]; try discriminate end.
Qed.
Lemma bind_total : forall A B (x : res A) (f : A -> res B), x <> NoMatch -> (forall a, f a <> NoMatch) -> bind x f <> NoMatch.
Proof. intros A B [a| | |] f X F; cbn; [apply F|congruence|discriminate|discriminate]. Qed.
Lemma u16_total : forall fuel b st bytes, u16_loop fuel b st bytes <> NoMatch.
Proof.
  induction fuel as [|fuel IH]; intros b st [|x l]; cbn [u16_loop]; try discriminate.
  destruct (mbrtoc16 st (x :: l)) as [[|n] v st'|v|]; try discriminate;
    (apply bind_total; [apply insert_buffer_total|intro; apply IH]).
Qed.
Lemma wide_total : forall fuel b bytes, wide_loop fuel b bytes <> NoMatch.
Proof.
  induction fuel as [|fuel IH]; intros b [|x l]; cbn [wide_loop]; try discriminate.
  destruct (mbrtoc32 (x :: l)) as [[v [|n]]|]; try discriminate;
    (apply bind_total; [apply insert_buffer_total|intro; apply IH]).
Qed.
Lemma insert_total : forall b c, buf_insert b c <> NoMatch.
Proof.
  intros b c. unfold buf_insert. destruct (b_mode b); try apply insert_buffer_total; destruct (c32rtomb c) as [e|]; try discriminate;
    try apply insert_buffer_total; [apply u16_total|apply wide_total].
Qed.
Lemma insert_raw_total : forall b c, buf_insert_raw b c <> NoMatch.
Proof. intros b c. unfold buf_insert_raw. destruct (_ <=? _); [apply insert_buffer_total|discriminate]. Qed.

Lemma string_loop_sound : forall fuel b s b' r, string_loop fuel b s = Ok (b', r) ->
  exists w, char_sequence 34 w /\ s = w ++ 34 :: r.
Proof.
  induction fuel as [|fuel IH]; intros b s b' r H; [discriminate|]. cbn [string_loop] in H.
  destruct s as [|c s]; [discriminate|]. change (char_at (c :: s) 0) with c in H. cbn [skipn] in H.
  destruct (c =? 34) eqn:E; [injection H as _ <-; apply Z.eqb_eq in E; subst; exists []; split; [constructor|reflexivity]|].
  destruct (_ || _) eqn:E1 in H; [discriminate|]. destruct (c =? 92) eqn:E2.
  - destruct (next_escape (c :: s)) as [[v t]| | |] eqn:N; try discriminate. cbn [bind fst snd] in H.
    match type of H with bind ?x _ = _ => destruct x as [b1| | |]; try discriminate end. cbn [bind] in H.
    destruct (escape_sound _ _ _ N) as (e & Ee & ->). destruct (IH _ _ _ _ H) as (w & W & ->).
    exists (e ++ w). split; [now constructor|]. now rewrite app_assoc.
  - destruct (buf_insert b c) as [b1| | |]; try discriminate. cbn [bind] in H. destruct (IH _ _ _ _ H) as (w & W & ->).
    exists (c :: w). split; [|reflexivity]. apply cs_char; [lia|lia| |exact W]. lia.
Qed.

Lemma string_loop_total : forall fuel b w r, char_sequence 34 w -> string_loop fuel b (w ++ 34 :: r) <> NoMatch.
Proof.
  induction fuel as [|fuel IH]; intros b w r S; [discriminate|]. cbn [string_loop].
  destruct S as [|c w C1 C2 C3 S|e w E S].
  - discriminate.
  - cbn [app]. change (char_at (c :: w ++ 34 :: r) 0) with c. replace (c =? 34) with false by lia.
    destruct (_ || _); [discriminate|]. replace (c =? 92) with false by lia.
    apply bind_total; [apply insert_total|]. intro b'. cbn [skipn]. now apply IH.
  - destruct (escape_complete 34 e w r (or_introl eq_refl) E S) as (v & w' & N & S').
    destruct (escape_head _ E) as (t & ->). rewrite <- app_assoc. cbn [app] in *.
    change (char_at (92 :: t ++ w ++ 34 :: r) 0) with 92. change (92 =? 34) with false. change (92 =? 92) with true. cbn [orb].
    change ((92 =? 0) || (92 =? 10)) with false. cbn iota. rewrite N. cbn [bind fst snd].
    apply bind_total; [destruct (_ || _); [apply insert_raw_total|apply insert_total]|]. intro b'. now apply IH.
Qed.

(** ** Character constants *)

Lemma char_loop_nil : forall fuel v, char_loop fuel v [] = Error.
Proof. induction fuel as [|fuel IH]; intros v; [reflexivity|]. cbn. apply IH. Qed.
Lemma wide_char_loop_nil : forall fuel v, wide_char_loop fuel v [] = Error.
Proof. induction fuel as [|fuel IH]; intros v; [reflexivity|]. cbn. apply IH. Qed.

Definition char_text (w s r : list Z) : Prop := s = w ++ 39 :: r /\ (~ In 10 w -> char_sequence 39 w).
Lemma char_text_cons : forall c w s r, c <> 39 -> c <> 92 -> char_text w s r -> char_text (c :: w) (c :: s) r.
Proof.
  intros c w s r C1 C2 [-> S]. split; [reflexivity|]. intro N. cbn [In] in N. apply cs_char; [lia|lia| |apply S; tauto].
  intros ->. tauto.
Qed.
Lemma char_text_escape : forall e w s r, escape_sequence e -> char_text w s r -> char_text (e ++ w) (e ++ s) r.
Proof.
  intros e w s r E [-> S]. split; [now rewrite app_assoc|]. intro N. apply cs_escape; [exact E|]. apply S.
  intro I. apply N. apply in_app_iff. auto.
Qed.
Lemma char_text_nil : forall r, char_text [] (39 :: r) r.
Proof. intro r. split; [reflexivity|]. constructor. Qed.

Lemma char_loop_sound : forall fuel v s v' r, char_loop fuel v s = Ok (v', r) -> exists w, char_text w s r.
Proof.
  induction fuel as [|fuel IH]; intros v s v' r H; [discriminate|]. cbn [char_loop] in H.
  destruct s as [|c s]; [cbn in H; rewrite char_loop_nil in H; discriminate|].
  change (char_at (c :: s) 0) with c in H. cbn [skipn] in H. destruct (c =? 92) eqn:E2.
  - destruct (next_escape (c :: s)) as [[x t]| | |] eqn:N; try discriminate. cbn [bind fst snd] in H.
    destruct (escape_sound _ _ _ N) as (e & Ee & ->).
    assert (K : exists v1, char_loop fuel v1 t = Ok (v', r)).
    { destruct (_ || _) in H; [destruct (x <=? 255); [eauto|discriminate]|]. destruct (c32rtomb x); [eauto|discriminate]. }
    destruct K as (v1 & K). destruct (IH _ _ _ _ K) as (w & W). exists (e ++ w). now apply char_text_escape.
  - destruct (c =? 39) eqn:E; [injection H as _ <-; apply Z.eqb_eq in E; subst; exists []; apply char_text_nil|].
    destruct (c32rtomb c); [|discriminate]. destruct (IH _ _ _ _ H) as (w & W). exists (c :: w).
    apply char_text_cons; [lia|lia|exact W].
Qed.
Lemma wide_char_loop_sound : forall fuel v s v' r, wide_char_loop fuel v s = Ok (v', r) -> exists w, char_text w s r.
Proof.
  induction fuel as [|fuel IH]; intros v s v' r H; [discriminate|]. cbn [wide_char_loop] in H.
  destruct s as [|c s]; [cbn in H; rewrite wide_char_loop_nil in H; discriminate|].
  change (char_at (c :: s) 0) with c in H. cbn [skipn] in H. destruct (c =? 92) eqn:E2.
  - destruct (next_escape (c :: s)) as [[x t]| | |] eqn:N; try discriminate. cbn [bind fst snd] in H.
    destruct (escape_sound _ _ _ N) as (e & Ee & ->).
    destruct (IH _ _ _ _ H) as (w & W). exists (e ++ w). now apply char_text_escape.
  - destruct (c =? 39) eqn:E; [injection H as _ <-; apply Z.eqb_eq in E; subst; exists []; apply char_text_nil|].
    destruct (IH _ _ _ _ H) as (w & W). exists (c :: w). apply char_text_cons; [lia|lia|exact W].
Qed.

Lemma char_loop_total : forall fuel v w r, char_sequence 39 w -> char_loop fuel v (w ++ 39 :: r) <> NoMatch.
Proof.
  induction fuel as [|fuel IH]; intros v w r S; [discriminate|]. cbn [char_loop].
  destruct S as [|c w C1 C2 C3 S|e w E S].
  - discriminate.
  - cbn [app]. change (char_at (c :: w ++ 39 :: r) 0) with c. replace (c =? 39) with false by lia.
    replace (c =? 92) with false by lia. cbn [skipn]. destruct (c32rtomb c); [now apply IH|discriminate].
  - destruct (escape_complete 39 e w r (or_intror eq_refl) E S) as (x & w' & N & S').
    destruct (escape_head _ E) as (t & ->). rewrite <- app_assoc. cbn [app] in *.
    change (char_at (92 :: t ++ w ++ 39 :: r) 0) with 92. change (92 =? 92) with true. cbn iota. rewrite N. cbn [bind fst snd].
    destruct (_ || _); [destruct (x <=? 255); [now apply IH|discriminate]|]. destruct (c32rtomb x); [now apply IH|discriminate].
Qed.
Lemma wide_char_loop_total : forall fuel v w r, char_sequence 39 w -> wide_char_loop fuel v (w ++ 39 :: r) <> NoMatch.
Proof.
  induction fuel as [|fuel IH]; intros v w r S; [discriminate|]. cbn [wide_char_loop].
  destruct S as [|c w C1 C2 C3 S|e w E S].
  - discriminate.
  - cbn [app]. change (char_at (c :: w ++ 39 :: r) 0) with c. replace (c =? 39) with false by lia.
    replace (c =? 92) with false by lia. cbn [skipn]. now apply IH.
  - destruct (escape_complete 39 e w r (or_intror eq_refl) E S) as (x & w' & N & S').
    destruct (escape_head _ E) as (t & ->). rewrite <- app_assoc. cbn [app] in *.
    change (char_at (92 :: t ++ w ++ 39 :: r) 0) with 92. change (92 =? 92) with true. cbn iota. rewrite N. cbn [bind fst snd].
    now apply IH.
Qed.

(** ** The matchers *)

Lemma starts_with_prefix : forall p s, ~ In 0 p -> StrModel.starts_with p s = true <-> exists r, s = p ++ r.
Proof.
  induction p as [|c p IH]; intros s N; cbn [StrModel.starts_with].
  - split; [exists s; reflexivity|reflexivity].
  - cbn [In] in N. rewrite andb_true_iff, Z.eqb_eq, IH by tauto. split.
    + intros (E & r & R). destruct s as [|d s]; cbn in *; [lia|]. subst. exists r. reflexivity.
    + intros (r & ->). cbn. split; [reflexivity|]. exists r. reflexivity.
Qed.

(** The encoding prefix of a literal, without its quote. *)
Definition encoding_prefix (m : mode) : list Z :=
  match m with Multibyte => [] | Unicode8 => text "u8" | Unicode16 => text "u" | Unicode32 => text "U" | Wide => text "L" end.
Lemma prefix_split : forall m, prefix m = encoding_prefix m ++ [34].
Proof. destruct m; reflexivity. Qed.
Lemma prefix_nonzero : forall m, ~ In 0 (prefix m).
Proof. destruct m; cbn; lia. Qed.

Lemma next_literal_sound : forall m s l r, next_literal m s = Ok (l, r) ->
  exists w, char_sequence 34 w /\ s = encoding_prefix m ++ [34] ++ w ++ [34] ++ r.
Proof.
  intros m s l r H. unfold next_literal in H. destruct (StrModel.starts_with (prefix m) s) eqn:E; [|discriminate].
  apply starts_with_prefix in E as (t & ->); [|apply prefix_nonzero].
  rewrite skipn_app, skipn_all, Nat.sub_diag in H. cbn [skipn app] in H.
  destruct (string_loop _ _ t) as [[b u]| | |] eqn:L; try discriminate. cbn [bind fst snd] in H. injection H as _ ->.
  destruct (string_loop_sound _ _ _ _ _ L) as (w & W & ->). exists w. split; [exact W|]. rewrite prefix_split, <- app_assoc. reflexivity.
Qed.
Lemma next_literal_none : forall m s w r, next_literal m s = NoMatch -> char_sequence 34 w ->
  s <> encoding_prefix m ++ [34] ++ w ++ [34] ++ r.
Proof.
  intros m s w r H W E. unfold next_literal in H.
  assert (Q : s = prefix m ++ w ++ 34 :: r). { rewrite E, prefix_split, <- app_assoc. reflexivity. }
  rewrite (proj2 (starts_with_prefix (prefix m) s (prefix_nonzero m))) in H by (rewrite Q; eauto).
  rewrite Q, skipn_app, skipn_all, Nat.sub_diag in H. cbn [skipn app] in H.
  destruct (string_loop _ _ (w ++ 34 :: r)) as [[b u]| | |] eqn:L; try discriminate.
  exact (string_loop_total _ _ _ _ W L).
Qed.

Lemma encoding_in : forall m, In (encoding_prefix m) (map text [""; "u8"; "u"; "U"; "L"]%string).
Proof. destruct m; cbn; tauto. Qed.
Lemma encoding_onto : forall p, In p (map text [""; "u8"; "u"; "U"; "L"]%string) -> exists m, p = encoding_prefix m.
Proof.
  intros p H. cbn in H. destruct H as [<-|[<-|[<-|[<-|[<-|[]]]]]];
    [exists Multibyte|exists Unicode8|exists Unicode16|exists Unicode32|exists Wide]; reflexivity.
Qed.

(** The encoding prefix, with the quote after it, of a text is unique. *)
Lemma prefix_unique : forall q m m' a b, quote q -> encoding_prefix m ++ [q] ++ a = encoding_prefix m' ++ [q] ++ b -> m = m' /\ a = b.
Proof.
  intros q m m' a b Q E. destruct Q as [->| ->]; destruct m, m'; cbn in E; injection E; intros; subst; try discriminate; auto.
Qed.

Lemma literal_first : forall s x, match_literal s = x -> x <> NoMatch -> exists m, next_literal m s = x.
Proof.
  intros s x H N. unfold match_literal, or_else in H.
  destruct (next_literal Multibyte s) eqn:A1 in H; try (eexists; rewrite A1; exact H).
  destruct (next_literal Unicode8 s) eqn:A2 in H; try (eexists; rewrite A2; exact H).
  destruct (next_literal Unicode16 s) eqn:A3 in H; try (eexists; rewrite A3; exact H).
  destruct (next_literal Unicode32 s) eqn:A4 in H; try (eexists; rewrite A4; exact H).
  exists Wide. exact H.
Qed.
Lemma literal_all_none : forall s, match_literal s = NoMatch -> forall m, next_literal m s = NoMatch.
Proof.
  intros s H m. unfold match_literal, or_else in H.
  destruct (next_literal Multibyte s) eqn:A1 in H; try discriminate.
  destruct (next_literal Unicode8 s) eqn:A2 in H; try discriminate.
  destruct (next_literal Unicode16 s) eqn:A3 in H; try discriminate.
  destruct (next_literal Unicode32 s) eqn:A4 in H; try discriminate. destruct m; assumption.
Qed.

Lemma string_sound : forall s l r, match_literal s = Ok (l, r) ->
  exists w, string_literal w /\ s = w ++ r /\ longest_of KString s w.
Proof.
  intros s l r H. destruct (literal_first _ _ H ltac:(discriminate)) as (m & M).
  destruct (next_literal_sound _ _ _ _ M) as (w & W & ->).
  exists (encoding_prefix m ++ [34] ++ w ++ [34]). split; [apply sl; [apply encoding_in|exact W]|].
  split; [rewrite <- !app_assoc; reflexivity|]. intros w' W' (r' & E). inversion W' as [| | |? I|]; subst.
  destruct I as [p u P U]. destruct (encoding_onto _ P) as (m' & ->). rewrite <- !app_assoc in E.
  apply prefix_unique in E as [-> E]; [|now left].
  pose proof (close_chars 34 w (or_introl eq_refl) W r) as K. pose proof (close_chars 34 u (or_introl eq_refl) U r') as K'.
  cbn [app] in E. rewrite E in K. rewrite K in K'. injection K' as ->. apply app_inv_tail in E. subst. lia.
Qed.
Lemma string_none : forall s, match_literal s = NoMatch -> none_of KString s.
Proof.
  intros s H w W (r & E). inversion W as [| | |? I|]; subst. destruct I as [p u P U].
  destruct (encoding_onto _ P) as (m & ->). pose proof (literal_all_none _ H m) as N.
  apply (next_literal_none m _ u r N U). rewrite <- !app_assoc. reflexivity.
Qed.

Definition char_modes := [Multibyte; Wide; Unicode16; Unicode32].
Lemma char_modes_onto : forall p, In p (map text [""; "L"; "u"; "U"]%string) -> exists m, In m char_modes /\ p = encoding_prefix m.
Proof.
  intros p H. cbn in H. destruct H as [<-|[<-|[<-|[<-|[]]]]];
    [exists Multibyte|exists Wide|exists Unicode16|exists Unicode32]; (split; [cbn; tauto|reflexivity]).
Qed.
Lemma char_modes_in : forall m, In m char_modes -> In (encoding_prefix m) (map text [""; "L"; "u"; "U"]%string).
Proof. intros m H. cbn in H. destruct H as [<-|[<-|[<-|[<-|[]]]]]; cbn; tauto. Qed.

Definition char_read (s r : list Z) (m : mode) (w : list Z) : Prop :=
  s = encoding_prefix m ++ [39] ++ w ++ [39] ++ r /\ w <> [] /\ (~ In 10 w -> char_sequence 39 w).

Lemma char_text_read : forall m t r w s, char_text w t r -> char_at t 0 <> 39 -> s = encoding_prefix m ++ [39] ++ t -> char_read s r m w.
Proof.
  intros m t r w s [-> W] N ->. split; [reflexivity|]. split; [|exact W]. intros ->. cbn in N. lia.
Qed.

Lemma prefixed_sound : forall p m mk s c r, encoding_prefix m = [p] -> p <> 0 -> next_prefixed p mk s = Ok (c, r) -> exists w, char_read s r m w.
Proof.
  intros p m mk s c r P P0 H. unfold next_prefixed in H. destruct (_ && _) eqn:E in H; [|discriminate].
  apply andb_true_iff in E as [E1 E2]. destruct s as [|x [|y s]]; try (cbn in E2; discriminate).
  cbn in E1, E2. apply Z.eqb_eq in E1, E2. subst x y. cbn [skipn] in H.
  change (char_at (p :: 39 :: s) 2) with (char_at s 0) in H. destruct (char_at s 0 =? 39) eqn:E3; [discriminate|].
  destruct (wide_char_loop _ 0 s) as [[v u]| | |] eqn:L; try discriminate. cbn [bind fst snd] in H. injection H as _ ->.
  destruct (wide_char_loop_sound _ _ _ _ _ L) as (w & W). exists w. apply (char_text_read m s); [exact W|lia|]. now rewrite P.
Qed.
Lemma char_split : forall s c r, match_char_constant s = Ok (c, r) -> exists m w, In m char_modes /\ char_read s r m w.
Proof.
  intros s c r H. unfold match_char_constant, or_else in H.
  destruct (next_char_constant s) as [[v t]| | |] eqn:A1; try discriminate; cbn [bind fst snd] in H.
  - injection H as _ ->. unfold next_char_constant in A1. destruct (char_at s 0 =? 39) eqn:E1; [|discriminate].
    destruct s as [|x s]; [discriminate|]. cbn in E1. apply Z.eqb_eq in E1. subst x.
    change (char_at (39 :: s) 1) with (char_at s 0) in A1. destruct (char_at s 0 =? 39) eqn:E2; [discriminate|]. cbn [skipn] in A1.
    destruct (char_loop_sound _ _ _ _ _ A1) as (w & W). exists Multibyte, w. split; [cbn; tauto|].
    apply (char_text_read Multibyte s); [exact W|lia|reflexivity].
  - match type of H with match ?x with _ => _ end = _ => destruct x as [[v t]| | |] eqn:A2; try discriminate end.
    { injection H as -> ->. destruct (prefixed_sound 76 Wide _ _ _ _ eq_refl ltac:(lia) A2) as (w & W).
      exists Wide, w. split; [cbn; tauto|exact W]. }
    match type of H with match ?x with _ => _ end = _ => destruct x as [[v t]| | |] eqn:A3; try discriminate end.
    { injection H as -> ->. destruct (prefixed_sound 117 Unicode16 _ _ _ _ eq_refl ltac:(lia) A3) as (w & W).
      exists Unicode16, w. split; [cbn; tauto|exact W]. }
    destruct (prefixed_sound 85 Unicode32 _ _ _ _ eq_refl ltac:(lia) H) as (w & W).
    exists Unicode32, w. split; [cbn; tauto|exact W].
Qed.

Lemma prefixed_none : forall p mk w r, char_sequence 39 w -> next_prefixed p mk (p :: 39 :: w ++ 39 :: r) <> NoMatch.
Proof.
  intros p mk w r W. unfold next_prefixed. cbn [char_at nth skipn]. rewrite !Z.eqb_refl. cbn [andb].
  destruct (_ =? 39); [discriminate|]. apply bind_total; [now apply wide_char_loop_total|discriminate].
Qed.
Lemma char_none : forall s, match_char_constant s = NoMatch -> none_of KChar s.
Proof.
  intros s H w W (r & E). inversion W as [| |? I| |]; subst. destruct I as [p u P U0 U]. rewrite <- !app_assoc in H. cbn [app] in H.
  unfold match_char_constant, or_else in H.
  destruct (char_modes_onto _ P) as (m & M & ->). cbn in M. destruct M as [<-|[<-|[<-|[<-|[]]]]].
  - change (encoding_prefix Multibyte) with (@nil Z) in H. cbn [app] in H.
    assert (K : next_char_constant (39 :: u ++ 39 :: r) <> NoMatch).
    { unfold next_char_constant. change (char_at (39 :: u ++ 39 :: r) 0) with 39. cbn [Z.eqb skipn]. change (39 =? 39) with true. cbn iota.
      destruct (_ =? 39); [discriminate|]. now apply char_loop_total. }
    destruct (next_char_constant (39 :: u ++ 39 :: r)) as [[v t]| | |]; try discriminate; congruence.
  - change (encoding_prefix Wide) with [76] in H. cbn [app] in H. pose proof (prefixed_none 76 (fun v => CWide (if v <? 2 ^ 31 then v else v - 2 ^ 32)) u r U) as K.
    change (next_char_constant (76 :: 39 :: u ++ 39 :: r)) with (@NoMatch (option Z * list Z)) in H. cbn [bind] in H.
    destruct (next_prefixed 76 _ _); try discriminate. congruence.
  - change (encoding_prefix Unicode16) with [117] in H. cbn [app] in H. pose proof (prefixed_none 117 (fun v => CUnicode16 (v mod 2 ^ 16)) u r U) as K.
    change (next_char_constant (117 :: 39 :: u ++ 39 :: r)) with (@NoMatch (option Z * list Z)) in H. cbn [bind] in H.
    change (next_prefixed 76 _ _) with (@NoMatch (cconst * list Z)) in H. cbn iota in H.
    destruct (next_prefixed 117 _ _); try discriminate. congruence.
  - change (encoding_prefix Unicode32) with [85] in H. cbn [app] in H. pose proof (prefixed_none 85 CUnicode32 u r U) as K.
    change (next_char_constant (85 :: 39 :: u ++ 39 :: r)) with (@NoMatch (option Z * list Z)) in H. cbn [bind] in H.
    change (next_prefixed 76 _ _) with (@NoMatch (cconst * list Z)) in H. 
    change (next_prefixed 117 _ _) with (@NoMatch (cconst * list Z)) in H. cbn iota in H. congruence.
Qed.

(** What the constants of a text without new-lines inside are. *)
Lemma char_sound : forall s c r, match_char_constant s = Ok (c, r) ->
  exists m w, In m char_modes /\ s = (encoding_prefix m ++ [39] ++ w ++ [39]) ++ r /\
    (~ In 10 w -> character_constant (encoding_prefix m ++ [39] ++ w ++ [39]) /\
                  longest_of KChar s (encoding_prefix m ++ [39] ++ w ++ [39])).
Proof.
  intros s c r H. destruct (char_split _ _ _ H) as (m & w & M & -> & W0 & W). exists m, w. split; [exact M|].
  split; [rewrite <- !app_assoc; reflexivity|]. intro N. specialize (W N).
  split; [apply cc; [apply char_modes_in; exact M|exact W0|exact W]|].
  intros w' W' (r' & E). inversion W' as [| |? I| |]; subst.
  destruct I as [p u P U0 U]. destruct (char_modes_onto _ P) as (m' & M' & ->). rewrite <- !app_assoc in E.
  apply prefix_unique in E as [-> E]; [|now right].
  pose proof (close_chars 39 w (or_intror eq_refl) W r) as K. pose proof (close_chars 39 u (or_intror eq_refl) U r') as K'.
  cbn [app] in E. rewrite E in K. rewrite K in K'. injection K' as ->. apply app_inv_tail in E. subst. lia.
Qed.
