(** Proofs about the division into preprocessing tokens. *)

From Coq Require Import ZArith Bool List String Lia.
From Verif Require Import CTypes LexModel StrModel PropPunct TokModel TokSpec.
Import ListNotations.
Open Scope Z_scope.
Local Notation length := List.length.

(** ** Classes of characters *)

Definition zrun (a : Z) (n : nat) : list Z := map (fun i => a + Z.of_nat i) (seq 0 n).
Lemma in_zrun : forall a n c, In c (zrun a n) <-> a <= c < a + Z.of_nat n.
Proof.
  intros a n c. unfold zrun. rewrite in_map_iff. split.
  - intros (i & <- & I). apply in_seq in I. lia.
  - intro R. exists (Z.to_nat (c - a)). rewrite in_seq. lia.
Qed.

Lemma digit_iff : forall c, digit c <-> is_digit c = true.
Proof.
  intro c. unfold digit. change (text "0123456789") with (zrun 48 10). rewrite in_zrun. unfold is_digit.
  rewrite andb_true_iff, !Z.leb_le. lia.
Qed.
Lemma octal_iff : forall c, octal_digit c <-> is_octal c = true.
Proof.
  intro c. unfold octal_digit. change (text "01234567") with (zrun 48 8). rewrite in_zrun. unfold is_octal.
  rewrite andb_true_iff, !Z.leb_le. lia.
Qed.
Lemma hex_iff : forall c, hexadecimal_digit c <-> is_hex c = true.
Proof.
  intro c. unfold hexadecimal_digit.
  change (text "0123456789abcdefABCDEF") with (zrun 48 10 ++ zrun 97 6 ++ zrun 65 6).
  rewrite !in_app_iff, !in_zrun. unfold is_hex, is_digit. rewrite !orb_true_iff, !andb_true_iff, !Z.leb_le. lia.
Qed.
Lemma nondigit_iff : forall c, nondigit c <-> is_nondigit c = true.
Proof.
  intro c. unfold nondigit.
  change (text "_abcdefghijklmnopqrstuvwxyzABCDEFGHIJKLMNOPQRSTUVWXYZ") with (zrun 95 1 ++ zrun 97 26 ++ zrun 65 26).
  rewrite !in_app_iff, !in_zrun. unfold is_nondigit. rewrite !orb_true_iff, !andb_true_iff, !Z.leb_le, Z.eqb_eq. lia.
Qed.
Lemma white_iff : forall c, white_char c <-> is_space c = true.
Proof.
  intro c. unfold white_char, is_space. cbn [In]. rewrite !orb_true_iff, !Z.eqb_eq. lia.
Qed.
Lemma exponent_iff : forall c, In c (text "eEpP") <-> is_exponent c = true.
Proof. intro c. unfold is_exponent. cbn. rewrite !orb_true_iff, !Z.eqb_eq. lia. Qed.
Lemma sign_iff : forall c, In c (text "+-") <-> is_sign c = true.
Proof. intro c. unfold is_sign. cbn. rewrite !orb_true_iff, !Z.eqb_eq. lia. Qed.

Ltac chars := repeat match goal with
  | H : digit _ |- _ => apply digit_iff in H
  | H : nondigit _ |- _ => apply nondigit_iff in H
  | H : octal_digit _ |- _ => apply octal_iff in H
  | H : hexadecimal_digit _ |- _ => apply hex_iff in H
  | H : white_char _ |- _ => apply white_iff in H
  end;
  unfold is_space, is_digit, is_octal, is_hex, is_nondigit, is_exponent, is_sign in *; unfold is_digit in *.
Ltac blia := chars; lia.

Lemma forall_hex : forall d, Forall hexadecimal_digit d <-> forallb is_hex d = true.
Proof.
  intro d. rewrite forallb_forall, Forall_forall. split; intros H x I; apply hex_iff; auto.
Qed.

(** ** Universal character names *)

Lemma universal_sound : forall s c r, next_universal s = Ok (c, r) -> exists w, ucn w /\ s = w ++ r.
Proof.
  intros s c r H. unfold next_universal in H.
  destruct (_ && _) eqn:E in H.
  - destruct s as [|a0 [|a1 [|a2 [|a3 [|a4 [|a5 s]]]]]]; cbn in E, H; rewrite ?andb_false_r in H; try discriminate;
      try (apply andb_true_iff in E as [E1 E2]; apply Z.eqb_eq in E1, E2; subst; discriminate).
    destruct (_ && _) eqn:F in H; [|discriminate]. injection H as <- <-.
    apply andb_true_iff in E as [E1 E2]. apply Z.eqb_eq in E1, E2. subst.
    exists (92 :: 117 :: [a2; a3; a4; a5]). split; [|reflexivity].
    apply (ucn_4 [a2; a3; a4; a5]); [reflexivity|]. apply forall_hex. cbn. exact F.
  - destruct (_ && _) eqn:E' in H; [|discriminate]. clear E. rename E' into E.
    destruct s as [|a0 [|a1 [|a2 [|a3 [|a4 [|a5 [|a6 [|a7 [|a8 [|a9 s]]]]]]]]]]; cbn in E, H; rewrite ?andb_false_r in H; try discriminate.
    destruct (_ && _) eqn:F in H; [|discriminate]. injection H as <- <-.
    apply andb_true_iff in E as [E1 E2]. apply Z.eqb_eq in E1, E2. subst.
    exists (92 :: 85 :: [a2; a3; a4; a5; a6; a7; a8; a9]). split; [|reflexivity].
    apply (ucn_8 [a2; a3; a4; a5; a6; a7; a8; a9]); [reflexivity|]. apply forall_hex. cbn. exact F.
Qed.

Lemma universal_complete : forall w r, ucn w -> exists c, next_universal (w ++ r) = Ok (c, r).
Proof.
  intros w r [d L F|d L F]; apply forall_hex in F.
  - destruct d as [|a [|b [|c [|e [|]]]]]; try discriminate. unfold next_universal. cbn in F |- *. rewrite F. eexists. reflexivity.
  - destruct d as [|a [|b [|c [|e [|f [|g [|h [|i [|]]]]]]]]]; try discriminate. unfold next_universal. cbn in F |- *. rewrite F. eexists. reflexivity.
Qed.

Lemma ucn_head : forall w, ucn w -> exists t, w = 92 :: t.
Proof. intros w [d L F|d L F]; cbn; eauto. Qed.

Lemma universal_not_ucn : forall s, next_universal s = NoMatch -> forall w, ucn w -> ~ starts_with s w.
Proof. intros s H w U (r & ->). destruct (universal_complete w r U) as (c & E). congruence. Qed.

Lemma ucn_unique : forall w w' r r', ucn w -> ucn w' -> w ++ r = w' ++ r' -> r = r'.
Proof.
  intros w w' r r' U U' E. destruct (universal_complete w r U) as (c & H).
  destruct (universal_complete w' r' U') as (c' & H'). rewrite E in H. congruence.
Qed.

(** ** Sequences *)

Inductive seqs (P : list Z -> Prop) : list Z -> Prop :=
  | sq_nil : seqs P []
  | sq_cons : forall a x, P a -> seqs P x -> seqs P (a ++ x).
Arguments sq_nil {P}. Arguments sq_cons {P}.

Inductive idchar : list Z -> Prop :=
  | ic_digit : forall c, digit c -> idchar [c]
  | ic_nondigit : forall n, identifier_nondigit n -> idchar n.

Lemma identifier_app : forall x, seqs idchar x -> forall i, identifier i -> identifier (i ++ x).
Proof.
  intros x S. induction S as [|a x A S IH]; intros i I; [rewrite app_nil_r; exact I|].
  rewrite app_assoc. apply IH. destruct A; constructor; assumption.
Qed.
Lemma seqs_snoc : forall P x a, seqs P x -> P a -> seqs P (x ++ a).
Proof.
  intros P x a S A. induction S as [|b x B S IH].
  - cbn [app]. rewrite <- (app_nil_r a). apply sq_cons; [exact A|constructor].
  - rewrite <- app_assoc. apply sq_cons; assumption.
Qed.
Lemma identifier_split : forall w, identifier w -> exists a x, w = a ++ x /\ identifier_nondigit a /\ seqs idchar x.
Proof.
  intros w I. induction I as [n N|i n I (a & x & -> & A & X) N|i c I (a & x & -> & A & X) D].
  - exists n, []. rewrite app_nil_r. repeat split; [assumption|constructor].
  - exists a, (x ++ n). rewrite app_assoc. repeat split; [assumption|]. apply seqs_snoc; [assumption|]. now constructor.
  - exists a, (x ++ [c]). rewrite app_assoc. repeat split; [assumption|]. apply seqs_snoc; [assumption|]. now constructor.
Qed.

Lemma scan_nondigit_sound : forall s c r, scan_nondigit s = Ok (c, r) ->
  exists a, identifier_nondigit a /\ s = a ++ r /\ (~ In 92 a -> a = [c]).
Proof.
  intros s c r H. unfold scan_nondigit in H. destruct (is_nondigit (char_at s 0)) eqn:E.
  - destruct s as [|d s]; [discriminate|]. injection H as <- <-. exists [d]. split; [|split; reflexivity].
    constructor. apply nondigit_iff. exact E.
  - destruct (universal_sound _ _ _ H) as (w & U & ->). exists w. split; [now constructor|]. split; [reflexivity|].
    intro N. destruct (ucn_head _ U) as (t & ->). exfalso. apply N. left. reflexivity.
Qed.
Lemma scan_digit_sound : forall s c r, scan_digit s = Ok (c, r) ->
  exists a, idchar a /\ s = a ++ r /\ (~ In 92 a -> a = [c]).
Proof.
  intros s c r H. unfold scan_digit in H. destruct (is_digit (char_at s 0)) eqn:E.
  - destruct s as [|d s]; [discriminate|]. injection H as <- <-. exists [d]. split; [|split; reflexivity].
    constructor. apply digit_iff. exact E.
  - destruct (scan_nondigit_sound _ _ _ H) as (a & A & R). exists a. split; [now constructor|exact R].
Qed.
Lemma scan_nondigit_complete : forall a r, identifier_nondigit a -> exists c, scan_nondigit (a ++ r) = Ok (c, r).
Proof.
  intros a r [c N|w U]; unfold scan_nondigit.
  - cbn. apply nondigit_iff in N. rewrite N. eauto.
  - destruct (ucn_head _ U) as (t & ->). cbn [app char_at nth]. apply (universal_complete _ _ U).
Qed.
Lemma scan_digit_complete : forall a r, idchar a -> exists c, scan_digit (a ++ r) = Ok (c, r).
Proof.
  intros a r [c N|w U]; unfold scan_digit.
  - cbn. apply digit_iff in N. rewrite N. eauto.
  - destruct (is_digit (char_at (w ++ r) 0)) eqn:E; [|apply scan_nondigit_complete; exact U].
    exfalso. destruct U as [c N|w U]; [cbn in E; blia|]. destruct (ucn_head _ U) as (t & ->). cbn in E. discriminate.
Qed.
Lemma idchar_unique : forall a b r r', idchar a -> idchar b -> a ++ r = b ++ r' -> r = r'.
Proof.
  intros a b r r' A B E. destruct (scan_digit_complete a r A) as (c & H). destruct (scan_digit_complete b r' B) as (c' & H').
  rewrite E in H. congruence.
Qed.
Lemma idchar_nonempty : forall a, idchar a -> a <> [].
Proof. intros a [c D|n [c N|w U]]; try discriminate. destruct (ucn_head _ U) as (t & ->). discriminate. Qed.

(** No identifier character is longer than what a scan takes. *)
Lemma idchars_longest : forall x, seqs idchar x -> forall y r r', seqs idchar y -> scan_digit r = NoMatch ->
  x ++ r = y ++ r' -> (length y <= length x)%nat.
Proof.
  intros x X. induction X as [|a x A X IH]; intros y r r' Y N E.
  - destruct Y as [|b y B Y]; [cbn; lia|]. cbn in E. subst r. rewrite <- app_assoc in N.
    destruct (scan_digit_complete b (y ++ r') B) as (c & H). congruence.
  - destruct Y as [|b y B Y]; [cbn; lia|]. rewrite <- !app_assoc in E.
    pose proof (idchar_unique _ _ _ _ A B E) as R. pose proof (IH y r r' Y N R) as L.
    assert (La : length a = length b). { apply (f_equal (@length Z)) in E. rewrite R in E. rewrite !app_length in *. lia. }
    rewrite !app_length. lia.
Qed.

Lemma name_loop_sound : forall fuel acc s cs r, name_loop fuel acc s = Ok (cs, r) ->
  exists x, seqs idchar x /\ s = x ++ r /\ scan_digit r = NoMatch /\ (~ In 92 x -> cs = acc ++ x).
Proof.
  induction fuel as [|fuel IH]; intros acc s cs r H; [discriminate|]. cbn [name_loop] in H.
  destruct (scan_digit s) as [[c t]| | |] eqn:E; try discriminate.
  - destruct (_ <? _)%nat; [|discriminate]. destruct (scan_digit_sound _ _ _ E) as (a & A & -> & Va).
    destruct (IH _ _ _ _ H) as (x & X & -> & N & Vx). exists (a ++ x). split; [now constructor|].
    rewrite app_assoc. split; [reflexivity|]. split; [exact N|]. intro NI. rewrite in_app_iff in NI.
    rewrite Vx by tauto. rewrite <- app_assoc. f_equal. rewrite Va by tauto. rewrite <- Va; tauto.
  - injection H as <- <-. exists []. rewrite app_nil_r. repeat split; [constructor|exact E].
Qed.

Lemma name_loop_total : forall fuel acc s, name_loop fuel acc s <> NoMatch.
Proof.
  induction fuel as [|fuel IH]; intros acc s; cbn [name_loop]; [discriminate|].
  destruct (scan_digit s) as [[c t]| | |]; try discriminate. destruct (_ <? _)%nat; [apply IH|discriminate].
Qed.

Definition longest_of (k : kind) (s w : list Z) : Prop :=
  forall w', standard k w' -> starts_with s w' -> (length w' <= length w)%nat.
Definition none_of (k : kind) (s : list Z) : Prop := forall w, standard k w -> ~ starts_with s w.

Lemma ascii_bytes : forall c, 0 <= c < 128 -> c32rtomb c = Some [c].
Proof.
  intros c R. unfold c32rtomb, utf8_encode. destruct (c <? 128) eqn:E; [|lia].
  destruct (c <? 0) eqn:F; [lia|]. reflexivity.
Qed.

Definition ascii (w : list Z) : Prop := Forall (fun c => 0 < c < 128) w.
Lemma encode_ascii : forall w, ascii w -> encode w = Some w.
Proof.
  intros w A. induction A as [|c w C A IH]; [reflexivity|]. cbn [encode]. rewrite IH, ascii_bytes by lia. reflexivity.
Qed.
Lemma until_nul_ascii : forall w, ascii w -> until_nul w = w.
Proof.
  intros w A. induction A as [|c w C A IH]; [reflexivity|]. cbn [until_nul]. destruct (c =? 0) eqn:E; [lia|].
  rewrite IH. reflexivity.
Qed.
Lemma name_bytes_ascii : forall w, ascii w -> name_bytes w = Some w.
Proof. intros w A. unfold name_bytes. rewrite encode_ascii by assumption. cbn. rewrite until_nul_ascii by assumption. reflexivity. Qed.

Lemma idchar_ascii : forall a, idchar a -> ascii a.
Proof.
  assert (U : forall w, ucn w -> ascii w).
  { intros w [d L F|d L F]; (apply Forall_app; split; [repeat constructor; lia|]);
      (eapply Forall_impl; [|exact F]); cbn beta; intros c H; blia. }
  intros a [c D|n [c N|w W]]; [constructor; [blia|constructor]|constructor; [blia|constructor]|apply U; exact W].
Qed.
Lemma seqs_ascii : forall (P : list Z -> Prop) x, (forall a, P a -> ascii a) -> seqs P x -> ascii x.
Proof. intros P x H S. induction S as [|a x A S IH]; [constructor|]. apply Forall_app. split; [apply H; exact A|exact IH]. Qed.

(** ** Identifiers *)

Lemma name_sound : forall s e r, match_name s = Ok (e, r) ->
  exists w, identifier w /\ s = w ++ r /\ longest_of KName s w /\ (~ In 92 w -> e = w).
Proof.
  intros s e r H. unfold match_name, scan_name in H.
  destruct (scan_nondigit s) as [[c t]| | |] eqn:E; try discriminate. cbn [bind fst snd] in H.
  destruct (name_loop _ [c] t) as [[cs r']| | |] eqn:L; try discriminate. cbn [bind fst snd] in H.
  destruct (name_bytes cs) as [e'|] eqn:B; [|discriminate]. injection H as -> ->.
  destruct (scan_nondigit_sound _ _ _ E) as (a & A & -> & Va).
  destruct (name_loop_sound _ _ _ _ _ L) as (x & X & -> & N & Vx).
  exists (a ++ x). split; [apply identifier_app; [exact X|now constructor]|]. rewrite app_assoc. split; [reflexivity|].
  split.
  - intros w' W (r' & E'). inversion W as [? I| | | |]; subst. destruct (identifier_split _ I) as (a' & x' & -> & A' & X').
    apply (idchars_longest (a ++ x)) with (r := r) (r' := r'); try assumption.
    + apply sq_cons; [now constructor|exact X].
    + apply sq_cons; [now constructor|exact X'].
  - intro NI. rewrite in_app_iff in NI. rewrite (Vx ltac:(tauto)) in B. rewrite (Va ltac:(tauto)) in *.
    rewrite name_bytes_ascii in B; [injection B as <-; reflexivity|].
    apply Forall_app. split; [apply idchar_ascii; now constructor|]. apply (seqs_ascii idchar); [apply idchar_ascii|exact X].
Qed.

Lemma name_none : forall s, match_name s = NoMatch -> none_of KName s.
Proof.
  intros s H w W (r & ->). inversion W as [? I| | | |]; subst. destruct (identifier_split _ I) as (a & x & -> & A & X).
  rewrite <- app_assoc in H. unfold match_name, scan_name in H.
  destruct (scan_nondigit_complete a (x ++ r) A) as (c & E). rewrite E in H. cbn [bind fst snd] in H.
  destruct (name_loop _ [c] (x ++ r)) as [[cs r']| | |] eqn:L; try discriminate; cbn [bind fst snd] in H.
  - destruct (name_bytes cs); discriminate.
  - exact (name_loop_total _ _ _ L).
Qed.

(** ** Numbers *)

Inductive numchar : list Z -> Prop :=
  | nc_id : forall a, idchar a -> numchar a
  | nc_dot : numchar [46]
  | nc_exp : forall e g, is_exponent e = true -> is_sign g = true -> numchar [e; g].

Lemma number_app : forall x, seqs numchar x -> forall p, pp_number p -> pp_number (p ++ x).
Proof.
  intros x S. induction S as [|a x A S IH]; intros p P; [rewrite app_nil_r; exact P|].
  rewrite app_assoc. apply IH. destruct A as [a [c D|n N]| |e g E G].
  - now apply pn_more_digit.
  - now apply pn_more_nondigit.
  - now apply pn_dot.
  - apply pn_exponent; [exact P|now apply exponent_iff|now apply sign_iff].
Qed.
Definition num_start (a : list Z) : Prop := exists c, digit c /\ (a = [c] \/ a = [46; c]).
Lemma number_split : forall w, pp_number w -> exists a x, w = a ++ x /\ num_start a /\ seqs numchar x.
Proof.
  intros w P.
  assert (more : forall p b, (exists a x, p = a ++ x /\ num_start a /\ seqs numchar x) -> numchar b ->
                 exists a x, p ++ b = a ++ x /\ num_start a /\ seqs numchar x).
  { intros p b (a & x & -> & A & X) B. exists a, (x ++ b). rewrite app_assoc. split; [reflexivity|].
    split; [exact A|]. now apply seqs_snoc. }
  induction P as [c D|c D|p c P IH D|p n P IH N|p e g P IH E G|p P IH]; try (apply more; [exact IH|]).
  - exists [c], []. split; [reflexivity|]. split; [exists c; auto|constructor].
  - exists [46; c], []. split; [reflexivity|]. split; [exists c; auto|constructor].
  - constructor. now constructor.
  - constructor. now constructor.
  - apply nc_exp; [now apply exponent_iff|now apply sign_iff].
  - exact nc_dot.
Qed.

Lemma numchar_first : forall a, numchar a -> exists c t, a = c :: t /\
  (c = 92 \/ is_digit c || is_nondigit c || (c =? 46) = true).
Proof.
  intros a [a' [c D|n [c N|w U]]| |e g E G].
  - exists c, []. apply digit_iff in D. rewrite D. auto.
  - exists c, []. apply nondigit_iff in N. rewrite N, orb_true_r. auto.
  - destruct (ucn_head _ U) as (t & ->). eauto.
  - exists 46, []. auto.
  - exists e, [g]. split; [reflexivity|]. right. blia.
Qed.

Lemma number_loop_sound : forall fuel acc s cs r, number_loop fuel acc s = Ok (cs, r) ->
  exists x, seqs numchar x /\ s = x ++ r /\ (~ In 92 x -> cs = acc ++ x).
Proof.
  induction fuel as [|fuel IH]; intros acc s cs r H; [discriminate|]. cbn [number_loop] in H.
  destruct (is_exponent _ && _) eqn:E.
  - destruct s as [|a [|b s]]; [discriminate|cbn in E; rewrite andb_false_r in E; discriminate|].
    apply andb_true_iff in E as [E G]. destruct (IH _ _ _ _ H) as (x & X & Q & V). cbn in Q. subst s.
    exists ([a; b] ++ x). split; [apply sq_cons; [now apply nc_exp|exact X]|]. split; [reflexivity|].
    intro N. rewrite V by (intro I; apply N; apply in_app_iff; auto). rewrite <- app_assoc. reflexivity.
  - destruct (is_digit _ || _ || _) eqn:D.
    + destruct s as [|a s]; [discriminate|]. destruct (IH _ _ _ _ H) as (x & X & Q & V). cbn in Q. subst s.
      exists ([a] ++ x). split.
      * apply sq_cons; [|exact X]. cbn in D. apply orb_true_iff in D as [D|D].
        -- apply orb_true_iff in D as [D|D].
           ++ apply nc_id, ic_digit. now apply digit_iff.
           ++ apply nc_id, ic_nondigit, in_nondigit. now apply nondigit_iff.
        -- apply Z.eqb_eq in D. subst. exact nc_dot.
      * split; [reflexivity|]. intro N. rewrite V by (intro I; apply N; apply in_app_iff; auto).
        rewrite <- app_assoc. reflexivity.
    + destruct (next_universal s) as [[c t]| | |] eqn:U; try discriminate.
      * destruct (universal_sound _ _ _ U) as (w & W & ->). destruct (IH _ _ _ _ H) as (x & X & -> & V).
        exists (w ++ x). split; [apply sq_cons; [|exact X]; apply nc_id, ic_nondigit, in_ucn; exact W|].
        rewrite app_assoc. split; [reflexivity|]. intro N. exfalso. destruct (ucn_head _ W) as (t & ->). apply N. left. reflexivity.
      * injection H as <- <-. exists []. rewrite app_nil_r. repeat split. constructor.
Qed.

Lemma number_loop_longest : forall fuel acc s cs r, number_loop fuel acc s = Ok (cs, r) ->
  forall y r', seqs numchar y -> s = y ++ r' -> (length r <= length r')%nat.
Proof.
  induction fuel as [|fuel IH]; intros acc s cs r H y r' Y Q; [discriminate|].
  destruct (number_loop_sound _ _ _ _ _ H) as (x0 & _ & Q0 & _).
  destruct Y as [|a y A Y]. { cbn in Q. subst r'. rewrite Q0, app_length. lia. }
  rewrite <- app_assoc in Q. cbn [number_loop] in H.
  destruct (is_exponent _ && _) eqn:E.
  - destruct s as [|c [|d s]]; [discriminate|cbn in E; rewrite andb_false_r in E; discriminate|].
    cbn [char_at nth] in E. cbn [skipn] in H. apply andb_true_iff in E as [E G].
    destruct (number_loop_sound _ _ _ _ _ H) as (x1 & _ & Q1 & _).
    assert (one : a = [c] -> (length r <= length r')%nat).
    { intros ->. injection Q as Q. destruct Y as [|b y B Y].
      - cbn in Q. subst r'. rewrite Q1. cbn [length]. rewrite app_length. lia.
      - exfalso. destruct (numchar_first _ B) as (f & t & -> & F). injection Q as <- _. destruct F as [->|F]; blia. }
    destruct A as [a [f D|n [f N|w U]]| |e g Ee Eg].
    + injection Q as <- _. auto.
    + injection Q as <- _. auto.
    + exfalso. destruct (ucn_head _ U) as (t & ->). injection Q as -> _. discriminate.
    + injection Q as -> _. auto.
    + injection Q as <- <- Q. eapply IH; eauto.
  - destruct (is_digit _ || _ || _) eqn:D.
    + destruct s as [|c s]; [discriminate|]. cbn [char_at nth] in D, E. cbn [skipn] in H.
      destruct A as [a [f F|n [f F|w U]]| |e g Ee Eg].
      * injection Q as <- Q. eapply IH; eauto.
      * injection Q as <- Q. eapply IH; eauto.
      * exfalso. destruct (ucn_head _ U) as (t & ->). injection Q as -> _. discriminate.
      * injection Q as -> Q. eapply IH; eauto.
      * exfalso. injection Q as <- Q. subst s. cbn in E. rewrite Ee, Eg in E. discriminate.
    + assert (U : ucn a).
      { destruct A as [a [f F|n [f F|w U]]| |e g Ee Eg]; [| |exact U| |]; exfalso; subst s; cbn [app char_at nth] in D, E;
          [blia|blia|discriminate|rewrite Ee, Eg in E; discriminate]. }
      destruct (universal_complete a (y ++ r') U) as (c & N). rewrite Q, N in H. eapply IH; eauto.
Qed.

Lemma number_loop_total : forall fuel acc s, number_loop fuel acc s <> NoMatch.
Proof.
  induction fuel as [|fuel IH]; intros acc s; cbn [number_loop]; [discriminate|].
  destruct (_ && _); [apply IH|]. destruct (_ || _); [apply IH|].
  destruct (next_universal s) as [[c t]| | |]; try discriminate. apply IH.
Qed.

Lemma numchar_ascii : forall a, numchar a -> ascii a.
Proof.
  intros a [a' I| |e g E G]; [now apply idchar_ascii|repeat constructor; lia|].
  constructor; [blia|]. constructor; [blia|constructor].
Qed.

Lemma number_start : forall s, match_number s <> NoMatch -> exists a t, num_start a /\ s = a ++ t /\
  match_number s = bind (number_loop (S (length s)) a t) (fun p => match encode (fst p) with Some e => Ok (e, snd p) | None => Error end).
Proof.
  intros s H. unfold match_number in *. destruct (is_digit (char_at s 0)) eqn:D.
  - destruct s as [|c s]; [discriminate|]. exists [c], s. split; [exists c; split; [now apply digit_iff|auto]|]. auto.
  - destruct (_ && _) eqn:E in *; [|congruence]. apply andb_true_iff in E as [E F].
    destruct s as [|c [|d s]]; try discriminate. apply Z.eqb_eq in E. cbn in E. subst c.
    exists [46; d], s. split; [exists d; split; [now apply digit_iff|auto]|]. auto.
Qed.

Lemma num_start_unique : forall a b r r', num_start a -> num_start b -> a ++ r = b ++ r' -> r = r' /\ length a = length b.
Proof.
  intros a b r r' (c & C & [->| ->]) (d & D & [->| ->]) E; injection E; intros; subst; auto; exfalso; blia.
Qed.

Lemma number_sound : forall s e r, match_number s = Ok (e, r) ->
  exists w, pp_number w /\ s = w ++ r /\ longest_of KNumber s w /\ (~ In 92 w -> e = w).
Proof.
  intros s e r H. destruct (number_start s) as (a & t & A & Q & M); [congruence|]. rewrite H in M. symmetry in M.
  destruct (number_loop _ a t) as [[cs r']| | |] eqn:L; try discriminate. cbn [bind fst snd] in M.
  destruct (encode cs) as [e'|] eqn:B; [|discriminate]. injection M as -> ->.
  destruct (number_loop_sound _ _ _ _ _ L) as (x & X & -> & V). exists (a ++ x). split.
  { apply number_app; [exact X|]. destruct A as (c & C & [->| ->]); [now apply pn_digit|now apply pn_dot_digit]. }
  split; [rewrite <- app_assoc; exact Q|]. subst s. split.
  - intros w' W (r' & E'). inversion W as [|? I| | |]; subst. destruct (number_split _ I) as (a' & x' & -> & A' & X').
    rewrite <- !app_assoc in E'. destruct (num_start_unique _ _ _ _ A A' E') as [R La].
    pose proof (number_loop_longest _ _ _ _ _ L _ _ X' R) as LL.
    apply (f_equal (@length Z)) in R. rewrite !app_length in *. lia.
  - intro N. rewrite in_app_iff in N. rewrite (V ltac:(tauto)) in B. rewrite encode_ascii in B; [congruence|].
    apply Forall_app. split; [|apply (seqs_ascii numchar); [apply numchar_ascii|exact X]].
    destruct A as (c & C & [->| ->]); (constructor; [try lia; blia|]); [constructor|constructor; [blia|constructor]].
Qed.

Lemma number_none : forall s, match_number s = NoMatch -> none_of KNumber s.
Proof.
  intros s H w W (r & ->). inversion W as [|? I| | |]; subst. destruct (number_split _ I) as (a & x & -> & A & X).
  rewrite <- app_assoc in H. unfold match_number in H.
  assert (K : exists n, bind (number_loop (S (length (a ++ x ++ r))) (firstn n (a ++ x ++ r)) (skipn n (a ++ x ++ r)))
     (fun p => match encode (fst p) with Some e => Ok (e, snd p) | None => Error end) = NoMatch).
  { destruct A as (c & C & [->| ->]); apply digit_iff in C; cbn [app char_at nth] in H |- *.
    - rewrite C in H. exists 1%nat. exact H.
    - rewrite C in H. exists 2%nat. exact H. }
  destruct K as (n & K). destruct (number_loop _ _ _) as [[cs r']| | |] eqn:L in K; cbn [bind fst snd] in K; try discriminate K.
  - destruct (encode cs); discriminate K.
  - exact (number_loop_total _ _ _ L).
Qed.
