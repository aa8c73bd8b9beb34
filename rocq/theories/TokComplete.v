(** Plain texts are divided without an error. *)

From Coq Require Import ZArith Bool List String Lia.
From Verif Require Import CTypes LexModel StrModel StrProofs PropPunct TokModel TokSpec TokProofs TokLit TokDivide.
Import ListNotations.
Open Scope Z_scope.
Local Notation length := List.length.

(** ** Literals *)

Lemma simple_escape_read : forall c s, In c (text "'""?\abfnrtv") -> exists v, next_escape (92 :: c :: s) = Ok (v, s) /\ 0 <= v < 128.
Proof.
  intros c s H. cbn in H. repeat (destruct H as [<-|H]; [eexists; split; [reflexivity|lia]|]). destruct H.
Qed.
Lemma small_scalar : forall c, 0 <= c < 55296 -> scalar c = true.
Proof. intros c H. unfold scalar. lia. Qed.
Lemma small_insert : forall b bs c, holds b bs -> 0 <= c < 55296 -> exists b' bs', buf_insert b c = Ok b' /\ holds b' bs'.
Proof.
  intros b bs c H L. destruct (insert_ok b bs c H) as (b' & E & H' & _); [|eauto].
  pose proof (small_scalar c L). destruct (b_mode b); auto. split; [assumption|lia].
Qed.
Lemma small_raw : forall b bs v, holds b bs -> 0 <= v < 128 -> exists b' bs', buf_insert_raw b v = Ok b' /\ holds b' bs'.
Proof.
  intros b bs v H L. destruct (insert_raw_ok b bs v H) as (b' & E & H' & _); [|eauto]. destruct (b_mode b); cbn; lia.
Qed.

Lemma string_loop_plain : forall w, plain 34 w -> forall fuel b bs r, (length w < fuel)%nat -> holds b bs ->
  exists b', string_loop fuel b (w ++ 34 :: r) = Ok (b', r).
Proof.
  intros w P. induction P as [|c w C1 C2 C3 C4 P IH|c w C P IH]; intros [|fuel] b bs r L H; try (cbn in L; lia); cbn [string_loop app].
  - eexists. reflexivity.
  - change (char_at (c :: w ++ 34 :: r) 0) with c. replace (c =? 34) with false by lia.
    replace ((c =? 0) || (c =? 10)) with false by lia. replace (c =? 92) with false by lia. cbn [skipn].
    destruct (small_insert b bs c H ltac:(lia)) as (b1 & bs1 & E & H1). rewrite E. cbn [bind]. apply (IH fuel b1 bs1 r); [cbn in L; lia|exact H1].
  - change (char_at (92 :: c :: w ++ 34 :: r) 0) with 92. change (char_at (92 :: c :: w ++ 34 :: r) 1) with c.
    change (92 =? 34) with false. change ((92 =? 0) || (92 =? 10)) with false. change (92 =? 92) with true. cbn iota.
    destruct (simple_escape_read c (w ++ 34 :: r) C) as (v & E & V). rewrite E. cbn [bind fst snd].
    assert (K : exists b1 bs1, (if (c =? 120) || is_octal c || is_hex c then buf_insert_raw b v else buf_insert b v) = Ok b1 /\ holds b1 bs1).
    { destruct (_ || _); [eapply small_raw|eapply small_insert]; try eassumption; lia. }
    destruct K as (b1 & bs1 & K & H1). rewrite K. cbn [bind]. apply (IH fuel b1 bs1 r); [cbn in L; lia|exact H1].
Qed.
Lemma small_bytes : forall c, 0 <= c < 55296 -> exists e, c32rtomb c = Some e.
Proof. intros c L. apply encode_scalar. now apply small_scalar. Qed.
Lemma char_loop_plain : forall w, plain 39 w -> forall fuel v r, (length w < fuel)%nat ->
  exists v', char_loop fuel v (w ++ 39 :: r) = Ok (v', r).
Proof.
  intros w P. induction P as [|c w C1 C2 C3 C4 P IH|c w C P IH]; intros [|fuel] v r L; try (cbn in L; lia); cbn [char_loop app].
  - eexists. reflexivity.
  - change (char_at (c :: w ++ 39 :: r) 0) with c. replace (c =? 39) with false by lia. replace (c =? 92) with false by lia. cbn [skipn].
    destruct (small_bytes c ltac:(lia)) as (e & E). rewrite E. apply IH. cbn in L. lia.
  - change (char_at (92 :: c :: w ++ 39 :: r) 0) with 92. change (char_at (92 :: c :: w ++ 39 :: r) 1) with c.
    change (92 =? 92) with true. cbn iota.
    destruct (simple_escape_read c (w ++ 39 :: r) C) as (x & E & V). rewrite E. cbn [bind fst snd].
    destruct (_ || _); [replace (x <=? 255) with true by lia; apply IH; cbn in L; lia|].
    destruct (small_bytes x ltac:(lia)) as (e & E1). rewrite E1. apply IH. cbn in L. lia.
Qed.
Lemma wide_char_loop_plain : forall w, plain 39 w -> forall fuel v r, (length w < fuel)%nat ->
  exists v', wide_char_loop fuel v (w ++ 39 :: r) = Ok (v', r).
Proof.
  intros w P. induction P as [|c w C1 C2 C3 C4 P IH|c w C P IH]; intros [|fuel] v r L; try (cbn in L; lia); cbn [wide_char_loop app].
  - eexists. reflexivity.
  - change (char_at (c :: w ++ 39 :: r) 0) with c. replace (c =? 39) with false by lia. replace (c =? 92) with false by lia. cbn [skipn].
    apply IH. cbn in L. lia.
  - change (char_at (92 :: c :: w ++ 39 :: r) 0) with 92. change (92 =? 92) with true. cbn iota.
    destruct (simple_escape_read c (w ++ 39 :: r) C) as (x & E & V). rewrite E. cbn [bind fst snd]. apply IH. cbn in L. lia.
Qed.
Lemma plain_chars : forall q w, plain q w -> char_sequence q w.
Proof.
  intros q w P. induction P as [|c w C1 C2 C3 C4 P IH|c w C P IH]; [apply cs_nil|apply cs_char; assumption|].
  change (92 :: c :: w) with ([92; c] ++ w). apply cs_escape; [now apply es_simple|exact IH].
Qed.

Lemma not_nil_head : forall w r, plain 39 w -> w <> [] -> char_at (w ++ 39 :: r) 0 <> 39.
Proof. intros w r [|c v C1 C2 C3 C4 P|c v C P] N; [contradiction|exact C2|discriminate]. Qed.
Lemma prefixed_plain : forall p mk w r, plain 39 w -> w <> [] -> exists c, next_prefixed p mk (p :: 39 :: w ++ 39 :: r) = Ok (c, r).
Proof.
  intros p mk w r P N. pose proof (not_nil_head w r P N) as H. apply Z.eqb_neq in H. unfold next_prefixed.
  change (char_at (p :: 39 :: w ++ 39 :: r) 0) with p. change (char_at (p :: 39 :: w ++ 39 :: r) 1) with 39.
  change (char_at (p :: 39 :: w ++ 39 :: r) 2) with (char_at (w ++ 39 :: r) 0). rewrite H, !Z.eqb_refl. cbn [andb skipn].
  destruct (wide_char_loop_plain w P (S (length (p :: 39 :: w ++ 39 :: r))) 0 r) as (v & E); [cbn [length]; rewrite app_length; lia|].
  rewrite E. cbn [bind fst snd]. eexists. reflexivity.
Qed.
Lemma char_plain : forall p w r, In p (map text [""; "L"; "u"; "U"]%string) -> plain 39 w -> w <> [] ->
  exists c, match_char_constant ((p ++ [39] ++ w ++ [39]) ++ r) = Ok (c, r).
Proof.
  intros p w r I P N. rewrite <- !app_assoc. cbn [app]. pose proof (not_nil_head w r P N) as H. apply Z.eqb_neq in H.
  unfold match_char_constant, or_else. cbn [map In] in I. destruct I as [<-|[<-|[<-|[<-|[]]]]].
  - change (text "" ++ 39 :: w ++ 39 :: r) with (39 :: w ++ 39 :: r). 
    assert (A : exists v, next_char_constant (39 :: w ++ 39 :: r) = Ok (v, r)); [|destruct A as (v & A); rewrite A; eexists; reflexivity].
    unfold next_char_constant. change (char_at (39 :: w ++ 39 :: r) 0) with 39. change (39 =? 39) with true. cbn iota.
    change (char_at (39 :: w ++ 39 :: r) 1) with (char_at (w ++ 39 :: r) 0). rewrite H. cbn [skipn].
    destruct (char_loop_plain w P (S (length (39 :: w ++ 39 :: r))) (Some 0) r) as (v & E); [cbn [length]; rewrite app_length; lia|].
    rewrite E. cbn [bind fst snd]. eexists. reflexivity.
  - change (text "L" ++ 39 :: w ++ 39 :: r) with (76 :: 39 :: w ++ 39 :: r).
    change (next_char_constant (76 :: 39 :: w ++ 39 :: r)) with (@NoMatch (option Z * list Z)). cbn [bind].
    destruct (prefixed_plain 76 (fun v => CWide (if v <? 2 ^ 31 then v else v - 2 ^ 32)) w r P N) as (c & E). rewrite E. eexists. reflexivity.
  - change (text "u" ++ 39 :: w ++ 39 :: r) with (117 :: 39 :: w ++ 39 :: r).
    change (next_char_constant (117 :: 39 :: w ++ 39 :: r)) with (@NoMatch (option Z * list Z)). cbn [bind].
    change (next_prefixed 76 (fun v => CWide (if v <? 2 ^ 31 then v else v - 2 ^ 32)) (117 :: 39 :: w ++ 39 :: r)) with (@NoMatch (cconst * list Z)). cbn iota.
    destruct (prefixed_plain 117 (fun v => CUnicode16 (v mod 2 ^ 16)) w r P N) as (c & E). rewrite E. eexists. reflexivity.
  - change (text "U" ++ 39 :: w ++ 39 :: r) with (85 :: 39 :: w ++ 39 :: r).
    change (next_char_constant (85 :: 39 :: w ++ 39 :: r)) with (@NoMatch (option Z * list Z)). cbn [bind].
    change (next_prefixed 76 (fun v => CWide (if v <? 2 ^ 31 then v else v - 2 ^ 32)) (85 :: 39 :: w ++ 39 :: r)) with (@NoMatch (cconst * list Z)). cbn iota.
    change (next_prefixed 117 (fun v => CUnicode16 (v mod 2 ^ 16)) (85 :: 39 :: w ++ 39 :: r)) with (@NoMatch (cconst * list Z)). cbn iota.
    destruct (prefixed_plain 85 CUnicode32 w r P N) as (c & E). rewrite E. eexists. reflexivity.
Qed.

Lemma next_literal_plain : forall m w r, plain 34 w -> exists l, next_literal m (encoding_prefix m ++ 34 :: w ++ 34 :: r) = Ok (l, r).
Proof.
  intros m w r P. unfold next_literal.
  assert (Q : encoding_prefix m ++ 34 :: w ++ 34 :: r = prefix m ++ w ++ 34 :: r) by (rewrite prefix_split, <- app_assoc; reflexivity).
  rewrite Q. rewrite (proj2 (starts_with_prefix (prefix m) _ (prefix_nonzero m))) by (eexists; reflexivity).
  rewrite skipn_app, skipn_all, Nat.sub_diag. cbn [skipn app].
  destruct (string_loop_plain w P (S (length (w ++ 34 :: r))) (buf_init m) [] r) as (b & E); [rewrite app_length; cbn; lia|apply init_holds|].
  rewrite E. cbn [bind fst snd]. eexists. reflexivity.
Qed.
Lemma next_literal_other : forall m m' t, m <> m' -> next_literal m (encoding_prefix m' ++ 34 :: t) = NoMatch.
Proof. intros m m' t N. destruct m, m'; try contradiction; reflexivity. Qed.
Lemma string_plain : forall p w r, In p (map text [""; "u8"; "u"; "U"; "L"]%string) -> plain 34 w ->
  exists l, match_literal ((p ++ [34] ++ w ++ [34]) ++ r) = Ok (l, r).
Proof.
  intros p w r I P. rewrite <- !app_assoc. cbn [app]. destruct (encoding_onto _ I) as (m & ->).
  destruct (next_literal_plain m w r P) as (l & E). exists l. unfold match_literal, or_else.
  destruct m; repeat (rewrite next_literal_other by discriminate); rewrite ?E; reflexivity.
Qed.

(** ** What a matcher does not match *)

Lemma char_nomatch : forall s, (forall p, In p (map text [""; "L"; "u"; "U"]%string) -> ~ starts_with s (p ++ [39])) -> match_char_constant s = NoMatch.
Proof.
  intros s H. unfold match_char_constant.
  assert (A : next_char_constant s = NoMatch).
  { unfold next_char_constant. destruct (char_at s 0 =? 39) eqn:E; [|reflexivity]. exfalso. destruct s as [|c s]; [discriminate|].
    cbn in E. apply Z.eqb_eq in E. subst. apply (H []); [cbn; tauto|exists s; reflexivity]. }
  assert (B : forall p mk, p <> 0 -> In [p] (map text [""; "L"; "u"; "U"]%string) -> next_prefixed p mk s = NoMatch).
  { intros p mk P0 P. unfold next_prefixed. destruct (_ && _) eqn:E; [|reflexivity]. exfalso. apply two in E as (t & ->); [|exact P0|lia].
    apply (H [p] P). exists t. reflexivity. }
  rewrite A. cbn [bind or_else]. rewrite !B; [reflexivity|lia|cbn; tauto|lia|cbn; tauto|lia|cbn; tauto].
Qed.
Lemma string_nomatch : forall s, (forall p, In p (map text [""; "u8"; "u"; "U"; "L"]%string) -> ~ starts_with s (p ++ [34])) -> match_literal s = NoMatch.
Proof.
  intros s H. unfold match_literal.
  assert (B : forall m, next_literal m s = NoMatch).
  { intros m. unfold next_literal. destruct (StrModel.starts_with (prefix m) s) eqn:E; [|reflexivity]. exfalso.
    apply starts_with_prefix in E as (t & ->); [|apply prefix_nonzero]. apply (H (encoding_prefix m) (encoding_in m)).
    exists t. now rewrite prefix_split. }
  rewrite !B. reflexivity.
Qed.
Lemma number_nomatch : forall s, none_of KNumber s -> match_number s = NoMatch.
Proof.
  intros s H. destruct (match_number s) as [[e r]| | |] eqn:E; try reflexivity; exfalso;
    (destruct (number_start s) as (a & t & A & -> & _); [congruence|]; apply (H a); [constructor|exists t; reflexivity];
     destruct A as (c & C & [->| ->]); [now apply pn_digit|now apply (pn_dot_digit c)]).
Qed.
Lemma universal_head : forall s, char_at s 0 <> 92 -> next_universal s = NoMatch.
Proof. intros s H. unfold next_universal. replace (char_at s 0 =? 92) with false by lia. reflexivity. Qed.
Lemma name_nomatch : forall s, is_nondigit (char_at s 0) = false -> char_at s 0 <> 92 -> match_name s = NoMatch.
Proof. intros s H N. unfold match_name, scan_name, scan_nondigit. rewrite H, universal_head by exact N. reflexivity. Qed.

(** ** Names and numbers *)

Lemma number_outcome : forall fuel acc s, (length s < fuel)%nat ->
  (exists cs r, number_loop fuel acc s = Ok (cs, r)) \/ exists x t, seqs numchar x /\ s = x ++ 92 :: t.
Proof.
  induction fuel as [|fuel IH]; intros acc s L; [lia|]. destruct s as [|c s]; [left; cbn; eauto|]. cbn [number_loop].
  destruct (c =? 92) eqn:C. { right. apply Z.eqb_eq in C. subst. exists [], s. split; [constructor|reflexivity]. }
  change (char_at (c :: s) 0) with c. destruct (_ && _) eqn:E.
  - destruct s as [|d s]; [cbn in E; rewrite andb_false_r in E; discriminate|]. apply andb_true_iff in E as [E G]. cbn [skipn].
    destruct (IH (acc ++ [c; char_at (c :: d :: s) 1]) s) as [K|(x & t & X & ->)]; [cbn in L; lia|left; exact K|].
    right. exists ([c; d] ++ x), t. split; [|reflexivity]. apply sq_cons; [now apply nc_exp|exact X].
  - destruct (_ || _) eqn:D.
    + cbn [skipn]. destruct (IH (acc ++ [c]) s) as [K|(x & t & X & ->)]; [cbn in L; lia|left; exact K|].
      right. exists ([c] ++ x), t. split; [|reflexivity]. apply sq_cons; [|exact X].
      apply orb_true_iff in D as [D|D]; [apply orb_true_iff in D as [D|D]|].
      * apply nc_id, ic_digit. now apply digit_iff.
      * apply nc_id, ic_nondigit, in_nondigit. now apply nondigit_iff.
      * apply Z.eqb_eq in D. subst. exact nc_dot.
    + rewrite universal_head by (cbn; lia). left. eauto.
Qed.
Lemma backslash_at : forall (y w r : list Z) t, y ++ 92 :: t = w ++ r -> (length y <= length w)%nat -> In 92 w \/ exists t', r = 92 :: t'.
Proof.
  induction y as [|c y IH]; intros [|d w] r t E L; cbn in *; try lia.
  - right. eauto.
  - injection E as <- E. auto.
  - injection E as <- E. destruct (IH w r t E ltac:(lia)) as [K|K]; auto.
Qed.
Lemma prefix_in : forall (y w r : list Z) t, y ++ t = w ++ r -> (length y <= length w)%nat -> forall c, In c y -> In c w.
Proof.
  induction y as [|a y IH]; intros [|d w] r t E L c I; cbn in *; try lia; try contradiction.
  injection E as <- E. destruct I as [<-|I]; [auto|]. right. apply (IH w r t E ltac:(lia) c I).
Qed.
Lemma num_start_number : forall a, num_start a -> pp_number a.
Proof. intros a (c & C & [->| ->]); [now apply pn_digit|now apply (pn_dot_digit c)]. Qed.
Lemma num_start_ascii : forall a, num_start a -> ascii a.
Proof.
  intros a (c & C & [->| ->]); apply digit_iff in C; unfold is_digit in C; (constructor; [lia|]); [constructor|constructor; [lia|constructor]].
Qed.

Lemma number_reads : forall w r, pp_number w -> longest_of KNumber (w ++ r) w -> ~ In 92 w -> char_at r 0 <> 92 ->
  exists e t, match_number (w ++ r) = Ok (e, t).
Proof.
  intros w r W L N R. destruct (number_start (w ++ r)) as (a & t & A & Q & M).
  { intro K. apply number_none in K. apply (K w); [now constructor|exists r; reflexivity]. }
  rewrite M. destruct (number_outcome (S (length (w ++ r))) a t) as [(cs & u & K)|(x & u & X & ->)].
  - rewrite Q, app_length. lia.
  - rewrite K. cbn [bind fst snd]. destruct (number_loop_sound _ _ _ _ _ K) as (x & X & -> & V).
    assert (B : pp_number (a ++ x)) by (apply number_app; [exact X|now apply num_start_number]).
    assert (Le : (length (a ++ x) <= length w)%nat) by (apply L; [now constructor|exists u; rewrite Q, app_assoc; reflexivity]).
    assert (N' : ~ In 92 (a ++ x)). { intro I. apply N. apply (prefix_in (a ++ x) w r u); [rewrite <- app_assoc; congruence|exact Le|exact I]. }
    rewrite V by (intro I; apply N'; apply in_app_iff; auto). rewrite encode_ascii; [eauto|].
    apply Forall_app. split; [now apply num_start_ascii|]. apply (seqs_ascii numchar); [apply numchar_ascii|exact X].
  - exfalso. assert (B : pp_number (a ++ x)) by (apply number_app; [exact X|now apply num_start_number]).
    assert (Le : (length (a ++ x) <= length w)%nat) by (apply L; [now constructor|exists (92 :: u); rewrite Q, app_assoc; reflexivity]).
    destruct (backslash_at (a ++ x) w r u) as [I|(v & ->)]; [rewrite <- app_assoc; congruence|exact Le|contradiction|cbn in R; lia].
Qed.

Lemma name_outcome : forall fuel acc s, (length s < fuel)%nat ->
  (exists cs r, name_loop fuel acc s = Ok (cs, r)) \/ (exists x t, seqs idchar x /\ s = x ++ 92 :: t) \/
  (exists x t, seqs idchar x /\ s = x ++ t /\ (max_identifier < length acc + length x)%nat).
Proof.
  induction fuel as [|fuel IH]; intros acc s L; [lia|]. destruct s as [|c s]; [left; cbn; eauto|]. cbn [name_loop].
  destruct (c =? 92) eqn:C. { right; left. apply Z.eqb_eq in C. subst. exists [], s. split; [constructor|reflexivity]. }
  destruct (is_digit c || is_nondigit c) eqn:D.
  - assert (I : idchar [c]).
    { apply orb_true_iff in D as [D|D]; [apply ic_digit; now apply digit_iff|apply ic_nondigit, in_nondigit; now apply nondigit_iff]. }
    assert (E : scan_digit (c :: s) = Ok (c, s)).
    { unfold scan_digit, scan_nondigit. change (char_at (c :: s) 0) with c. destruct (is_digit c); [reflexivity|]. cbn in D. rewrite D. reflexivity. }
    rewrite E. destruct (_ <? _)%nat eqn:M.
    + apply Nat.ltb_lt in M. destruct (IH (acc ++ [c]) s) as [K|[(x & t & X & ->)|(x & t & X & -> & K)]]; [cbn in L; lia|left; exact K| |].
      * right; left. exists ([c] ++ x), t. split; [now apply sq_cons|reflexivity].
      * right; right. exists ([c] ++ x), t. split; [now apply sq_cons|]. split; [reflexivity|]. rewrite app_length in *. cbn in *. lia.
    + apply Nat.ltb_ge in M. right; right. exists ([c] ++ []), s. split; [apply sq_cons; [exact I|constructor]|]. split; [reflexivity|]. cbn. lia.
  - assert (E : scan_digit (c :: s) = NoMatch).
    { unfold scan_digit, scan_nondigit. change (char_at (c :: s) 0) with c. apply orb_false_iff in D as [-> ->]. apply universal_head. cbn. lia. }
    rewrite E. left. eauto.
Qed.
Lemma name_reads : forall w r, identifier w -> longest_of KName (w ++ r) w -> ~ In 92 w -> (length w <= 255)%nat -> char_at r 0 <> 92 ->
  exists e t, match_name (w ++ r) = Ok (e, t).
Proof.
  intros w r W L N Len R. destruct (identifier_split _ W) as (a & x0 & E0 & A & X0).
  destruct A as [c C|u U]; [|destruct (ucn_head _ U) as (t & ->); exfalso; apply N; rewrite E0; left; reflexivity].
  assert (I0 : identifier [c]) by (constructor; now constructor).
  assert (Q : w ++ r = [c] ++ (x0 ++ r)) by (rewrite E0, <- app_assoc; reflexivity).
  assert (S0 : scan_nondigit (w ++ r) = Ok (c, x0 ++ r)).
  { rewrite Q. unfold scan_nondigit. cbn [app]. change (char_at (c :: x0 ++ r) 0) with c. apply nondigit_iff in C. rewrite C. reflexivity. }
  unfold match_name, scan_name. rewrite S0. cbn [bind fst snd].
  destruct (name_outcome (S (length (w ++ r))) [c] (x0 ++ r)) as [(cs & u & K)|[(x & u & X & E)|(x & u & X & E & M)]].
  - rewrite Q. cbn. lia.
  - rewrite K. cbn [bind fst snd]. destruct (name_loop_sound _ _ _ _ _ K) as (x & X & E & _ & V).
    assert (B : identifier ([c] ++ x)) by (apply identifier_app; assumption).
    assert (Le : (length ([c] ++ x) <= length w)%nat) by (apply L; [now constructor|exists u; rewrite Q, E, app_assoc; reflexivity]).
    assert (N' : ~ In 92 ([c] ++ x)). { intro I. apply N. apply (prefix_in ([c] ++ x) w r u); [rewrite <- app_assoc; congruence|exact Le|exact I]. }
    rewrite V by (intro I; apply N'; apply in_app_iff; auto). rewrite name_bytes_ascii; [eauto|].
    apply Forall_app. split; [apply idchar_ascii; constructor; now constructor|]. apply (seqs_ascii idchar); [apply idchar_ascii|exact X].
  - exfalso. assert (B : identifier ([c] ++ x)) by (apply identifier_app; assumption).
    assert (Le : (length ([c] ++ x) <= length w)%nat) by (apply L; [now constructor|exists (92 :: u); rewrite Q, E, app_assoc; reflexivity]).
    destruct (backslash_at ([c] ++ x) w r u) as [I|(v & ->)]; [rewrite <- app_assoc; congruence|exact Le|contradiction|cbn in R; lia].
  - exfalso. assert (B : identifier ([c] ++ x)) by (apply identifier_app; assumption).
    assert (Le : (length ([c] ++ x) <= length w)%nat) by (apply L; [now constructor|exists u; rewrite Q, E, app_assoc; reflexivity]).
    cbn [length app] in *. unfold max_identifier in M. lia.
Qed.

(** ** One token *)

Lemma opens_head : forall c t, opens_white (c :: t) -> white_char c \/ c = 47.
Proof.
  intros c t [(d & r & E & W)|[(r & E)|(r & E)]]; injection E as -> _; auto.
Qed.
Lemma division_head : forall c t l, division (c :: t) l -> ~ white_char c -> c <> 47 ->
  exists k w l' r, l = IToken k (c :: w) :: l' /\ t = w ++ r /\ longest k (c :: w) (c :: t) /\ division r l'.
Proof.
  intros c t l D N1 N2. remember (c :: t) as s eqn:Q. destruct D as [|n s r l W D|k w r l O L D]; [discriminate| |].
  - apply white_opens in W. subst s. apply opens_head in W. tauto.
  - pose proof L as (_ & T & _). apply token_nonempty in T. destruct w as [|d w]; [contradiction|]. injection Q as -> <-.
    exists k, w, l, r. auto.
Qed.
Lemma longest_standard : forall k w s, longest k w s -> k <> KOther -> standard k w.
Proof. intros k w s (_ & T & _) N. destruct T; [assumption|contradiction]. Qed.
Lemma fine_kind : forall k w, fine k w -> k <> KOther.
Proof. intros k w H. destruct H; discriminate. Qed.

Lemma rest_head : forall r l, division r l -> all_fine l -> char_at r 0 <> 92.
Proof.
  intros [|c t] l D F E; [cbn in E; lia|]. cbn in E. subst c.
  destruct (division_head 92 t l D) as (k & w & l' & r & -> & _ & L & _); [cbn; lia|lia|]. destruct F as (F & _ & _).
  pose proof (longest_standard _ _ _ L (fine_kind _ _ F)) as S. inversion S as [? I|? I|? I|? I|? I]; subst.
  - inversion F; subst. cbn in *. tauto.
  - destruct (number_first _ I) as (c & u & E & G). injection E as <- <-. destruct G as [G|(G & _)]; [discriminate|lia].
  - destruct (char_first _ I) as (p & u & P & E). cbn in P. destruct P as [<-|[<-|[<-|[<-|[]]]]]; discriminate.
  - destruct (string_first _ I) as (p & u & P & E). cbn in P. destruct P as [<-|[<-|[<-|[<-|[<-|[]]]]]]; discriminate.
  - destruct (punct_first _ I) as (c & u & E & G1 & G2 & _). injection E as <- <-. contradiction.
Qed.
Lemma rest_quote : forall q t l, quote q -> division (q :: t) l -> all_fine l ->
  exists u r, t = u ++ q :: r /\ char_sequence q u /\ (q = 39 -> u <> []).
Proof.
  intros q t l Q D F.
  destruct (division_head q t l D) as (k & w & l' & r & -> & -> & L & _); [destruct Q; subst; cbn; lia|destruct Q; lia|].
  destruct F as (F & _ & _). pose proof (longest_standard _ _ _ L (fine_kind _ _ F)) as S.
  inversion S as [? I|? I|? I|? I|? I]; subst.
  - destruct (name_first _ I) as (c & u & E & G). injection E as <- <-. destruct Q as [-> | ->]; destruct G as [G|G]; discriminate.
  - destruct (number_first _ I) as (c & u & E & G). injection E as <- <-. destruct Q as [-> | ->]; destruct G as [G|(G & _)]; discriminate.
  - inversion I as [p u P U0 U E]. cbn in P. destruct P as [<-|[<-|[<-|[<-|[]]]]]; cbn in E; injection E as E1 E2; subst;
      try (destruct Q; discriminate). exists u, r. rewrite <- app_assoc. auto.
  - inversion I as [p u P U E]. cbn in P. destruct P as [<-|[<-|[<-|[<-|[<-|[]]]]]]; cbn in E; injection E as E1 E2; subst;
      try (destruct Q; discriminate). exists u, r. rewrite <- app_assoc. split; [reflexivity|]. split; [exact U|]. discriminate.
  - destruct (punct_first _ I) as (c & u & E & _ & _ & _ & G1 & G2 & _). injection E as <- <-. destruct Q; contradiction.
Qed.

(** No quote follows a name that is a prefix. *)
Lemma name_quote : forall w r l q p, quote q -> identifier w -> longest KName w (w ++ r) -> division r l -> all_fine l ->
  In p (map text [""; "u8"; "u"; "U"; "L"]%string) -> (q = 39 -> p <> text "u8") -> ~ starts_with (w ++ r) (p ++ [q]).
Proof.
  intros w r l q p Q W L D F P P8 (t & E). rewrite <- app_assoc in E. cbn [app] in E.
  assert (B : (length w <= length p)%nat).
  { apply (prefix_bound p q t); [exists r; now rewrite <- E|]. intro I. destruct (identifier_chars _ W _ I). destruct Q; contradiction. }
  destruct L as (_ & _ & L). assert (I : p <> [] -> identifier p).
  { cbn in P. destruct P as [<-|[<-|[<-|[<-|[<-|[]]]]]]; intro N; try contradiction.
    - apply (id_digit [117] 56); [constructor; constructor; apply nondigit_iff; reflexivity|apply digit_iff; reflexivity].
    - constructor; constructor; apply nondigit_iff; reflexivity.
    - constructor; constructor; apply nondigit_iff; reflexivity.
    - constructor; constructor; apply nondigit_iff; reflexivity. }
  assert (E2 : w = p).
  { destruct p as [|a p].
    - destruct w; [reflexivity|cbn in B; lia].
    - assert (length (a :: p) <= length w)%nat.
      { apply (L KName). - constructor. constructor. apply I. discriminate. - exists (q :: t). exact E. }
      apply (same_prefix w (a :: p) (w ++ r)); [exists r; reflexivity|exists (q :: t); exact E|lia]. }
  subst w. apply app_inv_head in E. subst r. destruct (rest_quote _ _ _ Q D F) as (u & x & -> & U & U0).
  assert (K : exists k, standard k (p ++ [q] ++ u ++ [q])).
  { destruct Q as [-> | ->].
    - exists KString. constructor. now constructor.
    - exists KChar. constructor. constructor; [|now apply U0|exact U].
      cbn in P. destruct P as [<-|[<-|[<-|[<-|[<-|[]]]]]]; try (cbn; tauto). }
  destruct K as (k & K). assert (length (p ++ [q] ++ u ++ [q]) <= length p)%nat.
  { apply (L k); [now constructor|]. exists x. rewrite <- !app_assoc. reflexivity. }
  rewrite !app_length in *. cbn in *. lia.
Qed.

Lemma finish : forall k w r t u, next_token (w ++ r) = Ok (t, u) -> ~ opens_white (w ++ r) -> longest k w (w ++ r) ->
  match t with TkChar _ => False | _ => True end -> u = r /\ reads t k w.
Proof.
  intros k w r t u H O L T. apply next_token_sound in H. remember (w ++ r) as s eqn:Q. destruct H as [|bs s u B C|t v u O' V K].
  - exfalso. destruct L as (_ & L & _). apply token_nonempty in L. destruct w; [contradiction|discriminate].
  - exfalso. destruct C as [|n l s t u W C]; [contradiction|]. apply O. eapply white_opens; eassumption.
  - destruct K as (k' & R & L'); [destruct t; cbn; tauto|]. destruct (longest_unique _ _ _ _ _ L L') as [-> ->].
    apply app_inv_head in Q. auto.
Qed.

Lemma dead_end_fine : forall w r l, longest KPunct w (w ++ r) -> ~ clash w l -> division r l -> ~ dead_end (w ++ r).
Proof.
  intros w r l L C D DE. pose proof (longest_standard _ _ _ L ltac:(discriminate)) as S. inversion S as [| | | |? I]; subst.
  destruct L as (_ & _ & L). destruct DE as [(t & E & H)|(t & E & H)].
  - assert (K : forallb (fun w => match w with 46 :: _ => if list_eq_dec Z.eq_dec w (text ".") then true else
        if list_eq_dec Z.eq_dec w (text "...") then true else false | _ => true end) c17_punctuators = true) by (vm_compute; reflexivity).
    rewrite forallb_forall in K. specialize (K w I).
    destruct w as [|c w]; [destruct (standard_nonempty _ _ S eq_refl)|]. pose proof E as E'. injection E' as -> E'.
    destruct (list_eq_dec Z.eq_dec (46 :: w) (text ".")) as [Q|_].
    + injection Q as ->. cbn in E'. subst r. destruct (division_head 46 (t) l D) as (k & v & l' & u & -> & _); [cbn; lia|lia|].
      apply C. exists k, v, l'. left. auto.
    + destruct (list_eq_dec Z.eq_dec (46 :: w) (text "...")) as [Q|_]; [|discriminate]. injection Q as ->. cbn in E'. injection E' as <-.
      apply H. reflexivity.
  - assert (K : forallb (fun w => match w with 37 :: _ => if list_eq_dec Z.eq_dec w (text "%:") then true else
        if list_eq_dec Z.eq_dec w (text "%:%:") then true else if list_eq_dec Z.eq_dec w (text "%") then true else
        if list_eq_dec Z.eq_dec w (text "%=") then true else if list_eq_dec Z.eq_dec w (text "%>") then true else false | _ => true end) c17_punctuators = true)
      by (vm_compute; reflexivity).
    rewrite forallb_forall in K. specialize (K w I).
    assert (B : (2 <= length w)%nat).
    { apply (L KPunct (text "%:")); [constructor; constructor; cbn; tauto|]. exists (37 :: t). exact E. }
    destruct w as [|c w]; [cbn in B; lia|]. pose proof E as E'. injection E' as -> E'.
    destruct (list_eq_dec Z.eq_dec (37 :: w) (text "%:")) as [Q|_].
    + injection Q as ->. cbn in E'. injection E' as ->. destruct (division_head 37 t l D) as (k & v & l' & u & -> & _); [cbn; lia|lia|].
      apply C. exists k, v, l'. right. auto.
    + destruct (list_eq_dec Z.eq_dec (37 :: w) (text "%:%:")) as [Q|_].
      { injection Q as ->. cbn in E'. injection E' as <-. apply H. reflexivity. }
      destruct (list_eq_dec Z.eq_dec (37 :: w) (text "%")) as [Q|_]; [injection Q as ->; cbn in B; lia|].
      destruct (list_eq_dec Z.eq_dec (37 :: w) (text "%=")) as [Q|_]; [injection Q as ->; cbn in E'; discriminate|].
      destruct (list_eq_dec Z.eq_dec (37 :: w) (text "%>")) as [Q|_]; [injection Q as ->; cbn in E'; discriminate|discriminate].
Qed.

Lemma next_token_order : forall s, s <> [] -> ~ opens_white s ->
  next_token s =
  match or_else (map_res TkChar (match_char_constant s))
    (or_else (map_res TkNumber (match_number s))
    (or_else (map_res TkString (match_literal s))
    (or_else (map_res TkName (match_name s))
      (map_res TkPunct (of_option (match_punctuator s)))))) with
  | NoMatch => Error
  | r => r
  end.
Proof.
  intros s N O. unfold next_token. rewrite (skip_space_opens s O). destruct s; [contradiction|]. reflexivity.
Qed.

Lemma prefixes_incl : forall p, In p (map text [""; "L"; "u"; "U"]%string) -> In p (map text [""; "u8"; "u"; "U"; "L"]%string) /\ p <> text "u8".
Proof. intros p H. cbn in H. destruct H as [<-|[<-|[<-|[<-|[]]]]]; (split; [cbn; tauto|discriminate]). Qed.
Lemma first_no_quote : forall c t q p, is_digit c = true \/ c = 46 \/ (is_nondigit c = false /\ c <> 34 /\ c <> 39) -> quote q ->
  In p (map text [""; "u8"; "u"; "U"; "L"]%string) -> ~ starts_with (c :: t) (p ++ [q]).
Proof.
  intros c t q p H Q P (r & E). cbn in P. destruct P as [<-|[<-|[<-|[<-|[<-|[]]]]]]; cbn in E; injection E as -> E;
    unfold is_digit, is_nondigit in H; destruct Q; lia.
Qed.

Lemma next_token_fine : forall k w r l, ~ opens_white (w ++ r) -> longest k w (w ++ r) -> division r l -> fine k w -> ~ clash w l -> all_fine l ->
  exists t, next_token (w ++ r) = Ok (t, r) /\ reads t k w.
Proof.
  intros k w r l O L D F C A. pose proof (longest_standard _ _ _ L (fine_kind _ _ F)) as S.
  assert (NE : w ++ r <> []). { pose proof (standard_nonempty _ _ S). destruct w; [contradiction|discriminate]. }
  assert (LO : longest_of k (w ++ r) w). { intros w' S' P'. destruct L as (_ & _ & L). apply (L k); [now constructor|exact P']. }
  pose proof (rest_head _ _ D A) as RH.
  enough (G : exists t u, next_token (w ++ r) = Ok (t, u) /\ ((t = t /\ u = r /\ reads t k w) \/ match t with TkChar _ => False | _ => True end)).
  { destruct G as (t & u & N & [(_ & -> & R)|T]); [eauto|]. destruct (finish _ _ _ _ _ N O L T) as [-> R]. eauto. }
  rewrite (next_token_order _ NE O). destruct F as [w N92 Len|w N92|p v P V|p v P V|w].
  - (* name *)
    inversion S as [? I| | | |]; subst.
    assert (M1 : match_char_constant (w ++ r) = NoMatch).
    { apply char_nomatch. intros p P. destruct (prefixes_incl _ P) as [P1 P2].
      apply (name_quote w r l 39 p); auto. now right. }
    assert (M2 : match_literal (w ++ r) = NoMatch).
    { apply string_nomatch. intros p P. apply (name_quote w r l 34 p); auto; [now left|discriminate]. }
    assert (M3 : match_number (w ++ r) = NoMatch) by (apply number_nomatch; now apply name_others).
    destruct (name_reads w r I LO N92 Len RH) as (e & u & E). rewrite M1, M2, M3, E. exists (TkName e), u. split; [reflexivity|]. now right.
  - (* number *)
    inversion S as [|? I| | |]; subst. destruct (number_first _ I) as (c & t & Ew & G).
    assert (G' : is_digit c = true \/ c = 46 \/ (is_nondigit c = false /\ c <> 34 /\ c <> 39)) by (destruct G as [G|(G & _)]; auto).
    assert (M1 : match_char_constant (w ++ r) = NoMatch).
    { apply char_nomatch. intros p P. destruct (prefixes_incl _ P) as [P1 P2]. subst w. apply first_no_quote; auto. now right. }
    destruct (number_reads w r I LO N92 RH) as (e & u & E). rewrite M1, E. exists (TkNumber e), u. split; [reflexivity|]. now right.
  - (* character constant *)
    inversion S as [| |? I| |]; subst. assert (V0 : v <> []).
    { intros ->. inversion I as [p' u P' U0 U E]. destruct (char_modes_onto _ P) as (m & _ & ->). destruct (char_modes_onto _ P') as (m' & _ & ->).
      apply (f_equal (fun x => x ++ [0])) in E. rewrite <- !app_assoc in E. apply prefix_unique in E as [_ E]; [|now right].
      destruct u as [|a u]; [contradiction|]. cbn in E. injection E as -> E. inversion U; subst; [contradiction|].
      match goal with H : escape_sequence ?e, H2 : ?e ++ _ = 39 :: _ |- _ => destruct (escape_head _ H) as (z & ->); discriminate H2 end. }
    destruct (char_plain p v r P V V0) as (c & E). rewrite E. exists (TkChar c), r. split; [reflexivity|]. left. repeat split. constructor.
  - (* string *)
    destruct (encoding_onto _ P) as (m & ->).
    assert (M1 : match_char_constant ((encoding_prefix m ++ [34] ++ v ++ [34]) ++ r) = NoMatch).
    { apply char_nomatch. intros p P1 (t & E). destruct (char_modes_onto _ P1) as (m' & _ & ->). rewrite <- !app_assoc in E. destruct m, m'; discriminate E. }
    assert (M2 : match_number ((encoding_prefix m ++ [34] ++ v ++ [34]) ++ r) = NoMatch).
    { apply number_nomatch. rewrite <- !app_assoc. apply (quote_none 34 (encoding_prefix m) (v ++ [34] ++ r)); [now left|exact P]. }
    destruct (string_plain _ v r P V) as (lit & E). rewrite M1, M2, E. exists (TkString lit), r. split; [reflexivity|]. now right.
  - (* punctuator *)
    inversion S as [| | | |? I]; subst. destruct (punct_first _ I) as (c & t & Ew & G1 & G2 & G3 & G4 & G5 & G6).
    assert (M1 : match_char_constant (w ++ r) = NoMatch).
    { apply char_nomatch. intros p P. destruct (prefixes_incl _ P) as [P1 P2]. subst w. apply first_no_quote; auto. now right. }
    assert (M2 : match_literal (w ++ r) = NoMatch).
    { apply string_nomatch. intros p P. subst w. apply first_no_quote; auto. now left. }
    assert (M3 : match_number (w ++ r) = NoMatch).
    { apply number_nomatch. intros v S' (u & E). destruct L as (_ & _ & L).
      assert (Len : (length v <= length w)%nat) by (apply (L KNumber); [now constructor|exists u; exact E]).
      assert (J : pp_number v) by (inversion S'; assumption). destruct (number_first _ J) as (d & x & -> & G). subst w. cbn in E. injection E as <- E.
      destruct G as [G|(-> & d & y & -> & G)]; [congruence|]. destruct (G6 eq_refl) as [->|(z & ->)]; [cbn in Len; lia|].
      cbn in E. injection E as <- E. discriminate. }
    assert (M4 : match_name (w ++ r) = NoMatch) by (subst w; apply name_nomatch; assumption).
    destruct (c07_recognised_partial (w ++ r) w I) as (p & u & E); [exists r; reflexivity|now apply (dead_end_fine w r l)|].
    rewrite M1, M2, M3, M4, E. exists (TkPunct p), u. split; [reflexivity|]. now right.
Qed.

(** ** The whole text *)

Lemma division_chain : forall bs s u, chain bs s u -> forall l, division s l -> exists l', l = map IWhite bs ++ l' /\ division u l'.
Proof.
  intros bs s u H. induction H as [s|n bs s t u W C IH]; intros l D; [exists l; auto|].
  destruct (division_white _ _ D _ _ W) as (l1 & -> & D1). destruct (IH _ D1) as (l2 & -> & D2). exists l2. auto.
Qed.
Lemma chain_shorter : forall bs s u, chain bs s u -> (length u <= length s)%nat.
Proof. intros bs s u H. induction H as [|n bs s t u W C IH]; [lia|]. apply white_shorter in W. lia. Qed.
Lemma block_division : forall u l, division u l -> skip_block u <> Error.
Proof.
  intros u l D. unfold skip_block. destruct (_ && _) eqn:E; [|discriminate]. apply two in E as (t & ->); [|lia|lia]. cbn [skipn].
  remember (47 :: 42 :: t) as s eqn:Q. destruct D as [|n s r l W D|k w r l O L D]; [discriminate| |].
  - destruct W as [c r W|x r M|x r N E]; [injection Q as -> Q; cbn in W; lia| |discriminate].
    change (47 :: 42 :: t) with (text "/*" ++ t) in Q. apply app_inv_head in Q. subst t. rewrite (block_complete x r M). discriminate.
  - exfalso. apply O. rewrite Q. right; left. exists t. reflexivity.
Qed.
Lemma whitespace_ok : forall s l, division s l -> opens_white s -> exists b r, match_whitespace s = Ok (b, r).
Proof.
  intros s l D O. destruct (match_whitespace s) as [[b r]| | |] eqn:E; [eauto|destruct (whitespace_none _ E O)| |]; exfalso;
    unfold match_whitespace in E; destruct (space_chain s) as (bs & C & _); destruct (division_chain _ _ _ C _ D) as (l' & _ & D');
    pose proof (block_division _ _ D') as B.
  - destruct (skip_block _) as [[m u]| | |] eqn:K; try discriminate; [|congruence]. cbn [bind fst snd] in E. destruct (wmax _ _); discriminate.
  - destruct (skip_block (snd (skip_space s))) as [[m u]| | |] eqn:K; try discriminate.
    + cbn [bind fst snd] in E. destruct (wmax _ _); discriminate.
    + unfold skip_block in K. destruct (_ && _) in K; [destruct (block_loop _) in K|]; discriminate.
Qed.

Lemma all_fine_white : forall bs l, all_fine (map IWhite bs ++ l) -> all_fine l.
Proof. induction bs as [|b bs IH]; intros l H; [exact H|]. apply IH. exact H. Qed.

Lemma tokenize_complete : forall fuel s l, division s l -> all_fine l -> (length s < fuel)%nat ->
  exists ts, tokenize fuel s = Ok ts /\ tokens_of (map fst ts) l.
Proof.
  induction fuel as [|fuel IH]; intros s l D F Lt; [lia|]. cbn [tokenize]. pose proof D as D0.
  destruct D as [|n s r l W D|k w r l O L D].
  - exists []. split; [reflexivity|constructor].
  - destruct (whitespace_ok _ _ D0 (white_opens _ _ _ W)) as (b & u & E).
    assert (N : next_token s = Ok (TkSpace b, u)). { unfold next_token. rewrite E. reflexivity. }
    destruct (whitespace_sound _ _ _ E) as (bs & B & C & ->). destruct (division_chain _ _ _ C _ D0) as (l' & Q & D').
    rewrite Q in *. assert (Lu : (length u < length s)%nat).
    { destruct C as [|m bs s t u W' C]; [contradiction|]. apply white_shorter in W'. apply chain_shorter in C. lia. }
    destruct (IH u l' D' (all_fine_white _ _ F) ltac:(lia)) as (ts & T & G). rewrite N. cbn [bind fst snd]. rewrite T. cbn [bind].
    eexists. split; [reflexivity|]. cbn [map fst]. now constructor.
  - cbn [all_fine] in F. destruct F as (F & C & A). destruct (next_token_fine k w r l O L D F C A) as (t & N & R). rewrite N. cbn [bind fst snd].
    assert (Lr : (length r < length (w ++ r))%nat).
    { destruct L as (_ & T & _). apply token_nonempty in T. rewrite app_length. destruct w; [contradiction|cbn; lia]. }
    destruct (IH r l D A ltac:(lia)) as (ts & T & G). rewrite T. cbn [bind].
    exists ((t, r) :: ts). split; [|cbn [map fst]; now constructor]. destruct t; try reflexivity. inversion R.
Qed.

(** ** Keywords *)

Fixpoint entries (t : ktrie) : list (list Z * keyword) :=
  match t with
  | KTrie v l =>
    match v with Some k => [([], k)] | None => [] end ++
    flat_map (fun p => map (fun e => (fst p :: fst e, snd e)) (entries (snd p))) l
  end.
Lemma kvertex_in : forall l c v, kvertex l c = Some v -> In (c, v) l.
Proof.
  induction l as [|[c' t] l IH]; intros c v H; [discriminate|]. cbn [kvertex] in H. destruct (c' =? c) eqn:E; [|right; auto].
  apply Z.eqb_eq in E. injection H as ->. subst. now left.
Qed.
Lemma match_keyword_in : forall w t k, match_keyword t w = Some k -> In (w, k) (entries t).
Proof.
  induction w as [|c w IH]; intros [v l] k H; cbn [match_keyword kvalue kverts] in H; cbn [entries]; apply in_or_app.
  - subst v. left. now left.
  - right. destruct (kvertex l c) as [t|] eqn:E; [|discriminate]. apply kvertex_in in E. apply in_flat_map. exists (c, t).
    split; [exact E|]. apply in_map_iff. exists (w, k). split; [reflexivity|]. now apply IH.
Qed.
Definition keyword_eqb (a b : keyword) : bool := if (ltac:(decide equality) : {a = b} + {a <> b}) then true else false.
Lemma keyword_eqb_eq : forall a b, keyword_eqb a b = true <-> a = b.
Proof. intros a b. unfold keyword_eqb. destruct (_ : {a = b} + {a <> b}); split; congruence. Qed.
Definition entry_eqb (a b : list Z * keyword) : bool :=
  (if list_eq_dec Z.eq_dec (fst a) (fst b) then true else false) && keyword_eqb (snd a) (snd b).
Lemma entry_eqb_eq : forall a b, entry_eqb a b = true <-> a = b.
Proof.
  intros [w k] [w' k']. unfold entry_eqb. cbn [fst snd]. rewrite andb_true_iff, keyword_eqb_eq.
  destruct (list_eq_dec Z.eq_dec w w'); split; intro H; try (destruct H; congruence); injection H as -> ->; [auto|congruence].
Qed.
Lemma until_nul_none : forall w, ~ In 0 w -> until_nul w = w.
Proof.
  induction w as [|c w IH]; intro N; [reflexivity|]. cbn [until_nul In] in *. replace (c =? 0) with false by lia. f_equal. apply IH. tauto.
Qed.
Lemma keyword_iff : forall w k, ~ In 0 w -> get_keyword w = Some k <-> In (w, k) keyword_table.
Proof.
  intros w k N. unfold get_keyword. rewrite (until_nul_none w N).
  assert (A : match keyword_trie with
              | Some t => forallb (fun e => existsb (entry_eqb e) keyword_table) (entries t) &&
                          forallb (fun e => match match_keyword t (fst e) with Some k => keyword_eqb k (snd e) | None => false end) keyword_table
              | None => false end = true) by (vm_compute; reflexivity).
  destruct keyword_trie as [t|]; [|discriminate]. apply andb_true_iff in A as [A B]. rewrite forallb_forall in A, B. split.
  - intro H. apply match_keyword_in in H. specialize (A _ H). apply existsb_exists in A as (e & I & E). apply entry_eqb_eq in E. now subst.
  - intro H. specialize (B _ H). cbn [fst snd] in B. destruct (match_keyword t w) as [k'|]; [|discriminate]. apply keyword_eqb_eq in B. now subst.
Qed.

(** ** Words *)

Lemma decode_ascii : forall w fuel, ascii w -> (length w <= fuel)%nat -> decode_all fuel w = w.
Proof.
  induction w as [|c w IH]; intros [|fuel] A L; try reflexivity; [cbn in L; lia|]. inversion A; subst. cbn [decode_all].
  assert (E : mbrtoc32 (c :: w) = Some (c, 1%nat)).
  { pose proof (ascii_bytes c ltac:(lia)) as E. unfold c32rtomb in E. unfold mbrtoc32.
    pose proof (mb_first_encode c [c] w E) as M. cbn [app] in M. rewrite M. cbn [length]. replace (c =? 0) with false by lia. reflexivity. }
  rewrite E. cbn [skipn]. f_equal. apply IH; [assumption|cbn in L; lia].
Qed.
Lemma identifier_ascii : forall w, identifier w -> ascii w.
Proof.
  intros w H. destruct (identifier_split _ H) as (a & x & -> & A & X). apply Forall_app.
  split; [apply idchar_ascii; now constructor|apply (seqs_ascii idchar); [apply idchar_ascii|exact X]].
Qed.
Lemma scan_name_all : forall w, identifier w -> ~ In 92 w -> (length w <= 255)%nat -> scan_name w = Ok (w, []).
Proof.
  intros w W N Len. assert (LO : longest_of KName (w ++ []) w).
  { intros w' _ (r & E). apply (f_equal (@length Z)) in E. rewrite !app_length in E. cbn in E. lia. }
  destruct (name_reads w [] W LO N Len ltac:(discriminate)) as (e & t & M). pose proof M as M0. rewrite app_nil_r in M.
  apply name_sound in M0 as (w' & W' & E & L' & _). unfold match_name in M.
  destruct (scan_name w) as [[cs u]| | |] eqn:S; try discriminate. cbn [bind fst snd] in M. destruct (name_bytes cs); [|discriminate].
  injection M as -> ->. rewrite app_nil_r in E, L'. assert (t = []).
  { assert (length w <= length w')%nat by (apply L'; [now constructor|exists []; now rewrite app_nil_r]).
    apply (f_equal (@length Z)) in E. rewrite app_length in E. destruct t; [reflexivity|cbn in E; lia]. }
  subst t. unfold scan_name in S. destruct (scan_nondigit w) as [[c v]| | |] eqn:S1; try discriminate. cbn [bind fst snd] in S.
  destruct (scan_nondigit_sound _ _ _ S1) as (a & A & Q & Va). destruct (name_loop_sound _ _ _ _ _ S) as (x & X & Q2 & _ & Vx).
  rewrite app_nil_r in Q2. subst v. rewrite Q in N. rewrite in_app_iff in N. rewrite (Vx ltac:(tauto)), <- (Va ltac:(tauto)), <- Q. reflexivity.
Qed.
Lemma convert_word : forall w, identifier w -> ~ In 92 w -> (length w <= 255)%nat ->
  convert_name w = Ok (match get_keyword w with Some k => WKeyword k | None => WName w end).
Proof.
  intros w W N Len. unfold convert_name. rewrite decode_ascii; [|now apply identifier_ascii|lia].
  unfold scan_word. rewrite (scan_name_all w W N Len). cbn [bind fst snd]. destruct (get_keyword w); [reflexivity|].
  rewrite name_bytes_ascii by now apply identifier_ascii. reflexivity.
Qed.

(** ** Header names *)

Lemma header_loop_read : forall q n r, ~ In 10 n -> ~ In q n -> q <> 10 -> header_loop q (n ++ q :: r) = Ok (n, r).
Proof.
  induction n as [|c n IH]; intros r N1 N2 Q; cbn [app header_loop]; unfold newline.
  - replace (q =? 10) with false by lia. rewrite Z.eqb_refl. reflexivity.
  - cbn [In] in *. replace (c =? 10) with false by lia. replace (c =? q) with false by lia. rewrite IH by tauto. reflexivity.
Qed.
Lemma header_loop_sound : forall q s n r, header_loop q s = Ok (n, r) -> ~ In 10 n /\ ~ In q n /\ s = n ++ q :: r.
Proof.
  induction s as [|c s IH]; intros n r H; [discriminate|]. cbn [header_loop] in H. unfold newline in H.
  destruct (c =? 10) eqn:E1; [discriminate|]. destruct (c =? q) eqn:E2.
  - apply Z.eqb_eq in E2. subst. injection H as <- <-. auto.
  - destruct (header_loop q s) as [[n' r']| | |] eqn:L; try discriminate. cbn [bind fst snd] in H. injection H as <- <-.
    destruct (IH _ _ eq_refl) as (N1 & N2 & ->). cbn [In]. split; [|split; [|reflexivity]]; intros [K|K]; try lia; contradiction.
Qed.
