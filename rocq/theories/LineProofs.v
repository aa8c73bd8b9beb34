From Coq Require Import ZArith Bool List Lia String.
From Verif Require Import LexModel StrModel TokModel DirModel LineModel LineSpec.
From Verif Require CondModel.
Import ListNotations.
Open Scope Z_scope.

Lemma is_digit_spec c : is_digit c = true <-> decimal_digit c.
Proof. unfold is_digit, decimal_digit. rewrite andb_true_iff, !Z.leb_le. tauto. Qed.

(** *** strtoul *)
Lemma loop_app s : forall acc t v, strtoul_loop acc s = (v, []) -> strtoul_loop acc (s ++ t) = strtoul_loop v t.
Proof.
  induction s as [|c s IH]; cbn; intros acc t v H; [now inversion H|].
  destruct (is_digit c); [now apply IH|inversion H].
Qed.
Lemma loop_decimal s n : decimal s n -> strtoul_loop 0 s = (n, []).
Proof.
  induction 1 as [c D|s n c _ IH D]; apply is_digit_spec in D.
  - cbn [strtoul_loop]. now rewrite D.
  - rewrite (loop_app _ _ _ _ IH). cbn [strtoul_loop]. now rewrite D.
Qed.
Lemma loop_digits s : forall acc v, strtoul_loop acc s = (v, []) -> Forall decimal_digit s.
Proof.
  induction s as [|c s IH]; cbn; intros acc v H; [constructor|].
  destruct (is_digit c) eqn:D; [|inversion H]. constructor; [now apply is_digit_spec|eauto].
Qed.
Lemma digits_decimal s : s <> [] -> Forall decimal_digit s -> exists n, decimal s n.
Proof.
  induction s as [|c s IH] using rev_ind; [congruence|]. intros _ F. apply Forall_app in F as [F D].
  inversion D as [|? ? D' _]; subst. destruct s as [|x s].
  - exists (c - 48). now constructor.
  - destruct IH as [n N]; [discriminate|assumption|]. eexists. econstructor; eassumption.
Qed.
Lemma decimal_digits s n : decimal s n -> s <> [] /\ Forall decimal_digit s.
Proof.
  induction 1 as [c D|s n c _ [N F] D]; split.
  - discriminate.
  - now constructor.
  - now destruct s.
  - apply Forall_app. split; [assumption|]. now constructor.
Qed.
Lemma decimal_nonneg s n : decimal s n -> 0 <= n.
Proof. induction 1 as [c D|s n c _ IH D]; unfold decimal_digit in D; lia. Qed.
Lemma strtoul_decimal s n : decimal s n -> strtoul s = (Z.min n ulong_max, []).
Proof. intros D. unfold strtoul. now rewrite (loop_decimal _ _ D). Qed.
Lemma strtoul_number s n : line_number s n -> strtoul s = (n, []).
Proof. intros [D B]. rewrite (strtoul_decimal _ _ D). f_equal. unfold ulong_max. lia. Qed.

(** *** The file name *)
Lemma file_blanks w r : blanks w -> file_name (w ++ r) = file_name r.
Proof. induction 1 as [|t w (b & ->) _ IH]; [reflexivity|exact IH]. Qed.
Lemma c_string_name f r : ~ In 0 f -> c_string (f ++ 0 :: r) = f.
Proof.
  induction f as [|c f IH]; cbn; intros N; [reflexivity|].
  destruct (c =? 0) eqn:E; [apply Z.eqb_eq in E; exfalso; apply N; left; congruence|]. f_equal. apply IH. tauto.
Qed.
Lemma file_literal t f r : names_file t f -> file_name (TkString t :: r) = Ok (Some f).
Proof. intros (M & B & N). cbn. rewrite M, B. cbn. now rewrite c_string_name. Qed.

Definition moved (here : location) (n : Z) (f : option (list Z)) : location :=
  {| source := match f with Some f => f | None => source here end; line := n |}.
Lemma wrap_number s n : line_number s n -> wrap32 n = n.
Proof. intros [_ B]. unfold wrap32. apply Z.mod_small. lia. Qed.
Lemma process_operands s l n f here : operands (TkNumber s :: l) n f -> process_line (TkNumber s :: l) here = Ok (moved here n f).
Proof.
  intros H. inversion H as [w s' n' w' W N W' E|w s' n' w' t f' w'' W N W' F W'' E]; subst.
  - destruct w as [|x w]; [|injection E as -> _; inversion W as [|? ? (b & K) _]; discriminate K].
    injection E as E1 E2. subst. cbn [app process_line]. rewrite (strtoul_number _ _ N), (wrap_number _ _ N).
    rewrite <- (app_nil_r l), file_blanks by assumption. reflexivity.
  - destruct w as [|x w]; [|injection E as -> _; inversion W as [|? ? (b & K) _]; discriminate K].
    injection E as E1 E2. subst. cbn [app process_line]. rewrite (strtoul_number _ _ N), (wrap_number _ _ N).
    rewrite file_blanks by assumption. now rewrite (file_literal _ _ _ F).
Qed.

(** What is accepted *)
Lemma file_name_inv l x : file_name l = Ok x ->
  (blanks l /\ x = None) \/
  exists w t r, l = w ++ TkString t :: r /\ blanks w /\ s_mode t = Multibyte /\ x = Some (c_string (s_bytes t)).
Proof.
  induction l as [|t l IH]; cbn; intros H; [left; split; [constructor|congruence]|].
  destruct t; try discriminate H.
  - destruct (IH H) as [[B ->]|(w & t & r & -> & B & M & ->)].
    + left. split; [|reflexivity]. constructor; [eauto|exact B].
    + right. exists (TkSpace newline :: w), t, r. repeat split; auto. constructor; [eauto|exact B].
  - destruct (mode_eqb (s_mode l0) Multibyte) eqn:M; [|discriminate H]. right. exists [], l0, l. repeat split.
    + constructor.
    + now destruct (s_mode l0).
    + congruence.
Qed.

(** *** Lines *)
Lemma advance_lines p : forall here q, 0 <= line here < 2 ^ 32 ->
  advance here (p ++ q) (List.length p) = {| source := source here; line := wrap32 (line here + newlines p) |}.
Proof.
  unfold newlines. induction p as [|c p IH]; intros here q B.
  - cbn [app List.length advance count_occ]. change (Z.of_nat 0) with 0. rewrite Z.add_0_r. unfold wrap32.
    rewrite Z.mod_small by assumption. now destruct here, q.
  - cbn [app List.length advance count_occ]. change newline with 10. destruct (Z.eq_dec c 10) as [E|N].
    + apply Z.eqb_eq in E. rewrite E. rewrite IH; cbn [source line]; [|unfold wrap32; apply Z.mod_pos_bound; lia].
      f_equal. unfold wrap32. rewrite Zplus_mod_idemp_l. f_equal. lia.
    + apply Z.eqb_neq in N. rewrite N. now apply IH.
Qed.

(** *** The text of a directive *)
Lemma white_newline r : ~ comment r -> match_whitespace (10 :: r) = Ok (true, r).
Proof.
  intros N. unfold match_whitespace. cbn.
  assert (B : (char_at r 0 =? 47) && (char_at r 1 =? 42) = false).
  { apply not_true_iff_false. rewrite andb_true_iff, !Z.eqb_eq. intros [A B]. apply N.
    destruct r as [|a [|b r]]; [discriminate A|discriminate B|]. cbn in A, B. subst. exists r. now left. }
  assert (L : (char_at r 0 =? 47) && (char_at r 1 =? 47) = false).
  { apply not_true_iff_false. rewrite andb_true_iff, !Z.eqb_eq. intros [A L]. apply N.
    destruct r as [|a [|b r]]; [discriminate A|discriminate L|]. cbn in A, L. subst. exists r. now right. }
  unfold skip_block. rewrite B. cbn. unfold skip_line. rewrite L. reflexivity.
Qed.

Lemma char_zero s : char_at s 0 = match s with c :: _ => c | [] => 0 end.
Proof. now destruct s. Qed.
Lemma universal_newline r : next_universal (10 :: r) = NoMatch.
Proof. reflexivity. Qed.
Lemma digit_not_exponent c : decimal_digit c -> is_exponent c = false.
Proof. unfold decimal_digit, is_exponent. intros D. rewrite !orb_false_iff, !Z.eqb_neq. lia. Qed.
Lemma number_digits s : forall fuel acc r, (List.length s < fuel)%nat -> Forall decimal_digit s ->
  number_loop fuel acc (s ++ 10 :: r) = Ok (acc ++ s, 10 :: r).
Proof.
  induction s as [|c s IH]; intros fuel acc r L F; destruct fuel as [|fuel]; try (cbn in L; lia).
  - cbn. now rewrite app_nil_r.
  - inversion F as [|? ? D F']; subst. cbn [number_loop app]. rewrite char_zero. cbn iota. rewrite (digit_not_exponent _ D).
    apply is_digit_spec in D. rewrite D. cbn [andb orb skipn]. rewrite IH; [|cbn in L; lia|assumption]. now rewrite <- app_assoc.
Qed.
Lemma encode_digits s : Forall decimal_digit s -> encode s = Some s.
Proof.
  induction 1 as [|c s D _ IH]; [reflexivity|]. cbn [encode]. rewrite IH.
  assert (E : c32rtomb c = Some [c]); [|now rewrite E].
  assert (K : In c [48; 49; 50; 51; 52; 53; 54; 55; 56; 57]) by (unfold decimal_digit in D; cbn; lia).
  cbn in K. repeat (destruct K as [<-|K]; [reflexivity|]). destruct K.
Qed.
Lemma number_text s r : s <> [] -> Forall decimal_digit s -> match_number (s ++ 10 :: r) = Ok (s, 10 :: r).
Proof.
  intros N F. destruct s as [|c s]; [congruence|]. inversion F as [|? ? D F']; subst. unfold match_number.
  rewrite char_zero. cbn [app]. pose proof D as D'. apply is_digit_spec in D'. rewrite D'. cbn [firstn skipn].
  rewrite number_digits; [|cbn; rewrite app_length; lia|assumption]. cbn [bind fst snd app].
  now rewrite (encode_digits (c :: s)).
Qed.
Lemma token_number s r : s <> [] -> Forall decimal_digit s -> next_token (s ++ 10 :: r) = Ok (TkNumber s, 10 :: r).
Proof.
  intros N F. unfold next_token. pose proof (number_text s r N F) as M.
  destruct s as [|c s]; [congruence|]. inversion F as [|? ? D F']; subst.
  assert (W : match_whitespace ((c :: s) ++ 10 :: r) = NoMatch).
  { assert (K : In c [48; 49; 50; 51; 52; 53; 54; 55; 56; 57]) by (unfold decimal_digit in D; cbn; lia).
    cbn in K. repeat (destruct K as [<-|K]; [reflexivity|]). destruct K. }
  assert (C : match_char_constant ((c :: s) ++ 10 :: r) = NoMatch).
  { assert (K : In c [48; 49; 50; 51; 52; 53; 54; 55; 56; 57]) by (unfold decimal_digit in D; cbn; lia).
    cbn in K. repeat (destruct K as [<-|K]; [reflexivity|]). destruct K. }
  rewrite W, C, M. reflexivity.
Qed.
Lemma token_newline r : ~ comment r -> next_token (10 :: r) = Ok (TkSpace true, r).
Proof. intros N. unfold next_token. rewrite (white_newline _ N). reflexivity. Qed.
Lemma scan_number s r : s <> [] -> Forall decimal_digit s -> ~ comment r ->
  scan_pp_tokens (s ++ 10 :: r) = Ok ([TkNumber s], r).
Proof.
  intros N F C. unfold scan_pp_tokens. assert (L : exists k, List.length (s ++ 10 :: r) = S k).
  { destruct s; [congruence|]. cbn. eauto. }
  destruct L as [k ->]. cbn [scan_tokens]. rewrite (token_number _ _ N F). cbn [bind fst snd].
  rewrite (token_newline _ C). reflexivity.
Qed.
Lemma skip_blanks w r : Forall blank w -> CondModel.skip_ws (w ++ r) = CondModel.skip_ws r.
Proof. induction 1 as [|c w B _ IH]; [reflexivity|]. cbn. destruct B as [->|[->|[->| ->]]]; exact IH. Qed.
Lemma skip_digit c r : decimal_digit c -> CondModel.skip_ws (c :: r) = c :: r.
Proof.
  intros D. assert (K : In c [48; 49; 50; 51; 52; 53; 54; 55; 56; 57]) by (unfold decimal_digit in D; cbn; lia).
  cbn in K. repeat (destruct K as [<-|K]; [reflexivity|]). destruct K.
Qed.
Lemma match_line w w' r b : Forall blank w -> Forall blank w' -> blank b ->
  CondModel.match_directive (w ++ 35 :: w' ++ text "line" ++ b :: r) = (CondModel.DLine, b :: r).
Proof.
  intros W W' B. unfold CondModel.match_directive. rewrite (skip_blanks _ _ W). cbn [CondModel.skip_ws].
  change (CondModel.is_space 35 && negb (35 =? newline)) with false. cbn iota. cbn [Z.eqb negb].
  change (35 =? 0) with false. change (35 =? 35) with true. cbn [negb]. cbn iota.
  rewrite (skip_blanks _ _ W'). destruct B as [->|[->|[->| ->]]]; reflexivity.
Qed.
