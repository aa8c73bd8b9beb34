(** C70: a directive #line gives the following lines the numbers and the file name it says. *)
From Coq Require Import ZArith Bool List Lia String.
From Verif Require Import LexModel StrModel TokModel DirModel LineModel LineSpec LineProofs.
From Verif Require CondModel.
Import ListNotations.
Open Scope Z_scope.

(** The operands of 6.10.4p3-4, unless white space is left in front of the number *)
Theorem c70_line_partial : forall here l n f, operands l n f -> (exists s r, l = TkNumber s :: r) ->
  process_line l here = Ok {| source := match f with Some f => f | None => source here end; line := n |}.
Proof. intros here l n f H (s & r & ->). now apply process_operands. Qed.

(** What is accepted: a number of digits, and then nothing or, first of all, a character string
    literal *)
Theorem c70_accepted : forall here l h, process_line l here = Ok h ->
  exists s r, l = TkNumber s :: r /\
  (s = [] \/ exists n, decimal s n /\ line h = (Z.min n (2 ^ 64 - 1)) mod 2 ^ 32) /\
  ((blanks r /\ source h = source here) \/
   exists w t r', r = w ++ TkString t :: r' /\ blanks w /\ s_mode t = Multibyte).
Proof.
  intros here l h H. destruct l as [|t r]; [discriminate H|]. destruct t; try discriminate H. exists bytes, r. split; [reflexivity|].
  cbn [process_line] in H. destruct (strtoul bytes) as [v rest] eqn:S. destruct rest; [|discriminate H].
  destruct (file_name r) as [f| | |] eqn:F; try discriminate H. cbn [bind] in H. injection H as <-. split.
  - destruct bytes as [|c s]; [now left|]. right. unfold strtoul in S. destruct (strtoul_loop 0 (c :: s)) as [v' r'] eqn:L.
    injection S as Sv Sr. subst. destruct (digits_decimal (c :: s)) as [n N]; [discriminate|now apply (loop_digits _ _ _ L)|].
    exists n. split; [assumption|]. cbn [line]. rewrite (loop_decimal _ _ N) in L. injection L as <-. reflexivity.
  - cbn [source]. destruct (file_name_inv _ _ F) as [[B ->]|(w & t & r' & E & B & M & _)]; [left; now split|right; eauto 7].
Qed.

(** 6.10.4p1: the string literal shall be a character string literal *)
Theorem c70_constraint : forall here s w t r, blanks w -> s_mode t <> Multibyte ->
  process_line (TkNumber s :: w ++ TkString t :: r) here = Error.
Proof.
  intros here s w t r W M. cbn [process_line]. destruct (strtoul s) as [v rest]. destruct rest; [|reflexivity].
  rewrite (file_blanks _ _ W). cbn [file_name]. now destruct (s_mode t).
Qed.

(** The text of the directive with a number alone, in any white space, unless the next line begins
    with a comment: the text [p] behind it leads to line [n] plus its number of newlines *)
Theorem c70_text_partial : forall here w w' b w'' s n r, Forall blank w -> Forall blank w' -> blank b -> Forall blank w'' ->
  line_number s n -> ~ comment r ->
  exists h, run_line here (w ++ 35 :: w' ++ text "line" ++ b :: w'' ++ s ++ 10 :: r) = Some (Ok (h, r)) /\
  forall p q, r = p ++ q -> n + newlines p < 2 ^ 32 ->
    advance h r (List.length p) = {| source := source here; line := n + newlines p |}.
Proof.
  intros here w w' b w'' s n r W W' B W'' N C. exists {| source := source here; line := n |}. split.
  - unfold run_line, scan_next. rewrite (match_line _ _ _ _ W W' B). cbn iota.
    change (b :: w'' ++ s ++ 10 :: r) with ((b :: w'') ++ s ++ 10 :: r).
    rewrite skip_blanks by now constructor. destruct (decimal_digits s n (proj1 N)) as [NE F].
    assert (K : CondModel.skip_ws (s ++ 10 :: r) = s ++ 10 :: r).
    { destruct s; [congruence|]. inversion F; subst. now apply skip_digit. }
    rewrite K. unfold DirModel.operands. rewrite (scan_number _ _ NE F C). cbn [bind at_newline fst snd].
    rewrite (process_operands s [] n None here) by (apply (op_number [] s n []); [constructor|assumption|constructor]). reflexivity.
  - intros p q -> L. destruct N as [_ N]. rewrite advance_lines by (cbn [line]; lia). cbn [source line]. f_equal.
    unfold wrap32. apply Z.mod_small. unfold newlines in *. lia.
Qed.

(** The same for any directive as the scanner reads it, in particular with a file name: the text
    that the scanner leaves begins on line [n] of the file *)
Theorem c70_scanned : forall here text l b r n f, scan_next true text = Ok (DvLine l, b, r) -> operands l n f ->
  (exists s r', l = TkNumber s :: r') ->
  exists h, run_line here text = Some (Ok (h, r)) /\
  forall p q, r = p ++ q -> n + newlines p < 2 ^ 32 ->
    advance h r (List.length p) = {| source := match f with Some f => f | None => source here end; line := n + newlines p |}.
Proof.
  intros here text l b r n f S O (s & r' & ->). exists (moved here n f). split.
  - unfold run_line. rewrite S, (process_operands _ _ _ _ here O). reflexivity.
  - assert (N : 1 <= n <= 2147483647) by (inversion O as [? ? ? ? _ [_ N] _|? ? ? ? ? ? ? _ [_ N] _ _ _]; exact N).
    intros p q -> L. rewrite advance_lines by (cbn [moved line]; lia). cbn [moved source line]. f_equal.
    unfold wrap32. apply Z.mod_small. unfold newlines in *. lia.
Qed.

(** The hypotheses are met *)
Example c70_ex_scanned : exists l b r, scan_next true (text "#line 42 ""a.c""" ++ [10] ++ text "int x;" ++ [10]) = Ok (DvLine l, b, r) /\
  operands l 42 (Some (text "a.c")) /\ r = text "int x;" ++ [10] /\ exists s r', l = TkNumber s :: r'.
Proof.
  eexists _, _, _. split; [vm_compute; reflexivity|]. split; [|split; [reflexivity|eauto]].
  apply (op_file [] (text "42") 42 [TkSpace false] _ (text "a.c") []).
  - constructor.
  - split; [|lia]. apply (decimal_more [52] 4 50); [|unfold decimal_digit; lia]. apply (decimal_one 52). unfold decimal_digit. lia.
  - repeat constructor. eauto.
  - repeat split. cbn. intuition discriminate.
  - constructor.
Qed.
Example c70_ex_operands : operands [TkNumber (text "0042"); TkSpace false; TkString {| s_mode := Multibyte; s_bytes := text "a.c" ++ [0]; s_count := 4 |}; TkSpace false]
  42 (Some (text "a.c")).
Proof.
  apply (op_file [] (text "0042") 42 [TkSpace false] _ (text "a.c") [TkSpace false]).
  - constructor.
  - split; [|lia]. apply (decimal_more [48; 48; 52] 4 50); [|unfold decimal_digit; lia].
    apply (decimal_more [48; 48] 0 52); [|unfold decimal_digit; lia]. apply (decimal_more [48] 0 48); [|unfold decimal_digit; lia].
    apply (decimal_one 48). unfold decimal_digit. lia.
  - repeat constructor. eauto.
  - repeat split. cbn. intuition discriminate.
  - repeat constructor. eauto.
Qed.
Definition start : location := {| source := text "m.c"; line := 1 |}.
Example c70_ex_text : run_line start (text "# line 7 ""a.c"" " ++ [10] ++ text "int x;" ++ [10]) =
  Some (Ok ({| source := text "a.c"; line := 7 |}, text "int x;" ++ [10])).
Proof. vm_compute. reflexivity. Qed.
(** What 6.10.4p3 leaves undefined is accepted: zero, and numbers from 2^31 on, which wrap around *)
Example c70_ex_undefined : List.map (fun s => run_line start (text s ++ [10])) ["#line 0"; "#line 4294967299"; "#line 99999999999999999999"; "#line 3 ""a"" b"]%string =
  [Some (Ok ({| source := text "m.c"; line := 0 |}, [])); Some (Ok ({| source := text "m.c"; line := 3 |}, []));
   Some (Ok ({| source := text "m.c"; line := 4294967295 |}, [])); Some (Ok ({| source := text "a"; line := 3 |}, []))].
Proof. vm_compute. reflexivity. Qed.

(** A comment at the beginning of the next line is part of the newline token that ends the
    directive: its lines are not counted.  The text [r] is behind [p], which has a newline. *)
Theorem c70_comment_refuted : exists here p r h, run_line here (text "#line 5" ++ [10] ++ p ++ r) = Some (Ok (h, r)) /\
  newlines p = 1 /\ line h = 5.
Proof.
  exists start, (text "// note" ++ [10]), (text "int x;" ++ [10]), {| source := text "m.c"; line := 5 |}. vm_compute. auto.
Qed.
Theorem c70_block_comment_refuted : exists here p r h, run_line here (text "#line 5" ++ [10] ++ p ++ r) = Some (Ok (h, r)) /\
  newlines p = 2 /\ line h = 5.
Proof.
  exists start, (text "/* a" ++ [10] ++ text "   b" ++ [10] ++ text "*/"), (text " int x;" ++ [10]), {| source := text "m.c"; line := 5 |}. vm_compute. auto.
Qed.

(** A comment leaves white space in front of the number: a directive that meets 6.10.4 is rejected *)
Theorem c70_blank_refuted : exists here s l n, scan_next true s = Ok (DvLine l, true, []) /\ operands l n None /\
  process_line l here = Error.
Proof.
  exists start, (text "#line /* n */ 5" ++ [10]), [TkSpace false; TkSpace false; TkNumber (text "5")], 5. split; [vm_compute; reflexivity|]. split; [|reflexivity].
  apply (op_number [TkSpace false; TkSpace false] (text "5") 5 []).
  - repeat constructor; eauto.
  - split; [|lia]. apply (decimal_one 53). unfold decimal_digit. lia.
  - constructor.
Qed.

Print Assumptions c70_line_partial.
Print Assumptions c70_accepted.
Print Assumptions c70_constraint.
Print Assumptions c70_text_partial.
Print Assumptions c70_scanned.
Print Assumptions c70_comment_refuted.
Print Assumptions c70_block_comment_refuted.
Print Assumptions c70_blank_refuted.
