(** The text that the printer writes for data has the meaning asked for. *)

From Coq Require Import ZArith Lia Bool List String.
From Verif Require Import LexModel Bits IrType LayoutModel IrData StaticData StaticProofs AsmModel AsmSpec.
Import ListNotations.
Open Scope Z_scope.
Local Notation length := List.length.

Ltac spell := repeat match goal with |- context [text ?s] => let v := eval vm_compute in (text s) in change (text s) with v end.

(** ** Numbers *)

Lemma in_base_app : forall b x y acc, in_base b acc (x ++ y) = match in_base b acc x with Some a => in_base b a y | None => None end.
Proof.
  induction x as [|c x IH]; intros y acc; cbn [app in_base]; [reflexivity|].
  destruct (digit_value c <? b); [apply IH | reflexivity].
Qed.
Lemma digit_read : forall d, 0 <= d < 16 -> digit_value (digit_char d) = d.
Proof.
  intros d H. unfold digit_value, digit_char, is_digit, within.
  destruct (d <? 10) eqn:E.
  - apply Z.ltb_lt in E. rewrite (proj2 (Z.leb_le 48 (48 + d))), (proj2 (Z.leb_le (48 + d) 57)) by lia. cbn [andb]. lia.
  - apply Z.ltb_ge in E. rewrite (proj2 (Z.leb_gt (87 + d) 57)) by lia. rewrite andb_false_r.
    rewrite (proj2 (Z.leb_le 97 (87 + d))), (proj2 (Z.leb_le (87 + d) 102)) by lia. cbn [andb]. lia.
Qed.
Lemma digits_read : forall b fuel v, 2 <= b <= 16 -> 0 <= v < b ^ Z.of_nat fuel ->
  in_base b 0 (digits b fuel v) = Some v.
Proof.
  intros b fuel. induction fuel as [|fuel IH]; intros v B H.
  - change (b ^ Z.of_nat 0) with 1 in H. replace v with 0 by lia. reflexivity.
  - rewrite Nat2Z.inj_succ, Z.pow_succ_r in H by lia. cbn [digits].
    destruct (v <? b) eqn:E.
    + apply Z.ltb_lt in E. cbn [in_base]. rewrite digit_read by lia. rewrite (proj2 (Z.ltb_lt v b) E). f_equal. lia.
    + apply Z.ltb_ge in E. assert (D := Z.div_mod v b ltac:(lia)). assert (M := Z.mod_pos_bound v b ltac:(lia)).
      rewrite in_base_app, IH.
      * cbn [in_base]. rewrite digit_read by lia. rewrite (proj2 (Z.ltb_lt (v mod b) b)) by lia. f_equal. lia.
      * exact B.
      * split; [apply Z.div_pos; lia | apply Z.div_lt_upper_bound; lia].
Qed.
Lemma digit_char_range : forall d, 0 <= d < 16 -> 48 <= digit_char d <= 57 \/ 97 <= digit_char d <= 102.
Proof. intros d H. unfold digit_char. destruct (d <? 10) eqn:E; [apply Z.ltb_lt in E | apply Z.ltb_ge in E]; lia. Qed.
Definition numeral (c : Z) : Prop := 48 <= c <= 57 \/ 97 <= c <= 102 \/ c = 120.
Lemma digits_numeral : forall b fuel v, 2 <= b <= 16 -> 0 <= v -> Forall numeral (digits b fuel v).
Proof.
  intros b fuel. induction fuel as [|fuel IH]; intros v B H; cbn [digits]; [constructor|].
  assert (M := Z.mod_pos_bound v b ltac:(lia)).
  destruct (v <? b) eqn:E.
  - apply Z.ltb_lt in E. constructor; [|constructor]. destruct (digit_char_range v ltac:(lia)); unfold numeral; lia.
  - apply Forall_app. split; [apply IH; [lia | apply Z.div_pos; lia]|].
    constructor; [|constructor]. destruct (digit_char_range (v mod b) ltac:(lia)); unfold numeral; lia.
Qed.
(** The first digit of a number other than 0 is no 0 *)
Lemma digits_head : forall fuel v, 0 < v < 10 ^ Z.of_nat fuel ->
  exists c l, digits 10 fuel v = c :: l /\ 49 <= c <= 57.
Proof.
  induction fuel as [|fuel IH]; intros v H.
  - change (10 ^ Z.of_nat 0) with 1 in H. lia.
  - rewrite Nat2Z.inj_succ, Z.pow_succ_r in H by lia. cbn [digits]. destruct (v <? 10) eqn:E.
    + apply Z.ltb_lt in E. exists (digit_char v), []. split; [reflexivity|]. unfold digit_char.
      rewrite (proj2 (Z.ltb_lt v 10) E). lia.
    + apply Z.ltb_ge in E. destruct (IH (v / 10)) as (c & l & K & R).
      * split; [apply Z.div_str_pos; lia | apply Z.div_lt_upper_bound; lia].
      * rewrite K. exists c, (l ++ [digit_char (v mod 10)]). split; [reflexivity | exact R].
Qed.
Lemma number_decimal : forall c l, c <> 48 -> number_of (c :: l) = in_base 10 0 (c :: l).
Proof.
  intros c l H. destruct c as [|p|p]; try reflexivity.
  do 6 (destruct p as [p|p|]; try reflexivity). destruct H. reflexivity.
Qed.
Lemma digits_zero : forall fuel, digits 10 (S fuel) 0 = [48].
Proof. reflexivity. Qed.
Lemma unsigned_read : forall v, 0 <= v < 2 ^ 64 -> number_of (print_unsigned v) = Some v.
Proof.
  intros v H. unfold print_unsigned. destruct (Z.eq_dec v 0) as [->|N]; [reflexivity|].
  assert (P : 10 ^ Z.of_nat 20 = 100000000000000000000) by reflexivity.
  assert (P' : 2 ^ 64 = 18446744073709551616) by reflexivity.
  destruct (digits_head 20 v ltac:(lia)) as (c & l & K & R). rewrite K, number_decimal by lia. rewrite <- K.
  apply digits_read; lia.
Qed.
Lemma unsigned_shape : forall v, 0 <= v < 2 ^ 64 ->
  exists c l, print_unsigned v = c :: l /\ 48 <= c <= 57 /\ Forall numeral l.
Proof.
  intros v H. unfold print_unsigned. assert (N := digits_numeral 10 20 v ltac:(lia) ltac:(lia)).
  destruct (Z.eq_dec v 0) as [->|D]; [exists 48, []; repeat split; [lia | lia | constructor]|].
  assert (P : 10 ^ Z.of_nat 20 = 100000000000000000000) by reflexivity.
  assert (P' : 2 ^ 64 = 18446744073709551616) by reflexivity.
  destruct (digits_head 20 v ltac:(lia)) as (c & l & K & R). rewrite K in *. exists c, l.
  split; [reflexivity|]. split; [lia|]. inversion N; assumption.
Qed.
Lemma in_base_zeros : forall b k l, 2 <= b -> in_base b 0 (repeat 48 k ++ l) = in_base b 0 l.
Proof.
  intros b k l B. induction k as [|k IH]; [reflexivity|]. cbn [repeat app in_base].
  change (digit_value 48) with 0. rewrite (proj2 (Z.ltb_lt 0 b)) by lia. replace (b * 0 + 0) with 0 by lia. exact IH.
Qed.
Lemma hex_nonempty : forall w v, print_hex w v <> [].
Proof.
  intros w v H. apply app_eq_nil in H. destruct H as [_ H]. cbn [digits] in H.
  destruct (v <? 16); [discriminate H | apply app_eq_nil in H; destruct H as [_ H]; discriminate H].
Qed.
Lemma hex_read : forall w v, 0 <= v < 2 ^ 64 -> number_of (text "0x" ++ print_hex w v) = Some v.
Proof.
  intros w v H. assert (N := hex_nonempty w v). change (text "0x") with [48; 120]. cbn [app].
  destruct (print_hex w v) as [|c l] eqn:E; [destruct N; reflexivity|].
  cbn [number_of]. rewrite <- E. unfold print_hex. rewrite in_base_zeros by lia.
  apply digits_read; [lia|]. change (16 ^ Z.of_nat 16) with (2 ^ 64). exact H.
Qed.
Lemma hex_numeral : forall w v, 0 <= v -> Forall numeral (print_hex w v).
Proof.
  intros w v H. unfold print_hex. apply Forall_app. split; [|apply digits_numeral; lia].
  apply Forall_forall. intros x X. apply repeat_spec in X. unfold numeral. lia.
Qed.

(** ** Words *)

Lemma numeral_in_name : forall c, numeral c -> in_name c = true.
Proof.
  intros c H. unfold in_name, starts_name, is_digit, within.
  destruct H as [H|[H| ->]]; [| |reflexivity].
  - rewrite (proj2 (Z.leb_le 48 c)), (proj2 (Z.leb_le c 57)) by lia. apply orb_true_r.
  - rewrite (proj2 (Z.leb_le 97 c)), (proj2 (Z.leb_le c 122)) by lia. reflexivity.
Qed.
Lemma in_name_rest : forall l n rest, forallb in_name l = true -> words (InName n) (l ++ rest) = words (InName (n ++ l)) rest.
Proof.
  induction l as [|c l IH]; intros n rest H; cbn [app]; [rewrite app_nil_r; reflexivity|].
  cbn [forallb] in H. apply andb_true_iff in H. destruct H as [C H].
  cbn [words next]. rewrite C. rewrite IH by exact H. rewrite <- app_assoc. cbn [app].
  destruct (words (InName (n ++ c :: l)) rest); reflexivity.
Qed.
Lemma in_number_rest : forall l n rest, forallb in_name l = true -> words (InNumber n) (l ++ rest) = words (InNumber (n ++ l)) rest.
Proof.
  induction l as [|c l IH]; intros n rest H; cbn [app]; [rewrite app_nil_r; reflexivity|].
  cbn [forallb] in H. apply andb_true_iff in H. destruct H as [C H].
  cbn [words next]. rewrite C. rewrite IH by exact H. rewrite <- app_assoc. cbn [app].
  destruct (words (InNumber (n ++ c :: l)) rest); reflexivity.
Qed.

(** A name of the assembler *)
Definition name_ok (n : list Z) : bool :=
  match n with [] => false | c :: l => starts_name c && forallb in_name l end.

Lemma starts_name_opens : forall c, starts_name c = true -> opens c = Some ([], InName [c]).
Proof.
  intros c H. unfold opens. rewrite H. destruct (Z.eqb_spec c 32) as [->|]; [discriminate H|].
  destruct (Z.eqb_spec c 9) as [->|]; [discriminate H|]. reflexivity.
Qed.
Lemma map_nil : forall (o : option (list word)), option_map (app []) o = o.
Proof. intros [o|]; reflexivity. Qed.
Lemma word_name : forall n rest, name_ok n = true -> words Between (n ++ rest) = words (InName n) rest.
Proof.
  intros [|c l] rest H; [discriminate H|]. cbn [name_ok] in H. apply andb_true_iff in H. destruct H as [C H].
  cbn [app words next]. rewrite (starts_name_opens c C). rewrite map_nil. apply (in_name_rest l [c] rest H).
Qed.
Lemma digit_opens : forall c, 48 <= c <= 57 -> opens c = Some ([], InNumber [c]).
Proof.
  intros c H. unfold opens, starts_name, is_digit, within.
  assert (E : c = 48 \/ c = 49 \/ c = 50 \/ c = 51 \/ c = 52 \/ c = 53 \/ c = 54 \/ c = 55 \/ c = 56 \/ c = 57) by lia.
  decompose [or] E; subst c; reflexivity.
Qed.
Lemma numerals_name : forall l, Forall numeral l -> forallb in_name l = true.
Proof. intros l H. apply forallb_forall. intros x X. apply numeral_in_name. rewrite Forall_forall in H. exact (H x X). Qed.
(** A text that is read as a number *)
Definition reads_as (t : list Z) (v : Z) : Prop :=
  (exists c l, t = c :: l /\ 48 <= c <= 57 /\ Forall numeral l) /\ number_of t = Some v.
Lemma unsigned_reads : forall v, 0 <= v < 2 ^ 64 -> reads_as (print_unsigned v) v.
Proof. intros v H. split; [apply unsigned_shape | apply unsigned_read]; exact H. Qed.
Lemma hex_reads : forall w v, 0 <= v < 2 ^ 64 -> reads_as (text "0x" ++ print_hex w v) v.
Proof.
  intros w v H. split; [|apply hex_read; exact H]. exists 48, (120 :: print_hex w v). split; [reflexivity|]. split; [lia|].
  constructor; [right; right; reflexivity | apply hex_numeral; lia].
Qed.
Lemma word_number : forall t v rest, reads_as t v -> words Between (t ++ rest) = words (InNumber t) rest.
Proof.
  intros t v rest ((c & l & -> & C & L) & _). cbn [app words next]. rewrite (digit_opens c C), map_nil.
  apply (in_number_rest l [c] rest). apply numerals_name. exact L.
Qed.
(** The word is over at a character that is not of a name *)
Lemma number_then : forall t v c rest w m, reads_as t v -> in_name c = false -> opens c = Some (w, m) ->
  words (InNumber t) (c :: rest) = option_map (app (Number v :: w)) (words m rest).
Proof.
  intros t v c rest w m (_ & R) C O. cbn [words next]. rewrite C. unfold number_word. rewrite R. cbn [option_map].
  rewrite O. reflexivity.
Qed.
Lemma number_end : forall t v, reads_as t v -> words (InNumber t) [] = Some [Number v].
Proof. intros t v (_ & R). cbn [words ends]. unfold number_word. rewrite R. reflexivity. Qed.
Lemma name_then : forall n c rest w m, in_name c = false -> opens c = Some (w, m) ->
  words (InName n) (c :: rest) = option_map (app (Name n :: w)) (words m rest).
Proof. intros n c rest w m C O. cbn [words next]. rewrite C, O. reflexivity. Qed.

(** ** String literals *)

Lemma octal_over : forall b v l, words (InOctal b 3 v) l = words (InString (b ++ [v mod 256])) l.
Proof.
  intros b v [|c l]; [reflexivity|]. cbn [words next]. replace (is_octal c && (3 <? 3)%nat) with false by (destruct (is_octal c); reflexivity).
  reflexivity.
Qed.
Lemma octal_digit : forall d, 0 <= d < 8 -> is_octal (48 + d) = true.
Proof. intros d H. unfold is_octal, within. rewrite (proj2 (Z.leb_le _ _)), (proj2 (Z.leb_le _ _)) by lia. reflexivity. Qed.
Lemma octal_read : forall b c l, 0 <= c < 256 ->
  words (InString b) (92 :: print_octal c ++ l) = words (InString (b ++ [c])) l.
Proof.
  intros b c l H. unfold print_octal. cbn [app words next in_string Z.eqb Pos.eqb].
  assert (A : 0 <= c / 64 < 4) by (split; [apply Z.div_pos; lia | apply Z.div_lt_upper_bound; lia]).
  assert (B := Z.mod_pos_bound (c / 8) 8 ltac:(lia)). assert (C := Z.mod_pos_bound c 8 ltac:(lia)).
  do 3 (rewrite octal_digit by lia; rewrite ?map_nil; cbn [andb Nat.ltb Nat.leb words next]).
  rewrite ?map_nil, octal_over.
  f_equal. f_equal. f_equal. f_equal. rewrite Z.mod_small by
    (assert (D := Z.div_mod c 8 ltac:(lia)); assert (E := Z.div_mod (c / 8) 8 ltac:(lia)); rewrite Z.div_div in E by lia; lia).
  assert (D := Z.div_mod c 8 ltac:(lia)). assert (E := Z.div_mod (c / 8) 8 ltac:(lia)). rewrite Z.div_div in E by lia.
  change (8 * 8) with 64 in E. lia.
Qed.
Section Print.
Variable isprint : Z -> bool.

Lemma string_char_read : forall b c l, 0 <= c < 256 ->
  words (InString b) (string_char isprint c ++ l) = words (InString (b ++ [c])) l.
Proof.
  intros b c l H. unfold string_char.
  destruct (Z.eqb_spec c 0) as [->|]; [exact (octal_read b 0 l ltac:(lia))|].
  destruct (Z.eqb_spec c 34) as [->|N34]; [spell; cbn; destruct (words _ l); reflexivity|].
  destruct (Z.eqb_spec c 92) as [->|N92]; [spell; cbn; destruct (words _ l); reflexivity|].
  destruct (Z.eqb_spec c 7) as [->|]; [exact (octal_read b 7 l ltac:(lia))|].
  destruct (Z.eqb_spec c 8) as [->|]; [spell; cbn; destruct (words _ l); reflexivity|].
  destruct (Z.eqb_spec c 9) as [->|]; [spell; cbn; destruct (words _ l); reflexivity|].
  destruct (Z.eqb_spec c 10) as [->|]; [spell; cbn; destruct (words _ l); reflexivity|].
  destruct (Z.eqb_spec c 11) as [->|]; [exact (octal_read b 11 l ltac:(lia))|].
  destruct (Z.eqb_spec c 12) as [->|]; [spell; cbn; destruct (words _ l); reflexivity|].
  destruct (Z.eqb_spec c 13) as [->|]; [spell; cbn; destruct (words _ l); reflexivity|].
  destruct (isprint c).
  - cbn [app words next]. unfold in_string. rewrite (proj2 (Z.eqb_neq c 34) N34), (proj2 (Z.eqb_neq c 92) N92).
    apply map_nil.
  - exact (octal_read b c l H).
Qed.
Lemma string_read : forall t b, Forall (fun c => 0 <= c < 256) t ->
  words (InString b) (flat_map (string_char isprint) t ++ [34]) = Some [Bytes (b ++ t)].
Proof.
  induction t as [|c t IH]; intros b H.
  - cbn. rewrite app_nil_r. reflexivity.
  - inversion H; subst. cbn [flat_map]. rewrite <- app_assoc, string_char_read by assumption.
    rewrite IH by assumption. rewrite <- app_assoc. reflexivity.
Qed.
Lemma string_char_line : forall c, 0 <= c < 256 -> ~ In 10 (string_char isprint c).
Proof.
  intros c H. unfold string_char.
  assert (O : forall c, 0 <= c < 256 -> ~ In 10 (92 :: print_octal c)).
  { clear c H. intros c H. unfold print_octal. cbn [In].
    assert (A : 0 <= c / 64) by (apply Z.div_pos; lia).
    assert (B := Z.mod_pos_bound (c / 8) 8 ltac:(lia)). assert (C := Z.mod_pos_bound c 8 ltac:(lia)). lia. }
  destruct (c =? 0); [exact (O 0 ltac:(lia))|].
  destruct (c =? 34); [spell; cbn; lia|]. destruct (c =? 92); [spell; cbn; lia|].
  destruct (c =? 7); [exact (O 7 ltac:(lia))|].
  destruct (c =? 8); [spell; cbn; lia|]. destruct (c =? 9); [spell; cbn; lia|].
  destruct (Z.eqb_spec c 10); [spell; cbn; lia|].
  destruct (c =? 11); [exact (O 11 ltac:(lia))|].
  destruct (c =? 12); [spell; cbn; lia|]. destruct (c =? 13); [spell; cbn; lia|].
  destruct (isprint c); [cbn [In]; lia | exact (O c H)].
Qed.

(** ** Lines *)

Lemma lines_newline : forall x l y, lines l (x ++ 10 :: y) = lines l x ++ lines [] y.
Proof.
  induction x as [|c x IH]; intros l y; [reflexivity|]. cbn [app].
  destruct (Z.eq_dec c 10) as [->|N]; [cbn [lines]; rewrite IH; reflexivity|].
  assert (E : forall z, lines l (c :: z) = lines (l ++ [c]) z).
  { intros z. destruct c as [|p|p]; try reflexivity. do 4 (destruct p as [p|p|]; try reflexivity). destruct N. reflexivity. }
  rewrite !E. apply IH.
Qed.
Lemma lines_one : forall x l, ~ In 10 x -> lines l x = [l ++ x].
Proof.
  induction x as [|c x IH]; intros l H; [rewrite app_nil_r; reflexivity|].
  assert (N : c <> 10) by (intros ->; apply H; left; reflexivity).
  assert (E : lines l (c :: x) = lines (l ++ [c]) x).
  { destruct c as [|p|p]; try reflexivity. do 4 (destruct p as [p|p|]; try reflexivity). destruct N. reflexivity. }
  rewrite E, IH by (intros K; apply H; right; exact K). rewrite <- app_assoc. reflexivity.
Qed.
Definition both {A} (a b : option (list A)) : option (list A) :=
  match a, b with Some a, Some b => Some (a ++ b) | _, _ => None end.
Lemma both_assoc : forall A (a b c : option (list A)), both (both a b) c = both a (both b c).
Proof. intros A [a|] [b|] [c|]; try reflexivity. cbn. rewrite app_assoc. reflexivity. Qed.
Lemma meanings_app : forall a b, meanings (a ++ b) = both (meanings a) (meanings b).
Proof.
  induction a as [|l a IH]; intros b; cbn [app meanings].
  - destruct (meanings b); reflexivity.
  - rewrite IH. destruct (words Between l) as [w|]; [|reflexivity]. destruct (line_meaning w) as [s|]; [|reflexivity].
    destruct (meanings a) as [x|]; [|reflexivity]. destruct (meanings b) as [y|]; [|reflexivity]. cbn. rewrite app_assoc. reflexivity.
Qed.
(** Lines that follow a text, each after a newline *)
Definition follow (ls : list (list Z)) : list Z := flat_map (cons 10) ls.
Lemma meaning_follow : forall ls x, Forall (fun l => ~ In 10 l) ls -> meaning (x ++ follow ls) = both (meaning x) (meanings ls).
Proof.
  induction ls as [|l ls IH]; intros x H.
  - cbn [follow flat_map meanings]. rewrite app_nil_r. destruct (meaning x); cbn; [rewrite app_nil_r|]; reflexivity.
  - inversion H; subst. unfold follow. cbn [flat_map]. fold (follow ls).
    replace (x ++ (10 :: l) ++ follow ls) with ((x ++ 10 :: l) ++ follow ls) by (rewrite <- app_assoc; reflexivity).
    rewrite IH by assumption. unfold meaning at 1. rewrite lines_newline, meanings_app, (lines_one l []) by assumption.
    rewrite both_assoc. f_equal. cbn [app]. rewrite <- meanings_app. reflexivity.
Qed.

(** The calls [c] print the lines [ls] on a text that is not empty *)
Definition prints (c : list call) (ls : list (list Z)) : Prop :=
  forall g, g_empty g = false -> exists g', run isprint c g = Some g' /\ g_empty g' = false /\
    g_out g' = g_out g ++ follow ls.
Lemma run_app : forall a b g, run isprint (a ++ b) g = match run isprint a g with Some g => run isprint b g | None => None end.
Proof.
  induction a as [|c a IH]; intros b g; [reflexivity|]. cbn [app run]. destruct (step isprint c g); [apply IH | reflexivity].
Qed.
Lemma prints_nil : prints [] [].
Proof. intros g E. exists g. repeat split; [exact E|]. cbn. rewrite app_nil_r. reflexivity. Qed.
Lemma follow_app : forall a b, follow (a ++ b) = follow a ++ follow b.
Proof. intros a b. unfold follow. rewrite !flat_map_concat_map, map_app, concat_app. reflexivity. Qed.
Lemma prints_app : forall a b x y, prints a x -> prints b y -> prints (a ++ b) (x ++ y).
Proof.
  intros a b x y A B g E. destruct (A g E) as (g1 & R1 & E1 & O1). destruct (B g1 E1) as (g2 & R2 & E2 & O2).
  exists g2. rewrite run_app, R1. repeat split; [exact R2 | exact E2|]. rewrite O2, O1, follow_app, app_assoc. reflexivity.
Qed.
Lemma prints_flat : forall A (f : A -> list call) (h : A -> list (list Z)) l, (forall x, In x l -> prints (f x) (h x)) ->
  prints (flat_map f l) (flat_map h l).
Proof.
  intros A f h l H. induction l as [|x l IH]; [exact prints_nil|]. cbn [flat_map].
  apply prints_app; [apply H; left; reflexivity | apply IH; intros y Y; apply H; right; exact Y].
Qed.

(** Arguments, and the calls that start a line *)
Fixpoint arguments_text (k : nat) (l : list (list Z)) : list Z :=
  match l with [] => [] | t :: l => (if (0 <? k)%nat then text ", " else text " ") ++ t ++ arguments_text (S k) l end.
Lemma run_arguments : forall l g, exists g', run isprint (map CArg l) g = Some g' /\ g_empty g' = g_empty g /\
  g_out g' = g_out g ++ arguments_text (g_arguments g) l.
Proof.
  induction l as [|t l IH]; intros g.
  - exists g. repeat split. cbn. rewrite app_nil_r. reflexivity.
  - cbn [map run step]. destruct (IH (put t (separator g))) as (g' & R & E & O). exists g'. split; [exact R|]. split; [exact E|].
    rewrite O. cbn [put separator g_out g_arguments arguments_text]. rewrite <- !app_assoc. reflexivity.
Qed.
Lemma run_start : forall c L g l, g_empty g = false -> step isprint c g = Some (clear (put L (start g))) ->
  exists g', run isprint (c :: map CArg l) g = Some g' /\ g_empty g' = false /\ g_out g' = g_out g ++ follow [L ++ arguments_text 0 l].
Proof.
  intros c L g l E S. cbn [run]. rewrite S. destruct (run_arguments l (clear (put L (start g)))) as (g' & R & E' & O).
  exists g'. split; [exact R|]. split; [exact E'|]. rewrite O. cbn [clear put start g_out g_arguments]. rewrite E.
  unfold follow. cbn [flat_map]. rewrite app_nil_r, <- !app_assoc. reflexivity.
Qed.
Lemma prints_raw : forall w l, prints (CRaw w :: map CArg l) [indentation ++ directive w ++ arguments_text 0 l].
Proof. intros w l g E. rewrite (app_assoc indentation). exact (run_start (CRaw w) _ g l E eq_refl). Qed.
Lemma prints_instr : forall t l, prints (CInstr t :: map CArg l) [indentation ++ t ++ arguments_text 0 l].
Proof. intros t l g E. rewrite (app_assoc indentation). exact (run_start (CInstr t) _ g l E eq_refl). Qed.
Lemma prints_zero : forall n, prints [CZero n] [indentation ++ text ".zero " ++ print_unsigned n].
Proof.
  intros n g E. destruct (run_start (CZero n) _ g [] E eq_refl) as (g' & R & E' & O). exists g'. split; [exact R|]. split; [exact E'|].
  rewrite O. cbn [arguments_text]. rewrite app_nil_r. reflexivity.
Qed.
Lemma prints_label : forall t, prints [CLabel t] [t ++ [58]].
Proof.
  intros t g E. eexists. cbn [run step]. split; [reflexivity|]. split; [reflexivity|]. cbn [put start g_out]. rewrite E.
  unfold follow. cbn [flat_map]. rewrite app_nil_r, <- app_assoc. reflexivity.
Qed.
Lemma prints_section : forall t, prints [CSection t] [text ".section " ++ t].
Proof.
  intros t g E. eexists. cbn [run step]. split; [reflexivity|]. split; [reflexivity|]. cbn [put start g_out]. rewrite E.
  unfold follow. cbn [flat_map]. rewrite app_nil_r, <- app_assoc. reflexivity.
Qed.
Lemma prints_newline : prints [CNewline] [[]].
Proof. intros g E. eexists. cbn [run step]. split; [reflexivity|]. split; [exact E|]. reflexivity. Qed.
Lemma prints_close : prints [CClose] [[]].
Proof. intros g E. eexists. cbn [run step]. split; [reflexivity|]. split; [exact E|]. reflexivity. Qed.
Lemma prints_string : forall w t, prints [CRaw w; CString t]
  [indentation ++ directive w ++ text " " ++ 34 :: flat_map (string_char isprint) t ++ [34]].
Proof.
  intros w t g E. eexists. cbn [run step]. split; [reflexivity|]. split; [reflexivity|].
  cbn [put separator clear start g_out g_arguments]. rewrite E. unfold follow. cbn [flat_map Nat.ltb Nat.leb].
  rewrite app_nil_r, <- !app_assoc. reflexivity.
Qed.
End Print.
