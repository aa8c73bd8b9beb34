(** The lines printed for objects and string literals, and where they are placed. *)

From Coq Require Import ZArith Lia Bool List String.
From Verif Require Import LexModel Bits IrType LayoutModel IrData StaticData StaticProofs AsmModel AsmSpec AsmProofs.
Import ListNotations.
Open Scope Z_scope.
Local Notation length := List.length.

Ltac plain := unfold indentation; spell; cbn [In app]; lia.

(** ** What is asked for *)

Definition piece_units (p : piece) : list unit_ :=
  match p with
  | PNumber w v => little_endian (size_of w) v
  | PBits bits v => little_endian (Z.to_nat ((bits + 7) / 8)) v
  | PAddress s off => address_of (symbol_name s) off
  | PLongDouble v => little_endian 16 v
  | PBytes b => map Constant b
  | PZeros n => none n
  end.
Definition sym_ok (s : sym) : Prop :=
  match s with SName n => name_ok n = true /\ is_operator n = false | SString id => 0 <= id < 2 ^ 32 end.
Definition piece_ok (p : piece) : Prop :=
  match p with
  | PNumber w _ => w <> WAscii
  | PBits bits _ => 0 <= bits
  | PAddress s off => sym_ok s /\ - 2 ^ 63 <= off < 2 ^ 63
  | PLongDouble _ => True
  | PBytes b => Forall (fun c => 0 <= c < 256) b
  | PZeros n => 0 <= n < 2 ^ 64
  end.
Definition object_units (o : object) : list unit_ := flat_map piece_units (o_pieces o).
Definition object_ok (o : object) : Prop :=
  name_ok (o_name o) = true /\ 0 <= o_align o < 2 ^ 64 /\ (1 < o_align o -> exists k, 0 <= k /\ o_align o = 2 ^ k) /\
  Forall piece_ok (o_pieces o) /\ (o_defined o = false -> Forall (eq (Constant 0)) (object_units o)).
Definition object_section (o : object) : list Z :=
  if o_defined o then (if o_thread o then text ".tdata" else text ".data")
  else (if o_thread o then text ".tbss" else text ".bss").

Definition literal_units (s : literal) : list unit_ :=
  match s_type s with
  | LMultibyte => map Constant (s_units s)
  | LUnicode16 => flat_map (little_endian 2) (s_units s)
  | LUnicode32 => flat_map (little_endian 4) (s_units s)
  end.
Definition unit_bits (t : literal_type) : Z := match t with LMultibyte => 8 | LUnicode16 => 16 | LUnicode32 => 32 end.
Definition literal_ok (s : literal) : Prop :=
  0 <= s_id s < 2 ^ 32 /\ Forall (fun c => 0 <= c < 2 ^ unit_bits (s_type s)) (s_units s).
Definition literal_name (s : literal) : list Z := string_label (s_id s).

(** ** Little endian *)

Lemma little_u : forall n v, little_endian n (u (8 * Z.of_nat n) v) = little_endian n v.
Proof.
  intros n v. unfold little_endian. apply map_ext_in. intros k K. apply in_seq in K. f_equal. unfold u.
  replace (8 * Z.of_nat n) with (8 * Z.of_nat k + 8 * (Z.of_nat n - Z.of_nat k)) by lia.
  assert (P : 256 ^ Z.of_nat k = 2 ^ (8 * Z.of_nat k)) by (change 256 with (2 ^ 8); rewrite <- Z.pow_mul_r by lia; f_equal; lia).
  rewrite P. rewrite Z.pow_add_r by lia.
  assert (A : 0 < 2 ^ (8 * Z.of_nat k)) by (apply Z.pow_pos_nonneg; lia).
  assert (B : 0 < 2 ^ (8 * (Z.of_nat n - Z.of_nat k))) by (apply Z.pow_pos_nonneg; lia).
  rewrite Z.rem_mul_r by lia. rewrite (Z.mul_comm (2 ^ (8 * Z.of_nat k)) (_ mod _)), Z.div_add by lia.
  rewrite Z.div_small by (apply Z.mod_pos_bound; lia).
  rewrite Z.add_0_l. replace (8 * (Z.of_nat n - Z.of_nat k)) with (8 + 8 * (Z.of_nat n - Z.of_nat k - 1)) by lia.
  rewrite Z.pow_add_r by lia. change (2 ^ 8) with 256.
  assert (C : 0 < 2 ^ (8 * (Z.of_nat n - Z.of_nat k - 1))) by (apply Z.pow_pos_nonneg; lia).
  rewrite Z.rem_mul_r by lia. rewrite (Z.mul_comm 256 (_ mod _)), Z.mod_add by lia. apply Z.mod_mod. lia.
Qed.
Lemma little_app : forall j k v, little_endian (j + k) v = little_endian j v ++ little_endian k (v / 256 ^ Z.of_nat j).
Proof.
  intros j k v. unfold little_endian. rewrite seq_app, map_app. f_equal.
  replace (0 + j)%nat with j by lia. rewrite <- (Nat.add_0_r j) at 1.
  assert (S : forall a b n, seq (a + b) n = map (Nat.add a) (seq b n)).
  { intros a b n. revert b. induction n as [|n IH]; intros b; [reflexivity|]. cbn [seq map]. f_equal.
    rewrite <- IH. f_equal. lia. }
  rewrite S, map_map. apply map_ext. intros x. f_equal. rewrite Nat2Z.inj_add, Z.pow_add_r by lia.
  assert (0 < 256 ^ Z.of_nat j) by (apply Z.pow_pos_nonneg; lia). assert (0 < 256 ^ Z.of_nat x) by (apply Z.pow_pos_nonneg; lia).
  rewrite Z.div_div by lia. reflexivity.
Qed.
Lemma little_one : forall v, little_endian 1 v = [Constant (v mod 256)].
Proof. intros v. unfold little_endian. cbn [seq map]. change (256 ^ Z.of_nat 0) with 1. rewrite Z.div_1_r. reflexivity. Qed.
Lemma little_bytes : forall n v, flat_map (fun i => little_endian 1 (Z.shiftr v (8 * Z.of_nat i))) (seq 0 n) = little_endian n v.
Proof.
  intros n v. unfold little_endian at 2. rewrite flat_map_concat_map.
  rewrite (map_ext _ (fun i => [Constant (v / 256 ^ Z.of_nat i mod 256)])).
  - induction (seq 0 n) as [|x l IH]; [reflexivity|]. cbn. rewrite IH. reflexivity.
  - intros i. rewrite little_one, Z.shiftr_div_pow2 by lia. do 4 f_equal.
    change 256 with (2 ^ 8). rewrite <- Z.pow_mul_r by lia. reflexivity.
Qed.

(** ** Lines of numbers *)

Definition more (vs : list Z) : list word := flat_map (fun v => [Mark 44; Number v]) vs.
Lemma more_read : forall ts vs t v k, (0 < k)%nat -> reads_as t v -> Forall2 reads_as ts vs ->
  words (InNumber t) (arguments_text k ts) = Some (Number v :: more vs).
Proof.
  induction ts as [|t' ts IH]; intros vs t v k K R H; inversion H; subst.
  - cbn [arguments_text]. rewrite (number_end t v R). reflexivity.
  - cbn [arguments_text]. rewrite (proj2 (Nat.ltb_lt 0 k) K). change (text ", ") with [44; 32].
    cbn [app]. rewrite (number_then t v 44 _ [Mark 44] Between R eq_refl eq_refl).
    change (words Between (32 :: t' ++ arguments_text (S k) ts)) with (option_map (app []) (words Between (t' ++ arguments_text (S k) ts))).
    rewrite map_nil. rewrite (word_number t' y) by assumption. rewrite (IH l' t' y) by (assumption || lia). reflexivity.
Qed.
Definition spread (vs : list Z) : list word := match vs with [] => [] | v :: vs => Number v :: more vs end.
Lemma indented : forall l, words Between (indentation ++ l) = words Between l.
Proof. intros l. change (indentation ++ l) with (32 :: 32 :: 32 :: 32 :: l). cbn [words next opens Z.eqb Pos.eqb orb]. rewrite !map_nil. reflexivity. Qed.
Lemma numbers_read : forall d ts vs, name_ok d = true -> Forall2 reads_as ts vs ->
  words Between (indentation ++ d ++ arguments_text 0 ts) = Some (Name d :: spread vs).
Proof.
  intros d ts vs D H. rewrite indented, word_name by exact D. inversion H; subst; [reflexivity|].
  cbn [arguments_text Nat.ltb Nat.leb]. change (text " ") with [32]. cbn [app].
  rewrite (name_then d 32 _ [] Between eq_refl eq_refl). rewrite (word_number x y) by assumption.
  rewrite (more_read l l' x y 1) by (assumption || lia). reflexivity.
Qed.
Lemma values_more : forall vs v, values_rest (Plain v) (more vs) = Some (map Plain (v :: vs)).
Proof.
  induction vs as [|w vs IH]; intros v; [reflexivity|]. unfold more. cbn [flat_map app]. fold (more vs).
  cbn [values_rest]. rewrite IH. reflexivity.
Qed.
Lemma values_spread : forall vs, values (spread vs) = Some (map Plain vs).
Proof. intros [|v vs]; [reflexivity|]. cbn [spread values]. apply values_more. Qed.
Lemma units_plain : forall n vs, all_units n (map Plain vs) = Some (flat_map (little_endian n) vs).
Proof. intros n vs. induction vs as [|v vs IH]; [reflexivity|]. cbn [map all_units value_units flat_map]. rewrite IH. reflexivity. Qed.
Lemma directive_size : forall w, w <> WAscii -> data_size (directive w) = Some (size_of w).
Proof. intros [| | | |] H; try reflexivity. destruct H. reflexivity. Qed.
Lemma directive_name : forall w, name_ok (directive w) = true.
Proof. intros [| | | |]; reflexivity. Qed.
Lemma spread_line : forall d vs, line_meaning (Name d :: spread vs) = option_map (fun s => [s]) (directive_meaning d (spread vs)).
Proof. intros d [|v vs]; reflexivity. Qed.
Lemma numbers_line : forall w ts vs, w <> WAscii -> Forall2 reads_as ts vs ->
  meanings [indentation ++ directive w ++ arguments_text 0 ts] = Some [Data (flat_map (little_endian (size_of w)) vs)].
Proof.
  intros w ts vs W H. cbn [meanings]. rewrite (numbers_read _ ts vs (directive_name w) H), spread_line. unfold directive_meaning.
  rewrite (directive_size w W), values_spread, units_plain. reflexivity.
Qed.

(** ** Lines without newlines *)

Notation one_line l := (~ In 10 l).
Lemma one_line_app : forall a b, one_line a -> one_line b -> one_line (a ++ b).
Proof. intros a b A B H. apply in_app_or in H. destruct H; [exact (A H) | exact (B H)]. Qed.
Lemma one_line_name : forall n, name_ok n = true -> one_line n.
Proof.
  intros [|c l] H K; [exact K|]. cbn [name_ok] in H. apply andb_true_iff in H. destruct H as [C H].
  destruct K as [->|K]; [discriminate C|]. rewrite forallb_forall in H. specialize (H 10 K). discriminate H.
Qed.
Lemma one_line_number : forall t v, reads_as t v -> one_line t.
Proof.
  intros t v ((c & l & -> & C & L) & _) [K|K]; [lia|]. rewrite Forall_forall in L. specialize (L 10 K). unfold numeral in L. lia.
Qed.
Lemma one_line_arguments : forall ts k, Forall (fun l => one_line l) ts -> one_line (arguments_text k ts).
Proof.
  induction ts as [|t ts IH]; intros k H; [intros K; exact K|]. inversion H; subst. cbn [arguments_text].
  apply one_line_app; [destruct (0 <? k)%nat; plain|].
  apply one_line_app; [assumption | apply IH; assumption].
Qed.
Lemma one_line_reads : forall ts vs, Forall2 reads_as ts vs -> Forall (fun l => one_line l) ts.
Proof. intros ts vs H. induction H; constructor; [eapply one_line_number; eassumption | assumption]. Qed.
Lemma one_line_indentation : one_line indentation.
Proof. plain. Qed.
Lemma one_line_directive : forall w, one_line (directive w).
Proof. intros w. apply one_line_name, directive_name. Qed.
Lemma numbers_one_line : forall d ts vs, name_ok d = true -> Forall2 reads_as ts vs ->
  Forall (fun l => one_line l) [indentation ++ d ++ arguments_text 0 ts].
Proof.
  intros d ts vs D H. constructor; [|constructor].
  apply one_line_app; [exact one_line_indentation|]. apply one_line_app; [apply one_line_name; exact D|].
  apply one_line_arguments, (one_line_reads ts vs H).
Qed.

(** ** Pieces *)

Section Print.
Variable isprint : Z -> bool.

(** The calls print lines of data [us] *)
Definition says (c : list call) (s : list statement) : Prop :=
  exists ls, prints isprint c ls /\ Forall (fun l => one_line l) ls /\ meanings ls = Some s.
Lemma says_nil : says [] [].
Proof. exists []. split; [apply prints_nil|]. split; [constructor | reflexivity]. Qed.
Lemma says_app : forall a b x y, says a x -> says b y -> says (a ++ b) (x ++ y).
Proof.
  intros a b x y (l & A & N & M) (l' & B & N' & M'). exists (l ++ l'). split; [apply prints_app; assumption|].
  split; [apply Forall_app; split; assumption|]. rewrite meanings_app, M, M'. reflexivity.
Qed.
Lemma says_flat : forall A (f : A -> list call) (h : A -> list statement) l, (forall x, In x l -> says (f x) (h x)) ->
  says (flat_map f l) (flat_map h l).
Proof.
  intros A f h l H. induction l as [|x l IH]; [exact says_nil|]. cbn [flat_map].
  apply says_app; [apply H; left; reflexivity | apply IH; intros y Y; apply H; right; exact Y].
Qed.
Lemma says_numbers : forall w ts vs, w <> WAscii -> Forall2 reads_as ts vs ->
  says (CRaw w :: map CArg ts) [Data (flat_map (little_endian (size_of w)) vs)].
Proof.
  intros w ts vs W H. eexists. split; [apply prints_raw|]. split; [apply (numbers_one_line _ ts vs); [apply directive_name | exact H]|].
  apply numbers_line; assumption.
Qed.
Lemma hex_arg_reads : forall n v, (n <= 8)%nat -> reads_as (text "0x" ++ print_hex (2 * n) (u (8 * Z.of_nat n) v)) (u (8 * Z.of_nat n) v).
Proof.
  intros n v H. apply hex_reads. assert (R := u_range (8 * Z.of_nat n) v ltac:(lia)).
  assert (2 ^ (8 * Z.of_nat n) <= 2 ^ 64) by (apply Z.pow_le_mono_r; lia). lia.
Qed.
Lemma says_hex : forall w v, w <> WAscii -> says [CRaw w; hex_arg (size_of w) v] [Data (little_endian (size_of w) v)].
Proof.
  intros w v W. rewrite <- (app_nil_r (little_endian _ v)). rewrite <- (little_u (size_of w) v).
  apply (says_numbers w [_] [_] W). constructor; [|constructor]. apply hex_arg_reads. destruct w; cbn; lia.
Qed.

Definition piece_statements (p : piece) : list statement :=
  match p with
  | PBits bits v =>
    map (fun i => Data (little_endian 1 (Z.shiftr v (8 * Z.of_nat i)))) (seq 0 (Z.to_nat (bits / 8 + (if bits mod 8 =? 0 then 0 else 1))))
  | p => [Data (piece_units p)]
  end.
Lemma string_label_name : forall id, 0 <= id < 2 ^ 32 -> name_ok (string_label id) = true.
Proof.
  intros id H. unfold string_label, name_ok. change (text "__kefirrt_string_literal") with (95 :: tl (text "__kefirrt_string_literal")).
  cbn [app]. apply andb_true_iff. split; [reflexivity|]. rewrite forallb_app. apply andb_true_iff. split; [reflexivity|].
  apply numerals_name. destruct (unsigned_shape id) as (c & l & -> & C & L); [assert (2 ^ 32 < 2 ^ 64) by reflexivity; lia|].
  constructor; [left; exact C | exact L].
Qed.
Lemma same_true : forall a b, same a b = true <-> a = b.
Proof. intros a b. unfold same. destruct (list_eq_dec Z.eq_dec a b); split; intros; congruence. Qed.
Lemma same_false : forall a b, same a b = false <-> a <> b.
Proof. intros a b. unfold same. destruct (list_eq_dec Z.eq_dec a b); split; intros; congruence. Qed.
Lemma string_label_operator : forall id, is_operator (string_label id) = false.
Proof.
  intros id. unfold is_operator. destruct (existsb _ _) eqn:E; [|reflexivity]. apply existsb_exists in E.
  destruct E as (o & O & S). apply same_true in S. exfalso.
  assert (N : Forall (fun o => hd 0 o <> 95) operators) by (repeat constructor; discriminate).
  rewrite Forall_forall in N. apply (N o O). rewrite <- S. reflexivity.
Qed.
Lemma sym_name : forall s, sym_ok s -> name_ok (symbol_name s) = true /\ is_operator (symbol_name s) = false.
Proof.
  intros [n|id] H; cbn [symbol_name sym_ok] in *; [exact H|]. split; [apply string_label_name; exact H | apply string_label_operator].
Qed.
Lemma name_line : forall n, name_ok n = true -> words Between n = Some [Name n].
Proof. intros n H. rewrite <- (app_nil_r n) at 1. rewrite word_name by exact H. reflexivity. Qed.
Lemma says_address : forall s off, sym_ok s -> - 2 ^ 63 <= off < 2 ^ 63 ->
  says (piece_calls (PAddress s off)) [Data (address_of (symbol_name s) off)].
Proof.
  intros s off H R. destruct (sym_name s H) as [N O]. cbn [piece_calls].
  set (a := if 0 <? off then _ else _). exists [indentation ++ directive WQuad ++ arguments_text 0 [a]].
  split; [apply (prints_raw isprint WQuad [a])|].
  assert (P63 : 2 ^ 63 < 2 ^ 64) by reflexivity.
  assert (W : one_line a /\ exists ws, words Between a = Some (Name (symbol_name s) :: ws) /\ (ws = [] \/ hd (Mark 0) ws <> Mark 58) /\
    values_rest (Symbol (symbol_name s) 0) ws = Some [Symbol (symbol_name s) off]).
  { subst a. destruct (0 <? off) eqn:E; [|destruct (off <? 0) eqn:E'].
    - apply Z.ltb_lt in E. unfold print_signed. rewrite (proj2 (Z.ltb_ge off 0)) by lia.
      assert (U := unsigned_reads off ltac:(lia)). split.
      + apply one_line_app; [apply one_line_name; exact N|]. apply one_line_app; [plain|].
        exact (one_line_number _ off U).
      + rewrite word_name by exact N. change (text " + ") with [32; 43; 32]. cbn [app].
        rewrite (name_then _ 32 _ [] Between eq_refl eq_refl). cbn [words next opens Z.eqb Pos.eqb orb starts_name is_digit within andb Z.leb Z.compare Pos.compare Pos.compare_cont].
        rewrite map_nil. rewrite <- (app_nil_r (print_unsigned off)), (word_number _ off [] U), (number_end _ off U).
        eexists. split; [reflexivity|]. split; [right; discriminate|]. reflexivity.
    - apply Z.ltb_lt in E'. unfold print_signed. rewrite (proj2 (Z.ltb_lt off 0)) by lia.
      assert (U := unsigned_reads (- off) ltac:(lia)). split.
      + apply one_line_app; [apply one_line_name; exact N|]. apply one_line_app; [plain|].
        intros [K|K]; [discriminate K|]. exact (one_line_number _ _ U K).
      + rewrite word_name by exact N. change (text " ") with [32]. cbn [app].
        rewrite (name_then _ 32 _ [] Between eq_refl eq_refl). cbn [words next opens Z.eqb Pos.eqb orb starts_name is_digit within andb Z.leb Z.compare Pos.compare Pos.compare_cont].
        rewrite <- (app_nil_r (print_unsigned (- off))), (word_number _ (- off) [] U), (number_end _ (- off) U).
        eexists. split; [reflexivity|]. split; [right; discriminate|]. cbn [app values_rest plus].
        replace (0 + - - off) with off by lia. reflexivity.
    - apply Z.ltb_ge in E, E'. replace off with 0 by lia. split; [apply one_line_name; exact N|].
      rewrite name_line by exact N. exists []. split; [reflexivity|]. split; [left; reflexivity | reflexivity]. }
  destruct W as (L & ws & W & HD & V). split.
  - constructor; [|constructor]. apply one_line_app; [exact one_line_indentation|]. apply one_line_app; [apply one_line_directive|].
    apply one_line_arguments. constructor; [exact L | constructor].
  - cbn [meanings arguments_text Nat.ltb Nat.leb]. rewrite indented, word_name by apply directive_name.
    change (text " ") with [32]. cbn [app]. rewrite app_nil_r, (name_then _ 32 _ [] Between eq_refl eq_refl), W.
    cbn [option_map app directive]. replace (line_meaning (Name (text ".quad") :: Name (symbol_name s) :: ws))
      with (option_map (fun s => [s]) (directive_meaning (text ".quad") (Name (symbol_name s) :: ws))) by reflexivity.
    unfold directive_meaning. change (data_size (text ".quad")) with (Some 8%nat). cbn [values]. rewrite O, V. reflexivity.
Qed.
Lemma ceil8 : forall bits, 0 <= bits -> bits / 8 + (if bits mod 8 =? 0 then 0 else 1) = (bits + 7) / 8.
Proof.
  intros bits H. assert (D := Z.div_mod bits 8 ltac:(lia)). assert (M := Z.mod_pos_bound bits 8 ltac:(lia)).
  destruct (Z.eqb_spec (bits mod 8) 0) as [E|E].
  - apply Z.div_unique with 7; lia.
  - apply Z.div_unique with (bits mod 8 - 1); lia.
Qed.
Lemma says_piece : forall p, piece_ok p -> says (piece_calls p) (piece_statements p).
Proof.
  intros [w v|bits v|s off|v|b|n] H; cbn [piece_ok] in H.
  - apply says_hex. exact H.
  - cbn [piece_calls piece_statements]. induction (seq 0 _) as [|i l IH]; [exact says_nil|]. cbn [flat_map map].
    apply (says_app _ _ [_] _); [|exact IH]. exact (says_hex WByte _ ltac:(discriminate)).
  - apply says_address; apply H.
  - cbn [piece_statements piece_units]. change 16%nat with (8 + 8)%nat. rewrite little_app.
    assert (F : little_endian 8 v ++ little_endian 8 (v / 256 ^ Z.of_nat 8)
      = flat_map (little_endian 8) [u (8 * Z.of_nat 8) v; u (8 * Z.of_nat 8) (Z.shiftr v 64)]).
    { cbn [flat_map]. rewrite app_nil_r, !little_u, Z.shiftr_div_pow2 by lia. reflexivity. }
    rewrite F. apply (says_numbers WQuad [_; _]); [discriminate|].
    constructor; [apply hex_arg_reads; lia|]. constructor; [apply hex_arg_reads; lia | constructor].
  - cbn [piece_calls piece_statements piece_units]. replace (map Constant b) with (flat_map (little_endian 1) (map (u 8) b)).
    + replace (map (hex_arg 1) b) with (map CArg (map (fun c => text "0x" ++ print_hex 2 (u 8 c)) b)) by (rewrite map_map; reflexivity).
      apply (says_numbers WByte); [discriminate|]. clear H. induction b as [|c b IH]; constructor; [exact (hex_arg_reads 1 c ltac:(lia)) | exact IH].
    + induction H as [|c b C B IH]; [reflexivity|]. cbn [map flat_map]. rewrite IH, little_one. unfold u. rewrite Z.mod_mod by lia.
      rewrite Z.mod_small by exact C. reflexivity.
  - assert (U := unsigned_reads n H). eexists. split; [apply prints_zero|]. split.
    + constructor; [|constructor]. apply one_line_app; [exact one_line_indentation|].
      apply one_line_app; [plain|]. exact (one_line_number _ n U).
    + cbn [meanings]. rewrite indented. change (text ".zero " ++ print_unsigned n) with (text ".zero" ++ 32 :: print_unsigned n).
      rewrite word_name by reflexivity. rewrite (name_then _ 32 _ [] Between eq_refl eq_refl).
      rewrite <- (app_nil_r (print_unsigned n)), (word_number _ n [] U), (number_end _ n U). reflexivity.
Qed.

(** ** Objects and string literals *)

Definition object_statements (o : object) : list statement :=
  (if 1 <? o_align o then [Align (o_align o)] else []) ++ Label (o_name o) :: flat_map piece_statements (o_pieces o).
Lemma says_label : forall n, name_ok n = true -> says [CLabel n] [Label n].
Proof.
  intros n H. eexists. split; [apply prints_label|]. split.
  - constructor; [|constructor]. apply one_line_app; [apply one_line_name; exact H|]. plain.
  - cbn [meanings]. rewrite word_name by exact H. rewrite (name_then _ 58 _ [Mark 58] Between eq_refl eq_refl). reflexivity.
Qed.
Lemma says_section : forall n, name_ok n = true -> says [CSection n] [Section_ n].
Proof.
  intros n H. eexists. split; [apply prints_section|]. split.
  - constructor; [|constructor]. apply one_line_app; [plain | apply one_line_name; exact H].
  - cbn [meanings]. change (text ".section " ++ n) with (text ".section" ++ 32 :: n).
    rewrite word_name by reflexivity. rewrite (name_then _ 32 _ [] Between eq_refl eq_refl), name_line by exact H. reflexivity.
Qed.
Lemma says_object : forall o, object_ok o -> says (object_calls o) (object_statements o).
Proof.
  intros o (N & A & _ & P & _). unfold object_calls, object_statements. apply says_app.
  - destruct (1 <? o_align o); [|exact says_nil]. assert (U := unsigned_reads _ A).
    assert (F : Forall2 reads_as [print_unsigned (o_align o)] [o_align o]) by (constructor; [exact U | constructor]).
    eexists. split; [apply (prints_instr isprint _ [_])|].
    split; [apply (numbers_one_line (text ".align") _ _ eq_refl F)|].
    cbn [meanings]. rewrite (numbers_read (text ".align") _ _ eq_refl F). reflexivity.
  - apply (says_app [CLabel (o_name o)] _ [Label (o_name o)]); [apply says_label; exact N|].
    rewrite <- (app_nil_r (flat_map piece_statements _)). apply says_app.
    + apply says_flat. intros p I. apply says_piece. rewrite Forall_forall in P. exact (P p I).
    + exists [[]]. split; [apply prints_newline|]. split; [constructor; [intros K; exact K | constructor] | reflexivity].
Qed.
Definition literal_statements (s : literal) : list statement := [Label (literal_name s); Data (literal_units s)].
Lemma says_literal : forall s, literal_ok s -> says (literal_calls s) (literal_statements s).
Proof.
  intros s (I & H). unfold literal_calls, literal_statements. apply (says_app [CLabel _] _ [_]); [apply says_label, string_label_name; exact I|].
  assert (P : forall b, 0 < b <= 32 -> Forall (fun c => 0 <= c < 2 ^ b) (s_units s) -> Forall2 reads_as (map print_unsigned (s_units s)) (s_units s)).
  { clear H. intros b B F. assert (2 ^ b <= 2 ^ 64) by (apply Z.pow_le_mono_r; lia). induction F as [|c l C F IH]; [constructor|].
    cbn [map]. constructor; [apply unsigned_reads; lia | exact IH]. }
  unfold literal_units. destruct (s_type s); cbn [unit_bits] in H.
  - eexists. split; [apply prints_string|]. split.
    + constructor; [|constructor]. apply one_line_app; [exact one_line_indentation|]. apply one_line_app; [apply one_line_directive|].
      apply one_line_app; [plain|].
      intros [K|K]; [discriminate K|]. apply in_app_or in K. destruct K as [K|[K|[]]]; [|discriminate K].
      apply in_flat_map in K. destruct K as (c & C & K). rewrite Forall_forall in H. exact (string_char_line isprint c (H c C) K).
    + cbn [meanings]. rewrite indented, word_name by reflexivity. change (text " ") with [32]. cbn [app].
      rewrite (name_then _ 32 _ [] Between eq_refl eq_refl).
      assert (Q : forall l, words Between (34 :: l) = words (InString []) l) by (intros l; cbn; destruct (words (InString []) l); reflexivity).
      rewrite Q, string_read by exact H. reflexivity.
  - rewrite <- (map_map print_unsigned CArg). apply (says_numbers WWord); [discriminate | apply (P 16); [lia | exact H]].
  - rewrite <- (map_map print_unsigned CArg). apply (says_numbers WDouble); [discriminate | apply (P 32); [lia | exact H]].
Qed.

(** ** A module *)

Definition of_storage (thread defined : bool) (l : list object) : list object :=
  filter (fun o => Bool.eqb (o_thread o) thread && Bool.eqb (o_defined o) defined) l.
Definition part {A} (section : list Z) (f : A -> list statement) (l : list A) : list statement :=
  match l with [] => [] | _ => Section_ section :: flat_map f l end.
Definition module_statements (objects : list object) (strings : list literal) : list statement :=
  part (text ".data") object_statements (of_storage false true objects) ++
  part (text ".tdata") object_statements (of_storage true true objects) ++
  part (text ".bss") object_statements (of_storage false false objects) ++
  part (text ".tbss") object_statements (of_storage true false objects) ++
  part (text ".rodata") literal_statements (filter s_public strings).
Lemma says_part : forall A section (f : A -> list call) (h : A -> list statement) l, name_ok section = true ->
  (forall x, In x l -> says (f x) (h x)) ->
  says (match l with [] => [] | x :: r => CSection section :: flat_map f (x :: r) end) (part section h l).
Proof.
  intros A section f h [|x l] N H; [exact says_nil|]. apply (says_app [CSection section] _ [Section_ section]); [apply says_section; exact N|].
  apply says_flat. exact H.
Qed.
Lemma says_storage : forall t d section objects, name_ok section = true -> Forall object_ok objects ->
  says (translate_storage t d section objects) (part section object_statements (of_storage t d objects)).
Proof.
  intros t d section objects N H. apply (says_part _ section object_calls object_statements); [exact N|]. intros o O. apply filter_In in O. rewrite Forall_forall in H.
  apply says_object, H, O.
Qed.
Lemma says_data : forall objects strings, Forall object_ok objects -> Forall literal_ok strings ->
  says (translate_data objects strings) (module_statements objects strings).
Proof.
  intros objects strings O S. unfold translate_data, module_statements.
  repeat (apply says_app; [apply says_storage; [reflexivity | exact O]|]).
  apply (says_part _ (text ".rodata") literal_calls literal_statements); [reflexivity|]. intros s I. apply filter_In in I. rewrite Forall_forall in S. apply says_literal, S, I.
Qed.

(** The first line of an empty text is not preceded by a newline *)
Lemma step_shift : forall c e a o1 o2 g, step isprint c {| g_empty := e; g_arguments := a; g_out := o1 |} = Some g ->
  exists d, g_out g = o1 ++ d /\
    step isprint c {| g_empty := e; g_arguments := a; g_out := o2 |} = Some {| g_empty := g_empty g; g_arguments := g_arguments g; g_out := o2 ++ d |}.
Proof.
  intros c e a o1 o2 g H.
  destruct c; cbn [step] in *; try (destruct (fill_size w); [|discriminate H]); injection H as <-; cbn [put start clear separator g_empty g_arguments g_out];
    eexists; rewrite <- ?app_assoc; (split; [reflexivity|]); unfold put, start, clear, separator; cbn [g_empty g_arguments g_out];
    rewrite <- ?app_assoc; reflexivity.
Qed.
Lemma run_shift : forall c e a o1 o2 g, run isprint c {| g_empty := e; g_arguments := a; g_out := o1 |} = Some g ->
  exists d g', g_out g = o1 ++ d /\ run isprint c {| g_empty := e; g_arguments := a; g_out := o2 |} = Some g' /\ g_out g' = o2 ++ d.
Proof.
  induction c as [|x c IH]; intros e a o1 o2 g H.
  - injection H as <-. exists []. eexists. cbn. rewrite !app_nil_r. split; [reflexivity|]. split; reflexivity.
  - cbn [run] in *. destruct (step isprint x _) as [[e' a' o']|] eqn:E in H; [|discriminate H].
    destruct (step_shift x e a o1 o2 _ E) as (d & D & F). cbn [g_out g_empty g_arguments] in *. rewrite F. subst o'.
    destruct (IH e' a' _ (o2 ++ d) g H) as (d' & g' & D' & R & O). exists (d ++ d'), g'. rewrite !app_assoc. rewrite D', O. auto.
Qed.
Lemma says_text : forall c s g, says c s -> (c = [] \/ exists t c', c = CSection t :: c') ->
  exists g' out, run isprint (c ++ [CClose]) g = Some g' /\ g_out g' = g_out g ++ out /\ meaning out = Some s.
Proof.
  intros c s g (ls & P & N & M) SH.
  assert (Q : exists ls', prints isprint (c ++ [CClose]) ls' /\ Forall (fun l => one_line l) ls' /\ meanings ls' = Some s).
  { exists (ls ++ [[]]). split; [apply prints_app; [exact P | apply prints_close]|].
    split; [apply Forall_app; split; [exact N | constructor; [intros K; exact K | constructor]]|].
    rewrite meanings_app, M. cbn. rewrite app_nil_r. reflexivity. }
  destruct Q as (ls' & P' & N' & M').
  assert (ME : meaning (follow ls') = Some s).
  { change (follow ls') with ([] ++ follow ls'). rewrite meaning_follow by exact N'. rewrite M'. reflexivity. }
  destruct g as [[|] a o].
  - destruct SH as [->|(t & c' & ->)].
    + eexists. exists [10]. split; [reflexivity|]. split; [reflexivity|].
      assert (s = []) as -> by (destruct (P {| g_empty := false; g_arguments := 0; g_out := [] |} eq_refl) as (g' & R & _ & O);
        injection R as <-; cbn in O; destruct ls as [|l ls]; [injection M as <-; reflexivity | discriminate O]).
      reflexivity.
    + destruct (P' {| g_empty := false; g_arguments := a; g_out := o |} eq_refl) as (g' & R & _ & O).
      cbn [app run step put start g_empty g_arguments g_out] in R |- *.
      destruct (run_shift _ _ _ _ ((o ++ []) ++ text ".section " ++ t) _ R) as (d & g2 & D & R2 & O2).
      exists g2, (text ".section " ++ t ++ d). split; [exact R2|]. split; [rewrite O2, <- !app_assoc; reflexivity|].
      rewrite D in O. unfold start in O. cbn [g_out g_empty] in O. rewrite <- !app_assoc in O. apply app_inv_head in O. rewrite <- O in ME.
      cbn [app] in ME. unfold meaning in ME. cbn [lines] in ME. cbn [meanings words ends line_meaning app] in ME.
      destruct (meaning (text ".section " ++ t ++ d)) eqn:X; unfold meaning in X; rewrite X in ME; exact ME.
  - destruct (P' {| g_empty := false; g_arguments := a; g_out := o |} eq_refl) as (g' & R & _ & O).
    exists g', (follow ls'). split; [exact R|]. split; [exact O | exact ME].
Qed.
Lemma data_text : forall objects strings g, Forall object_ok objects -> Forall literal_ok strings ->
  exists g' out, run isprint (translate_data objects strings ++ [CClose]) g = Some g' /\ g_out g' = g_out g ++ out /\
    meaning out = Some (module_statements objects strings).
Proof.
  intros objects strings g O S. apply says_text; [apply says_data; assumption|]. unfold translate_data, translate_storage, translate_strings.
  repeat match goal with |- context [match ?l with [] => [] | _ => _ end] => destruct l; [|right; do 2 eexists; reflexivity] end.
  left. reflexivity.
Qed.
End Print.
