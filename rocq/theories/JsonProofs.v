(** What the JSON writer prints is read back as what was written. *)

From Coq Require Import ZArith Lia Bool List String.
From Verif Require Import LexModel AsmModel JsonModel JsonSpec.
Import ListNotations.
Open Scope Z_scope.
Local Notation length := List.length.

Ltac spell := repeat match goal with |- context [text ?s] => let v := eval vm_compute in (text s) in change (text s) with v end.

(** ** What is written *)

(** A value to write: scalars, and arrays and objects of values *)
Inductive doc := DScalar (c : jcall) | DArray (l : list doc) | DObject (l : list (list (Z * list Z) * doc)).

Section DocInd.
  Variable P : doc -> Prop.
  Hypothesis HS : forall c, P (DScalar c).
  Hypothesis HA : forall l, Forall P l -> P (DArray l).
  Hypothesis HO : forall l, Forall (fun m => P (snd m)) l -> P (DObject l).
  Fixpoint doc_rec' (d : doc) : P d :=
    match d with
    | DScalar c => HS c
    | DArray l => HA l ((fix go l := match l return Forall P l with [] => Forall_nil _ | x :: l => Forall_cons x (doc_rec' x) (go l) end) l)
    | DObject l =>
      HO l ((fix go l := match l return Forall (fun m => P (snd m)) l with
                         | [] => Forall_nil _ | x :: l => Forall_cons x (doc_rec' (snd x)) (go l) end) l)
    end.
End DocInd.

(** The calls that write it *)
Fixpoint calls_of (d : doc) : list jcall :=
  match d with
  | DScalar c => [c]
  | DArray l => ArrayBegin :: flat_map calls_of l ++ [ArrayEnd]
  | DObject l => ObjectBegin :: flat_map (fun m => Key (fst m) :: calls_of (snd m)) l ++ [ObjectEnd]
  end.
Fixpoint depth (d : doc) : nat :=
  match d with
  | DScalar _ => 0
  | DArray l => S (list_max (map depth l))
  | DObject l => S (list_max (map (fun m => depth (snd m)) l))
  end.

(** Strings that JSON can hold unescaped where the writer does not escape *)
Definition string_ok (s : list (Z * list Z)) : Prop :=
  Forall (fun p => snd p = utf8 (fst p) /\ scalar_value (fst p) = true /\
    (32 <= fst p \/ In (fst p) [8; 9; 10; 12; 13])) s.
(** Bytes of ASCII without most controls and without the question mark *)
Definition raw_ok (b : list Z) : Prop := Forall (fun c => 32 <= c < 128 /\ c <> 63 \/ In c [0; 8; 9; 10; 12; 13]) b.
Definition hex_ok (t : list Z) : Prop := Forall (fun c => 32 <= c < 128 /\ c <> 34 /\ c <> 92) t.
Definition scalar_ok (c : jcall) : Prop :=
  match c with
  | Integer v => - 2 ^ 63 <= v < 2 ^ 63
  | UInteger v => 0 <= v < 2 ^ 64
  | Float (Finite _ m) => 0 <= m < 2 ^ 64
  | Float _ => False
  | HexFloat t => hex_ok t
  | String_ s => string_ok s
  | RawString b => raw_ok b
  | Boolean _ | Null => True
  | _ => False
  end.
(** The JSON value of it *)
Definition scalar_json (c : jcall) : json :=
  match c with
  | Integer v | UInteger v => JNumber v 0
  | Float (Finite neg m) => JNumber (if neg then - m else m) (-6)
  | HexFloat t => JString t
  | String_ s => JString (map fst s)
  | RawString b => JString b
  | Boolean b => JBool b
  | _ => JNull
  end.
Fixpoint json_of (d : doc) : json :=
  match d with
  | DScalar c => scalar_json c
  | DArray l => JArray (map json_of l)
  | DObject l => JObject (map (fun m => (map fst (fst m), json_of (snd m))) l)
  end.
Fixpoint doc_ok (d : doc) : Prop :=
  match d with
  | DScalar c => scalar_ok c
  | DArray l => fold_right (fun d p => doc_ok d /\ p) True l
  | DObject l => fold_right (fun m p => string_ok (fst m) /\ doc_ok (snd m) /\ p) True l
  end.

(** ** Tokens of texts *)

(** What may follow a number or a word *)
Definition stops (l : list Z) : Prop := match l with [] => True | c :: _ => number_char c = false /\ letter c = false end.
Definition lexes (x : list Z) (ts : list token) : Prop :=
  forall rest, stops rest -> tokens Between (x ++ rest) = option_map (app ts) (tokens Between rest).
Lemma map_nil : forall (o : option (list token)), option_map (app []) o = o.
Proof. intros [o|]; reflexivity. Qed.

Lemma in_number_rest : forall l n rest, forallb number_char l = true -> tokens (InNumber n) (l ++ rest) = tokens (InNumber (n ++ l)) rest.
Proof.
  induction l as [|c l IH]; intros n rest H; cbn [app]; [rewrite app_nil_r; reflexivity|].
  cbn [forallb] in H. apply andb_true_iff in H. destruct H as [C H].
  cbn [tokens next]. rewrite C. rewrite IH, map_nil by exact H. rewrite <- app_assoc. reflexivity.
Qed.
Lemma number_lexes : forall c l m e, is_digit c || (c =? 45) = true -> forallb number_char l = true -> number_of (c :: l) = Some (m, e) ->
  lexes (c :: l) [TNumber m e].
Proof.
  intros c l m e C L N rest R. cbn [app tokens next].
  assert (O : opens c = Some ([], InNumber [c])).
  { unfold opens. rewrite C. destruct (Z.eqb_spec c 32) as [->|]; [discriminate C|]. destruct (Z.eqb_spec c 9) as [->|]; [discriminate C|].
    destruct (Z.eqb_spec c 10) as [->|]; [discriminate C|]. destruct (Z.eqb_spec c 13) as [->|]; [discriminate C|]. reflexivity. }
  rewrite O, map_nil, in_number_rest by exact L. cbn [app]. unfold number_token in *.
  destruct rest as [|d rest]; cbn [tokens ends].
  - unfold number_token. rewrite N. reflexivity.
  - destruct R as [R _]. cbn [next]. rewrite R. unfold number_token. rewrite N. cbn [option_map after fst snd].
    destruct (opens d) as [[t m']|]; [|reflexivity]. cbn [app]. destruct (tokens m' rest); reflexivity.
Qed.

(** *** Decimal numbers *)
Definition is_decimal (l : list Z) : Prop := Forall (fun c => 48 <= c <= 57) l.
Lemma is_digit_spec : forall c, 48 <= c <= 57 -> is_digit c = true.
Proof. intros c H. unfold is_digit, within. rewrite (proj2 (Z.leb_le _ _)), (proj2 (Z.leb_le _ _)) by lia. reflexivity. Qed.
Lemma take_all : forall d r, is_decimal d -> (match r with [] => True | c :: _ => is_digit c = false end) -> take_digits (d ++ r) = (d, r).
Proof.
  intros d r H R. induction H as [|c d C H IH].
  - destruct r as [|c r]; [reflexivity|]. cbn [app take_digits]. rewrite R. reflexivity.
  - cbn [app take_digits]. rewrite is_digit_spec, IH by exact C. reflexivity.
Qed.
Lemma decimal_app : forall x y acc, decimal acc (x ++ y) = decimal (decimal acc x) y.
Proof. induction x as [|c x IH]; intros y acc; [reflexivity|]. cbn [app decimal]. apply IH. Qed.
Lemma digits_decimal : forall fuel v, 0 <= v < 10 ^ Z.of_nat fuel -> is_decimal (digits 10 fuel v) /\ decimal 0 (digits 10 fuel v) = v.
Proof.
  induction fuel as [|fuel IH]; intros v H.
  - change (10 ^ Z.of_nat 0) with 1 in H. split; [constructor|]. cbn. lia.
  - rewrite Nat2Z.inj_succ, Z.pow_succ_r in H by lia. cbn [digits].
    assert (X : forall d, 0 <= d < 10 -> digit_char d = 48 + d) by (intros d D; unfold digit_char; rewrite (proj2 (Z.ltb_lt d 10)) by lia; reflexivity).
    destruct (v <? 10) eqn:E.
    + apply Z.ltb_lt in E. rewrite X by lia. split; [repeat constructor; lia|]. cbn [decimal]. lia.
    + apply Z.ltb_ge in E. assert (D := Z.div_mod v 10 ltac:(lia)). assert (M := Z.mod_pos_bound v 10 ltac:(lia)).
      destruct (IH (v / 10)) as [A B]; [split; [apply Z.div_pos; lia | apply Z.div_lt_upper_bound; lia]|].
      rewrite X by lia. split; [apply Forall_app; split; [exact A | repeat constructor; lia]|].
      rewrite decimal_app, B. cbn [decimal]. lia.
Qed.
Lemma digits_first : forall fuel v, 0 < v < 10 ^ Z.of_nat fuel -> exists c l, digits 10 fuel v = c :: l /\ c <> 48.
Proof.
  induction fuel as [|fuel IH]; intros v H.
  - change (10 ^ Z.of_nat 0) with 1 in H. lia.
  - rewrite Nat2Z.inj_succ, Z.pow_succ_r in H by lia. cbn [digits]. destruct (v <? 10) eqn:E.
    + apply Z.ltb_lt in E. exists (digit_char v), []. split; [reflexivity|]. unfold digit_char.
      rewrite (proj2 (Z.ltb_lt v 10) E). lia.
    + apply Z.ltb_ge in E. destruct (IH (v / 10)) as (c & l & K & R).
      * split; [apply Z.div_str_pos; lia | apply Z.div_lt_upper_bound; lia].
      * rewrite K. exists c, (l ++ [digit_char (v mod 10)]). split; [reflexivity | exact R].
Qed.
Lemma unsigned_facts : forall v, 0 <= v < 2 ^ 64 ->
  is_decimal (print_unsigned v) /\ decimal 0 (print_unsigned v) = v /\ good_integer (print_unsigned v) = true /\
  exists c l, print_unsigned v = c :: l.
Proof.
  intros v H. unfold print_unsigned. assert (P : 10 ^ Z.of_nat 20 = 100000000000000000000) by reflexivity.
  assert (P' : 2 ^ 64 = 18446744073709551616) by reflexivity.
  destruct (digits_decimal 20 v ltac:(lia)) as [A B]. split; [exact A|]. split; [exact B|].
  destruct (Z.eq_dec v 0) as [->|N]; [split; [reflexivity | do 2 eexists; reflexivity]|].
  destruct (digits_first 20 v ltac:(lia)) as (c & l & K & R). rewrite K. split; [|do 2 eexists; reflexivity].
  destruct l; [reflexivity|]. cbn [good_integer]. rewrite (proj2 (Z.eqb_neq c 48) R). reflexivity.
Qed.
(** A number without exponent is read as its digits *)
Lemma number_read : forall neg d f, is_decimal d -> is_decimal f -> good_integer d = true ->
  number_of ((if neg : bool then [45] else []) ++ d ++ (match f with [] => [] | _ => 46 :: f end))
  = Some ((if neg then -1 else 1) * decimal 0 (d ++ f), - Z.of_nat (length f)).
Proof.
  intros neg d f D F G. destruct d as [|c d]; [discriminate G|].
  assert (C : 48 <= c <= 57) by (inversion D; assumption).
  assert (S : number_of ((if neg then [45] else []) ++ (c :: d) ++ match f with [] => [] | _ => 46 :: f end) =
    let (d', r) := take_digits ((c :: d) ++ match f with [] => [] | _ => 46 :: f end) in
    if good_integer d' then
      let (f', r) := match r with c :: r' => if c =? 46 then let (f, r) := take_digits r' in (Some f, r) else (None, r) | [] => (None, r) end in
      match f', exponent_of r with
      | Some [], _ => None
      | Some f', Some e => Some ((if neg then -1 else 1) * decimal 0 (d' ++ f'), e - Z.of_nat (length f'))
      | None, Some e => Some ((if neg then -1 else 1) * decimal 0 d', e)
      | _, None => None
      end
    else None).
  { destruct neg; cbn [app]; unfold number_of; [reflexivity|]. rewrite (proj2 (Z.eqb_neq c 45)) by lia. reflexivity. }
  rewrite S. rewrite take_all; [|exact D | destruct f; [exact I | reflexivity]]. rewrite G. destruct f as [|x f].
  - cbn [exponent_of]. rewrite app_nil_r. reflexivity.
  - cbn [Z.eqb Pos.eqb]. rewrite <- (app_nil_r (x :: f)) at 1. rewrite (take_all (x :: f) []) by (exact F || exact I).
    cbn [exponent_of]. rewrite Z.sub_0_l. reflexivity.
Qed.
Lemma number_chars : forall neg d f, is_decimal d -> is_decimal f ->
  forallb number_char ((if neg : bool then [45] else []) ++ d ++ (match f with [] => [] | _ => 46 :: f end)) = true.
Proof.
  assert (X : forall d, is_decimal d -> forallb number_char d = true).
  { intros d H. apply forallb_forall. intros c C. unfold is_decimal in H. rewrite Forall_forall in H. unfold number_char. rewrite is_digit_spec by exact (H c C). reflexivity. }
  intros neg d f D F. rewrite !forallb_app, (X d D). destruct neg; destruct f; cbn [app andb forallb]; try reflexivity; exact (X _ F).
Qed.
Lemma number_text_lexes : forall neg d f m e, is_decimal d -> is_decimal f -> good_integer d = true ->
  (if neg : bool then -1 else 1) * decimal 0 (d ++ f) = m -> - Z.of_nat (length f) = e ->
  lexes ((if neg then [45] else []) ++ d ++ (match f with [] => [] | _ => 46 :: f end)) [TNumber m e].
Proof.
  intros neg d f m e D F G M E. assert (N := number_read neg d f D F G). assert (C := number_chars neg d f D F). rewrite M, E in N.
  destruct ((if neg then [45] else []) ++ d ++ match f with [] => [] | _ => 46 :: f end) as [|c l] eqn:T.
  { destruct neg; [discriminate T|]. destruct d; [discriminate G | discriminate T]. }
  cbn [forallb] in C. apply andb_true_iff in C. destruct C as [_ C]. apply number_lexes; [|exact C | exact N].
  destruct neg; [injection T as <- _; reflexivity|]. destruct d as [|x d]; [discriminate G|]. injection T as <- _.
  inversion D; subst. rewrite is_digit_spec by assumption. reflexivity.
Qed.
Lemma six_facts : forall v, 0 <= v < 1000000 -> is_decimal (six v) /\ forall acc, decimal acc (six v) = 1000000 * acc + v.
Proof.
  intros v H. assert (M : forall k, 0 <= v / 10 ^ k mod 10 < 10) by (intros k; apply Z.mod_pos_bound; lia). split.
  - unfold six, is_decimal. cbn [map]. assert (A := M 5). assert (B := M 4). assert (C := M 3). assert (D := M 2). assert (E := M 1). assert (F := M 0).
    repeat constructor; lia.
  - intros acc. unfold six. cbn [map decimal].
    change (10 ^ 5) with 100000. change (10 ^ 4) with 10000. change (10 ^ 3) with 1000. change (10 ^ 2) with 100. change (10 ^ 1) with 10.
    change (10 ^ 0) with 1. rewrite Z.div_1_r.
    assert (D0 := Z.div_mod v 10 ltac:(lia)). assert (D1 := Z.div_mod (v / 10) 10 ltac:(lia)). rewrite Z.div_div in D1 by lia.
    assert (D2 := Z.div_mod (v / 100) 10 ltac:(lia)). rewrite Z.div_div in D2 by lia.
    assert (D3 := Z.div_mod (v / 1000) 10 ltac:(lia)). rewrite Z.div_div in D3 by lia.
    assert (D4 := Z.div_mod (v / 10000) 10 ltac:(lia)). rewrite Z.div_div in D4 by lia.
    change (10 * 10) with 100 in D1. change (100 * 10) with 1000 in D2. change (1000 * 10) with 10000 in D3. change (10000 * 10) with 100000 in D4.
    assert (v / 100000 < 10) by (apply Z.div_lt_upper_bound; lia). assert (0 <= v / 100000) by (apply Z.div_pos; lia).
    rewrite (Z.mod_small (v / 100000) 10) by lia. lia.
Qed.

(** *** Strings *)
Definition appends (x : list Z) (c : Z) : Prop := forall s rest, tokens (InString s) (x ++ rest) = tokens (InString (s ++ [c])) rest.
Lemma string_lexes : forall parts s, Forall2 appends parts s -> lexes (34 :: List.concat parts ++ [34]) [TString s].
Proof.
  intros parts s H rest _.
  assert (X : forall acc, tokens (InString acc) ((List.concat parts ++ [34]) ++ rest) = option_map (app [TString (acc ++ s)]) (tokens Between rest)).
  { induction H as [|x c parts s A H IH]; intros acc.
    - cbn [List.concat app tokens next Z.eqb Pos.eqb]. rewrite app_nil_r. reflexivity.
    - cbn [List.concat]. rewrite <- !app_assoc, A. rewrite app_assoc, IH, <- app_assoc. reflexivity. }
  cbn [app tokens next]. change (opens 34) with (Some ([] : list token, InString [])). cbn iota beta. rewrite map_nil. apply X.
Qed.
Lemma within_spec : forall a b c, a <= c <= b -> within a b c = true.
Proof. intros a b c H. unfold within. rewrite (proj2 (Z.leb_le _ _)), (proj2 (Z.leb_le _ _)) by lia. reflexivity. Qed.
Lemma within_not : forall a b c, c < a \/ b < c -> within a b c = false.
Proof. intros a b c H. unfold within. destruct H; [rewrite (proj2 (Z.leb_gt a c)) by lia; reflexivity | rewrite (proj2 (Z.leb_gt c b)) by lia; apply andb_false_r]. Qed.
Lemma appends_plain : forall c, 32 <= c < 128 -> c <> 34 -> c <> 92 -> appends [c] c.
Proof.
  intros c H A B s rest. cbn [app tokens next]. rewrite (proj2 (Z.eqb_neq c 34) A), (proj2 (Z.eqb_neq c 92) B), within_spec by lia. apply map_nil.
Qed.
Lemma appends_utf8 : forall c, 32 <= c -> scalar_value c = true -> c <> 34 -> c <> 92 -> appends (utf8 c) c.
Proof.
  intros c L S A B. assert (U : c <= 1114111).
  { unfold scalar_value, within in S. apply orb_true_iff in S. destruct S as [S|S]; apply andb_true_iff in S; destruct S as [_ S]; apply Z.leb_le in S; lia. }
  unfold utf8. destruct (Z.ltb_spec c 128); [apply appends_plain; lia|].
  assert (D0 := Z.div_mod c 64 ltac:(lia)). assert (M0 := Z.mod_pos_bound c 64 ltac:(lia)).
  assert (D1 := Z.div_mod (c / 64) 64 ltac:(lia)). assert (M1 := Z.mod_pos_bound (c / 64) 64 ltac:(lia)). rewrite Z.div_div in D1 by lia.
  assert (D2 := Z.div_mod (c / 4096) 64 ltac:(lia)). assert (M2 := Z.mod_pos_bound (c / 4096) 64 ltac:(lia)). rewrite Z.div_div in D2 by lia.
  change (64 * 64) with 4096 in D1. change (4096 * 64) with 262144 in D2.
  assert (ST : forall s x rest, 128 <= x -> tokens (InString s) (x :: rest) =
    (if within 194 223 x then tokens (InSequence s 1 (x - 192) 128) rest
     else if within 224 239 x then tokens (InSequence s 2 (x - 224) 2048) rest
     else if within 240 244 x then tokens (InSequence s 3 (x - 240) 65536) rest else None)).
  { intros s x rest X. cbn [tokens next]. rewrite (proj2 (Z.eqb_neq x 34)), (proj2 (Z.eqb_neq x 92)), (within_not 32 127 x) by lia.
    destruct (within 194 223 x); [apply map_nil|]. destruct (within 224 239 x); [apply map_nil|]. destruct (within 240 244 x); [apply map_nil | reflexivity]. }
  assert (SQ : forall s k v least y rest, 0 <= y < 64 -> tokens (InSequence s (Datatypes.S (Datatypes.S k)) v least) (128 + y :: rest) =
    tokens (InSequence s (Datatypes.S k) (64 * v + y) least) rest).
  { intros s k v least y rest Y. cbn [tokens next]. rewrite within_spec by lia. replace (128 + y - 128) with y by lia. apply map_nil. }
  assert (SE : forall s v least y rest, 0 <= y < 64 -> 64 * v + y = c -> least <= c ->
    tokens (InSequence s 1 v least) (128 + y :: rest) = tokens (InString (s ++ [c])) rest).
  { intros s v least y rest Y E Q. cbn [tokens next]. rewrite within_spec by lia. replace (128 + y - 128) with y by lia. rewrite E, S.
    rewrite (proj2 (Z.leb_le least c) Q). apply map_nil. }
  destruct (Z.ltb_spec c 2048); [|destruct (Z.ltb_spec c 65536)]; intros s rest; cbn [app].
  - assert (2 <= c / 64) by (apply Z.div_le_lower_bound; lia). assert (c / 64 < 32) by (apply Z.div_lt_upper_bound; lia).
    rewrite ST, within_spec by lia. apply SE; lia.
  - assert (0 <= c / 4096) by (apply Z.div_pos; lia). assert (c / 4096 < 16) by (apply Z.div_lt_upper_bound; lia).
    rewrite ST, (within_not 194 223), within_spec by lia. rewrite SQ by lia. apply SE; lia.
  - assert (0 <= c / 262144) by (apply Z.div_pos; lia). assert (c / 262144 < 5) by (apply Z.div_lt_upper_bound; lia).
    rewrite ST, (within_not 194 223), (within_not 224 239), within_spec by lia. rewrite !SQ by lia. apply SE; lia.
Qed.
Ltac appended := intros s rest; spell; cbn; destruct (tokens _ rest); reflexivity.
Lemma string_char_appends : forall p, snd p = utf8 (fst p) -> scalar_value (fst p) = true -> (32 <= fst p \/ In (fst p) [8; 9; 10; 12; 13]) ->
  appends (string_char p) (fst p).
Proof.
  intros [c b] B S K. cbn [fst snd] in *. subst b. unfold string_char.
  destruct (Z.eqb_spec c 34) as [->|N34]; [appended|]. destruct (Z.eqb_spec c 92) as [->|N92]; [appended|].
  destruct (Z.eqb_spec c 47) as [->|]; [appended|]. destruct (Z.eqb_spec c 8) as [->|]; [appended|].
  destruct (Z.eqb_spec c 12) as [->|]; [appended|]. destruct (Z.eqb_spec c 10) as [->|]; [appended|].
  destruct (Z.eqb_spec c 13) as [->|]; [appended|]. destruct (Z.eqb_spec c 9) as [->|]; [appended|].
  assert (32 <= c) by (destruct K as [K|K]; [exact K | cbn [In] in K; lia]).
  destruct (Z.eqb_spec c 7) as [->|]; [lia|]. apply appends_utf8; assumption.
Qed.
Lemma raw_char_appends : forall c, 32 <= c < 128 /\ c <> 63 \/ In c [0; 8; 9; 10; 12; 13] -> appends (raw_char c) c.
Proof.
  intros c K. unfold raw_char.
  destruct (Z.eqb_spec c 34) as [->|N34]; [appended|]. destruct (Z.eqb_spec c 92) as [->|N92]; [appended|].
  destruct (Z.eqb_spec c 47) as [->|]; [appended|]. destruct (Z.eqb_spec c 8) as [->|]; [appended|].
  destruct (Z.eqb_spec c 12) as [->|]; [appended|]. destruct (Z.eqb_spec c 10) as [->|]; [appended|].
  destruct (Z.eqb_spec c 13) as [->|]; [appended|]. destruct (Z.eqb_spec c 9) as [->|]; [appended|].
  destruct (Z.eqb_spec c 0) as [->|]; [appended|]. cbn [In] in K.
  destruct (Z.eqb_spec c 7) as [->|]; [lia|]. destruct (Z.eqb_spec c 11) as [->|]; [lia|]. destruct (Z.eqb_spec c 63) as [->|]; [lia|].
  apply appends_plain; lia.
Qed.
Lemma format_string_lexes : forall s, string_ok s -> lexes (format_string s) [TString (map fst s)].
Proof.
  intros s H. unfold format_string. rewrite flat_map_concat_map. apply string_lexes.
  induction H as [|p s (A & B & C) H IH]; [constructor|]. cbn [map]. constructor; [apply string_char_appends; assumption | exact IH].
Qed.
Lemma raw_string_lexes : forall b, raw_ok b -> lexes (34 :: flat_map raw_char b ++ [34]) [TString b].
Proof.
  intros b H. rewrite flat_map_concat_map. apply string_lexes.
  induction H as [|c b C H IH]; [constructor|]. cbn [map]. constructor; [apply raw_char_appends; exact C | exact IH].
Qed.
Lemma hex_lexes : forall t, hex_ok t -> lexes (34 :: t ++ [34]) [TString t].
Proof.
  intros t H. replace t with (List.concat (map (fun c => [c]) t)) at 1 by (induction t as [|c t IH]; [reflexivity | cbn; f_equal; apply IH; inversion H; assumption]).
  apply string_lexes. induction H as [|c t (C & A & B) H IH]; [constructor|]. cbn [map]. constructor; [apply appends_plain; lia | exact IH].
Qed.

(** *** Words *)
Lemma word_lexes : forall w j, In (w, j) [(text "null", JNull); (text "true", JBool true); (text "false", JBool false)] -> lexes w [TWord j].
Proof.
  intros w j H rest R.
  assert (X : forall n j, word_of n = Some j -> tokens (InWord n) rest = option_map (app [TWord j]) (tokens Between rest)).
  { clear w j H. intros n j W. destruct rest as [|c rest]; cbn [tokens ends]; unfold word_token; [rewrite W; reflexivity|].
    destruct R as [_ R]. cbn [next]. rewrite R. unfold word_token. rewrite W. cbn [option_map after]. destruct (opens c) as [[t m]|]; [|reflexivity].
    cbn [app]. destruct (tokens m rest); reflexivity. }
  destruct H as [H|[H|[H|[]]]]; injection H as <- <-; spell; cbn [app tokens next opens is_digit letter within Z.eqb Pos.eqb orb andb Z.leb Z.compare Pos.compare Pos.compare_cont app];
    rewrite !map_nil; apply X; reflexivity.
Qed.

(** *** Scalars *)
Definition scalar_token (c : jcall) : token :=
  match scalar_json c with JNumber m e => TNumber m e | JString s => TString s | j => TWord j end.
Lemma scalar_lexes : forall c, scalar_ok c -> lexes (scalar_text 46 c) [scalar_token c].
Proof.
  intros c H. destruct c; cbn [scalar_ok] in H; try contradiction; cbn [scalar_text].
  - unfold print_signed. change (2 ^ 63) with 9223372036854775808 in H. change (2 ^ 64) with 18446744073709551616 in *.
    destruct (Z.ltb_spec v 0).
    + destruct (unsigned_facts (- v)) as (A & B & C & _); [change (2 ^ 64) with 18446744073709551616; lia|].
      assert (X := number_text_lexes true (print_unsigned (- v)) [] v 0 A (Forall_nil _) C). rewrite !app_nil_r in X. rewrite B in X.
      apply X; [lia | reflexivity].
    + destruct (unsigned_facts v) as (A & B & C & _); [change (2 ^ 64) with 18446744073709551616; lia|].
      assert (X := number_text_lexes false (print_unsigned v) [] v 0 A (Forall_nil _) C). rewrite !app_nil_r in X. rewrite B in X.
      apply X; [lia | reflexivity].
  - destruct (unsigned_facts v H) as (A & B & C & _).
    assert (X := number_text_lexes false (print_unsigned v) [] v 0 A (Forall_nil _) C). rewrite !app_nil_r in X. rewrite B in X.
    apply X; [lia | reflexivity].
  - destruct d as [neg m| |]; try contradiction. cbn [float_text].
    assert (D := Z.div_mod m 1000000 ltac:(lia)). assert (M := Z.mod_pos_bound m 1000000 ltac:(lia)).
    destruct (unsigned_facts (m / 1000000)) as (A & B & C & _).
    { split; [apply Z.div_pos; lia | apply Z.div_lt_upper_bound; lia]. }
    destruct (six_facts (m mod 1000000) M) as (S & V).
    assert (X := number_text_lexes neg (print_unsigned (m / 1000000)) (six (m mod 1000000)) (if neg then - m else m) (-6) A S C).
    change (match six (m mod 1000000) with [] => [] | _ => 46 :: six (m mod 1000000) end) with (46 :: six (m mod 1000000)) in X.
    apply X; [|reflexivity]. rewrite decimal_app, V, B. destruct neg; lia.
  - apply hex_lexes. exact H.
  - apply format_string_lexes. exact H.
  - apply raw_string_lexes. exact H.
  - apply word_lexes. destruct b; cbn [In]; auto.
  - apply word_lexes. cbn [In]. auto.
Qed.
