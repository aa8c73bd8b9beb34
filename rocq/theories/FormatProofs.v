(** Proofs about [FormatModel]: what is printed is read as the token it was printed for,
    if the character that follows does not go on with it. *)

From Coq Require Import ZArith Bool List String Lia PeanoNat ZifyBool ZifyNat.
From Verif Require Import CTypes LexModel LexCursor PropPunct StrModel StrProofs PropStrPrint TokModel TokSpec TokProofs TokLit TokDivide TokComplete
  FormatModel FormatSpec.
Import ListNotations.
Open Scope Z_scope.
Local Notation length := List.length.
Local Notation starts_with := PropPunct.starts_with.

Definition idc (c : Z) : bool := is_digit c || is_nondigit c.
Definition quotable (q : Z) (w : list Z) : bool :=
  if q =? 34 then existsb (zlist_eqb w) (map text ["L"; "u"; "U"; "u8"]%string)
  else if q =? 39 then existsb (zlist_eqb w) (map text ["L"; "u"; "U"]%string) else false.

(** The character [c] may follow the printed token. *)
Definition after (t : ptok) (c : Z) : bool :=
  match t with
  | TkName w => negb (idc c) && negb (quotable c w)
  | TkNumber w => negb (idc c || (c =? 46)) && negb (is_exponent (last w 0) && is_sign c)
  | TkPunct p =>
    match node the_trie (format_punctuator p) with
    | Some v => match trie_at v c with None => true | Some _ => false end
    | None => false
    end && negb (punct_beq p P_DOT && is_digit c) && negb (punct_beq p P_SLASH && ((c =? 47) || (c =? 42)))
  | _ => true
  end.

(** ** Names *)

Lemma ucn_backslash : forall w, ucn w -> In 92 w.
Proof. intros w [d L D|d L D]; cbn; auto. Qed.
Lemma seq_chars : forall x, seqs idchar x -> ~ In 92 x -> Forall (fun c => idc c = true) x.
Proof.
  intros x X. induction X as [|a x A X IH]; intro N; [constructor|]. rewrite in_app_iff in N.
  apply Forall_app. split; [|apply IH; tauto]. destruct A as [c D|n [c D|w U]].
  - constructor; [|constructor]. apply digit_iff in D. unfold idc. now rewrite D.
  - constructor; [|constructor]. apply nondigit_iff in D. unfold idc. rewrite D. apply orb_true_r.
  - apply ucn_backslash in U. tauto.
Qed.
Lemma name_chars : forall w, identifier w -> ~ In 92 w ->
  exists c x, w = c :: x /\ is_nondigit c = true /\ Forall (fun c => idc c = true) x.
Proof.
  intros w W N. destruct (identifier_split _ W) as (a & x & -> & A & X). rewrite in_app_iff in N.
  destruct A as [c D|u U]; [|apply ucn_backslash in U; tauto]. exists c, x. split; [reflexivity|].
  split; [now apply nondigit_iff|]. apply seq_chars; tauto.
Qed.
Lemma name_loop_reads : forall x fuel acc r, Forall (fun c => idc c = true) x -> idc (char_at r 0) = false -> char_at r 0 <> 92 ->
  (length x < fuel)%nat -> (length acc + length x <= 255)%nat -> name_loop fuel acc (x ++ r) = Ok (acc ++ x, r).
Proof.
  induction x as [|c x IH]; intros [|fuel] acc r X R N L A; try (cbn in L; lia); cbn [name_loop app].
  - unfold scan_digit, scan_nondigit. unfold idc in R. apply orb_false_iff in R as [R1 R2].
    rewrite R1, R2, universal_head by exact N. now rewrite app_nil_r.
  - inversion X as [|? ? C X']; subst. cbn [length] in *.
    assert (Q : scan_digit (c :: x ++ r) = Ok (c, x ++ r)).
    { unfold scan_digit, scan_nondigit. cbn [char_at nth skipn]. unfold idc in C. destruct (is_digit c); [reflexivity|].
      cbn in C. now rewrite C. }
    rewrite Q. unfold max_identifier. replace (length acc <? 255)%nat with true by lia.
    rewrite IH; [now rewrite <- app_assoc|assumption|assumption|assumption|lia|rewrite app_length; cbn; lia].
Qed.

Lemma white_chars : forall c, white_char c -> is_space c = true.
Proof. intros c H. now apply white_iff. Qed.
Lemma idc_range : forall c, idc c = true -> 48 <= c <= 122 /\ c <> 92.
Proof. intros c H. unfold idc, is_digit, is_nondigit in H. lia. Qed.
Lemma nondigit_idc : forall c, is_nondigit c = true -> idc c = true.
Proof. intros c H. unfold idc. rewrite H. apply orb_true_r. Qed.
Lemma not_white : forall c t, is_space c = false -> c <> 47 -> ~ opens_white (c :: t).
Proof. intros c t S N O. apply opens_head in O as [O|O]; [apply white_chars in O; congruence|contradiction]. Qed.
Lemma high_space : forall c, 33 <= c -> is_space c = false.
Proof. intros c H. unfold is_space. lia. Qed.
Lemma no_number : forall s, is_digit (char_at s 0) = false -> ((char_at s 0 =? 46) && is_digit (char_at s 1)) = false -> match_number s = NoMatch.
Proof. intros s A B. unfold match_number. now rewrite A, B. Qed.

Lemma same_word : forall p w q t r, Forall (fun c => idc c = true) p -> Forall (fun c => idc c = true) w -> idc q = false ->
  idc (char_at r 0) = false -> p ++ q :: t = w ++ r -> p = w /\ r = q :: t.
Proof.
  induction p as [|a p IH]; intros [|b w] q t r P W Q R E; cbn [app] in E.
  - auto.
  - injection E as -> _. inversion W; congruence.
  - rewrite <- E in R. inversion P; subst. cbn in R. congruence.
  - injection E as -> E. inversion P; inversion W; subst. destruct (IH w q t r) as [-> ->]; auto.
Qed.
Lemma quotes_apart : forall w r p q, Forall (fun c => idc c = true) w -> w <> [] ->
  (q = 34 /\ In p (map text [""; "u8"; "u"; "U"; "L"]%string)) \/ (q = 39 /\ In p (map text [""; "L"; "u"; "U"]%string)) ->
  idc (char_at r 0) = false -> quotable (char_at r 0) w = false -> ~ starts_with (w ++ r) (p ++ [q]).
Proof.
  intros w r p q W N P R H (t & E). rewrite <- app_assoc in E. cbn [app] in E. symmetry in E.
  assert (PI : Forall (fun c => idc c = true) p /\ idc q = false).
  { destruct P as [[-> P]|[-> P]]; (split; [|reflexivity]); cbn [map In] in P;
      repeat (destruct P as [<-|P]; [repeat constructor|]); destruct P. }
  destruct PI as [PI QI]. destruct (same_word p w q t r PI W QI R E) as [<- ->]. cbn [char_at nth] in H.
  destruct P as [[-> P]|[-> P]]; cbn [map In] in P;
    repeat (destruct P as [<-|P]; [first [contradiction|discriminate H]|]); destruct P.
Qed.

Lemma read_name : forall w r, identifier w -> ~ In 92 w -> (length w <= 255)%nat -> after (TkName w) (char_at r 0) = true ->
  char_at r 0 <> 92 -> next_token (w ++ r) = Ok (TkName w, r).
Proof.
  intros w r W N L A B. cbn [after] in A. apply andb_true_iff in A as [A1 A2]. apply negb_true_iff in A1, A2.
  pose proof (identifier_ascii w W) as AS. destruct (name_chars w W N) as (c & x & -> & C & X).
  pose proof (nondigit_idc c C) as CI. pose proof (idc_range c CI) as CR.
  assert (WI : Forall (fun c => idc c = true) (c :: x)) by (constructor; assumption).
  rewrite next_token_order; [|discriminate|apply not_white; [apply high_space; lia|unfold is_nondigit in C; lia]].
  rewrite char_nomatch by (intros p P; apply quotes_apart; auto; discriminate).
  rewrite no_number; [|cbn; unfold is_digit, is_nondigit in *; lia|cbn [app char_at nth]; unfold is_nondigit in C; lia].
  rewrite string_nomatch by (intros p P; apply quotes_apart; auto; discriminate).
  cbn [map_res bind or_else]. unfold match_name, scan_name, scan_nondigit. cbn [app char_at nth skipn]. rewrite C. cbn [bind fst snd].
  rewrite name_loop_reads; [|exact X|exact A1|exact B|cbn [length]; rewrite app_length; lia|cbn [length] in *; lia].
  cbn [bind fst snd app]. unfold name_bytes. rewrite encode_ascii by exact AS. cbn [option_map]. rewrite until_nul_ascii by exact AS. reflexivity.
Qed.

(** ** Numbers *)

(** The characters of a number and whether the last is an exponent that a sign may follow. *)
Inductive numchars : list Z -> Prop :=
  | ns_nil : numchars []
  | ns_one : forall c x, (idc c || (c =? 46)) = true -> numchars x -> numchars (c :: x)
  | ns_exp : forall e g x, is_exponent e = true -> is_sign g = true -> numchars x -> numchars (e :: g :: x).
Lemma seq_numchars : forall x, seqs numchar x -> ~ In 92 x -> numchars x.
Proof.
  intros x X. induction X as [|a x A X IH]; intro N; [constructor|]. rewrite in_app_iff in N.
  assert (N' : ~ In 92 x) by tauto. destruct A as [a I| |e g E G].
  - assert (F : Forall (fun c => idc c = true) a).
    { rewrite <- (app_nil_r a). apply seq_chars; [apply sq_cons; [exact I|constructor]|rewrite app_nil_r; tauto]. }
    clear I N. induction F as [|c a C F IHa]; [apply IH, N'|]. cbn [app]. apply ns_one; [now rewrite C|exact IHa].
  - apply ns_one; [reflexivity|apply IH, N'].
  - apply ns_exp; [exact E|exact G|apply IH, N'].
Qed.
Lemma exponent_id : forall e, is_exponent e = true -> idc e = true /\ is_sign e = false /\ is_digit e = false.
Proof. intros e H. unfold is_exponent, idc, is_digit, is_nondigit, is_sign in *. lia. Qed.
Lemma numchars_head : forall x, numchars x -> is_sign (char_at x 0) = false.
Proof.
  intros x [|c y C N|e g y E G N]; [reflexivity| |apply exponent_id, E]. cbn. unfold idc, is_digit, is_nondigit, is_sign in *. lia.
Qed.
Lemma number_loop_reads : forall x, numchars x -> forall fuel acc r, (idc (char_at r 0) || (char_at r 0 =? 46)) = false -> char_at r 0 <> 92 ->
  (is_exponent (last (acc ++ x) 0) && is_sign (char_at r 0)) = false -> (length x < fuel)%nat ->
  number_loop fuel acc (x ++ r) = Ok (acc ++ x, r).
Proof.
  intros x X. induction X as [|c x C X IH|e g x E G X IH]; intros [|fuel] acc r R N S L; try (cbn in L; lia).
  - cbn [app number_loop]. rewrite app_nil_r in *. unfold idc in R.
    replace (is_exponent (char_at r 0)) with false by (destruct (is_exponent (char_at r 0)) eqn:Q; [apply exponent_id in Q as [Q _]; unfold idc in Q; rewrite Q in R; discriminate|reflexivity]).
    cbn [andb]. rewrite R, universal_head by exact N. reflexivity.
  - cbn [app number_loop]. cbn [char_at nth skipn]. fold (char_at (x ++ r) 0).
    assert (Q : (is_exponent c && is_sign (char_at (x ++ r) 0)) = false).
    { destruct x as [|d x].
      - cbn [app]. now rewrite last_last in S.
      - pose proof (numchars_head _ X) as H. cbn in H |- *. rewrite H. apply andb_false_r. }
    rewrite Q. unfold idc in C. rewrite C. rewrite IH; [now rewrite <- app_assoc|exact R|exact N| |cbn in L; lia].
    now rewrite <- app_assoc.
  - cbn [app number_loop]. cbn [char_at nth skipn]. rewrite E, G. cbn [andb].
    rewrite IH; [now rewrite <- app_assoc|exact R|exact N| |cbn in L; lia]. now rewrite <- app_assoc.
Qed.

Lemma number_no_quote : forall c t, is_digit c = true \/ c = 46 ->
  match_char_constant (c :: t) = NoMatch /\ match_literal (c :: t) = NoMatch.
Proof.
  intros c t C.
  assert (K : is_digit c = true \/ c = 46 \/ (is_nondigit c = false /\ c <> 34 /\ c <> 39)) by tauto.
  split; [apply char_nomatch|apply string_nomatch]; intros p P; apply first_no_quote; auto; [now right|now apply prefixes_incl|now left].
Qed.
Lemma read_number : forall w r, pp_number w -> ~ In 92 w -> after (TkNumber w) (char_at r 0) = true -> char_at r 0 <> 92 ->
  next_token (w ++ r) = Ok (TkNumber w, r).
Proof.
  intros w r W N A B. cbn [after] in A. apply andb_true_iff in A as [A1 A2]. apply negb_true_iff in A1, A2.
  destruct (number_split _ W) as (a & x & -> & ST & X). pose proof (num_start_ascii _ ST) as AA.
  rewrite in_app_iff in N. assert (X' : numchars x) by (apply seq_numchars; tauto).
  assert (AX : ascii (a ++ x)).
  { apply Forall_app. split; [exact AA|]. clear -X'. induction X' as [|c x C X IH|e g x E G X IH]; [constructor| |].
    - constructor; [|exact IH]. unfold idc, is_digit, is_nondigit in C. lia.
    - constructor; [unfold is_exponent in E; lia|]. constructor; [unfold is_sign in G; lia|exact IH]. }
  assert (G : forall n, a = firstn n a -> (length a = n)%nat -> bind (number_loop (S (length ((a ++ x) ++ r))) (firstn n ((a ++ x) ++ r)) (skipn n ((a ++ x) ++ r)))
     (fun p => match encode (fst p) with Some e => Ok (e, snd p) | None => Error end) = Ok (a ++ x, r)).
  { intros n _ LN. rewrite <- LN, <- app_assoc, firstn_exact, skipn_exact.
    rewrite number_loop_reads; [|exact X'|exact A1|exact B|exact A2|rewrite !app_length; lia].
    cbn [bind fst snd]. rewrite encode_ascii by exact AX. reflexivity. }
  destruct ST as (c & C & [->| ->]); apply digit_iff in C.
  - cbn [app]. rewrite next_token_order; [|discriminate|apply not_white; unfold is_digit in C; [unfold is_space; lia|lia]].
    destruct (number_no_quote c (x ++ r) (or_introl C)) as [-> _]. unfold match_number. cbn [char_at nth]. rewrite C.
    cbn [app] in G. rewrite (G 1%nat eq_refl eq_refl). reflexivity.
  - cbn [app]. rewrite next_token_order; [|discriminate|apply not_white; [reflexivity|lia]].
    destruct (number_no_quote 46 (c :: x ++ r) (or_intror eq_refl)) as [-> _]. unfold match_number. cbn [char_at nth].
    change (is_digit 46) with false. change (46 =? 46) with true. rewrite C. cbn [andb].
    cbn [app] in G. rewrite (G 2%nat eq_refl eq_refl). reflexivity.
Qed.

(** ** Punctuators *)

Lemma match_loop_reads : forall w t v p r, w <> [] -> node t w = Some v -> tvalue v = Some p -> trie_at v (char_at r 0) = None ->
  match_loop t (w ++ r) = POk p (length w).
Proof.
  induction w as [|c w IH]; intros t v p r N H V R; [contradiction|]. cbn [node] in H. cbn [app match_loop].
  destruct (trie_at t c) as [u|] eqn:U; [|discriminate]. destruct w as [|d w].
  - cbn [node] in H. injection H as ->. cbn [app].
    replace (match_loop v r) with PNotFound; [rewrite V; reflexivity|].
    destruct r as [|e r]; cbn [match_loop char_at nth] in *; now rewrite R.
  - rewrite (IH u v p r ltac:(discriminate) H V R). reflexivity.
Qed.
Lemma match_loop_stops : forall s t p n, match_loop t s = POk p n ->
  exists v, node t (firstn n s) = Some v /\ tvalue v = Some p /\ trie_at v (char_at (skipn n s) 0) = None.
Proof.
  induction s as [|c s IH]; intros t p n H; cbn [match_loop] in H; [destruct (trie_at t 0); discriminate|].
  destruct (trie_at t c) as [v|] eqn:V; [|discriminate]. destruct (match_loop v s) as [| |q m] eqn:M; [| |].
  - destruct (tvalue v) as [q|] eqn:T; [|discriminate]. injection H as -> <-. cbn [firstn skipn node]. rewrite V.
    exists v. split; [destruct s; reflexivity|]. split; [exact T|]. destruct s as [|d s]; cbn [match_loop char_at nth] in *.
    + destruct (trie_at v 0); [discriminate|reflexivity].
    + destruct (trie_at v d) as [u|] eqn:U; [|reflexivity]. destruct (match_loop u s); [destruct (tvalue u)| |]; discriminate.
  - discriminate.
  - injection H as -> <-. destruct (IH v p m M) as (u & A & B & C). cbn [firstn skipn node]. rewrite V. eauto.
Qed.

(** What a printed punctuator is read as. *)
Definition plain_punct (p : punct) : punct :=
  match p with
  | P_DIGRAPH_LEFT_BRACKET => P_LEFT_BRACKET | P_DIGRAPH_RIGHT_BRACKET => P_RIGHT_BRACKET
  | P_DIGRAPH_LEFT_BRACE => P_LEFT_BRACE | P_DIGRAPH_RIGHT_BRACE => P_RIGHT_BRACE
  | P_DIGRAPH_HASH => P_HASH | P_DIGRAPH_DOUBLE_HASH => P_DOUBLE_HASH
  | p => p
  end.
Lemma printed_punct : forall p, exists v, node the_trie (format_punctuator p) = Some v /\ tvalue v = Some (plain_punct p).
Proof. intro p. destruct p; vm_compute; eexists; split; reflexivity. Qed.
Definition punct_head (c : Z) : bool := (33 <=? c) && (c <=? 126) && negb (idc c) && negb (c =? 34) && negb (c =? 39) && negb (c =? 92).
Lemma printed_head : forall p, exists c x, format_punctuator p = c :: x /\ punct_head c = true /\
  (c = 47 -> (p = P_SLASH /\ x = []) \/ x = [61]) /\ (c = 46 -> (p = P_DOT /\ x = []) \/ exists y, x = 46 :: y).
Proof. intro p. destruct p; (do 2 eexists; split; [vm_compute; reflexivity|]; split; [reflexivity|]; split; intro E; try discriminate E; eauto). Qed.

Lemma char_zero : forall r, char_at r 0 = 0 \/ exists t, r = char_at r 0 :: t.
Proof. intros [|c t]; [left; reflexivity|right; exists t; reflexivity]. Qed.
Lemma comment_head : forall c t, is_space c = false -> opens_white (c :: t) -> c = 47 /\ (char_at t 0 = 47 \/ char_at t 0 = 42).
Proof.
  intros c t NS [(d & r & E & W)|[(r & E)|(r & E)]].
  - injection E as -> _. apply white_chars in W. congruence.
  - injection E as -> E. rewrite E. split; [reflexivity|now right].
  - injection E as -> E. rewrite E. split; [reflexivity|now left].
Qed.
Lemma read_punct : forall p r, after (TkPunct p) (char_at r 0) = true -> next_token (format_punctuator p ++ r) = Ok (TkPunct (plain_punct p), r).
Proof.
  intros p r A. cbn [after] in A. destruct (printed_punct p) as (v & V & T). rewrite V in A.
  apply andb_true_iff in A as [A A3]. apply andb_true_iff in A as [A1 A2].
  assert (R : trie_at v (char_at r 0) = None) by (destruct (trie_at v (char_at r 0)); [discriminate|reflexivity]).
  destruct (printed_head p) as (c & x & F & H & HS & HD).
  assert (M : match_punctuator (format_punctuator p ++ r) = Some (plain_punct p, r)).
  { unfold match_punctuator. rewrite trie_built, (match_loop_reads (format_punctuator p) the_trie v (plain_punct p) r);
      [now rewrite skipn_exact|rewrite F; discriminate|exact V|exact T|exact R]. }
  rewrite F in M |- *. cbn [app] in M |- *. unfold punct_head in H.
  assert (HC : 33 <= c <= 126 /\ idc c = false /\ c <> 34 /\ c <> 39 /\ c <> 92) by (destruct (idc c); lia).
  destruct HC as (HC1 & HC2 & HC3 & HC4 & HC5). pose proof HC2 as HC6. unfold idc in HC6. apply orb_false_iff in HC6 as [HD1 HD2].
  assert (K : is_digit c = true \/ c = 46 \/ (is_nondigit c = false /\ c <> 34 /\ c <> 39)) by auto.
  rewrite next_token_order; [|discriminate|].
  - rewrite char_nomatch by (intros q P; apply first_no_quote; auto; [now right|now apply prefixes_incl]).
    rewrite no_number; [|exact HD1|].
    + rewrite string_nomatch by (intros q P; apply first_no_quote; auto; now left).
      rewrite name_nomatch; [|exact HD2|exact HC5]. cbn [map_res bind or_else]. rewrite M. reflexivity.
    + cbn [char_at nth]. destruct (c =? 46) eqn:E; [|reflexivity]. apply Z.eqb_eq in E. destruct (HD E) as [(-> & ->)|(y & ->)]; [|reflexivity].
      cbn [app]. change (nth 0 r 0) with (char_at r 0). change (punct_beq P_DOT P_DOT) with true in A2. cbn [andb] in *.
      now apply negb_true_iff.
  - intro O. apply comment_head in O as [E O]; [|apply high_space; lia]. destruct (HS E) as [(-> & ->)| ->]; [|cbn in O; lia].
    cbn [app] in O. change (punct_beq P_SLASH P_SLASH) with true in A3. lia.
Qed.

(** ** Literals and white space *)

Lemma read_char : forall isw v r, 0 <= v < 128 ->
  next_token (format_constant isw (CNarrow (Some v)) ++ r) = Ok (TkChar (CNarrow (Some v)), r).
Proof.
  intros isw v r V. pose proof (c45_narrow_partial isw v r V) as M.
  rewrite next_token_order; [|discriminate|].
  - rewrite M. reflexivity.
  - cbn [format_constant app]. apply not_white; [reflexivity|discriminate].
Qed.
Lemma literal_head : forall isw m vs, exists x, format_literal isw (literal_with m vs) = prefix m ++ x.
Proof. intros isw m vs. unfold format_literal. cbn [s_mode literal_with]. eauto. Qed.
Lemma read_string : forall isw m vs r, all_survive isw m vs = true ->
  next_token (format_literal isw (literal_with m vs) ++ r) = Ok (TkString (literal_with m vs), r).
Proof.
  intros isw m vs r V. pose proof (c09_round_trip_partial isw m vs r V) as M. destruct (literal_head isw m vs) as (x & F).
  rewrite F in M |- *. rewrite <- app_assoc in M |- *. set (y := x ++ r) in *. clearbody y.
  rewrite next_token_order.
  - assert (C : match_char_constant (prefix m ++ y) = NoMatch) by (destruct m; reflexivity). rewrite C.
    assert (N : match_number (prefix m ++ y) = NoMatch) by (destruct m; reflexivity). rewrite N.
    rewrite M. reflexivity.
  - destruct m; discriminate.
  - destruct m; (apply not_white; [reflexivity|discriminate]).
Qed.
Lemma read_space : forall c r, is_space c = true -> ((char_at r 0 =? 47) && ((char_at r 1 =? 42) || (char_at r 1 =? 47))) = false ->
  next_token (c :: r) = Ok (TkSpace (c =? 10), r).
Proof.
  intros c r C R. unfold next_token, match_whitespace. cbn [skip_space]. rewrite C. cbn [fst snd]. unfold skip_block.
  replace ((char_at r 0 =? 47) && (char_at r 1 =? 42)) with false by lia. cbn [bind fst snd]. unfold skip_line.
  replace ((char_at r 0 =? 47) && (char_at r 1 =? 47)) with false by lia. cbn [fst snd]. unfold newline.
  destruct (c =? 10); reflexivity.
Qed.

(** ** Sequences of tokens *)

(** The token that is read for a printed one. *)
Definition again (f : ws_format) (t : ptok) : ptok :=
  match t with
  | TkSpace n => TkSpace (match f with Original => n | SingleSpace => false end)
  | TkPunct p => TkPunct (plain_punct p)
  | t => t
  end.
Lemma again_same : forall f t, t <> TkEnd -> same_token f t (again f t).
Proof.
  intros f t N. destruct t as [n| |c|w|l|w|p]; try contradiction; cbn [again].
  - destruct f; constructor.
  - constructor.
  - constructor.
  - constructor.
  - constructor.
  - destruct p; first [apply sm_punct|apply sm_digraph; cbn; tauto].
Qed.

Section Printing.
Variable isw : Z -> bool.
Local Notation printable := (printable isw).
Local Notation format_token := (format_token isw).
Local Notation format := (format isw).

Definition opens_comment (r : list Z) : bool := (char_at r 0 =? 47) && ((char_at r 1 =? 42) || (char_at r 1 =? 47)).

Lemma word_printed : forall f w, (identifier w \/ pp_number w) -> ~ In 92 w ->
  format_token f (TkName w) = w /\ format_token f (TkNumber w) = w.
Proof.
  intros f w W N. assert (A : ascii w).
  { destruct W as [W|W]; [now apply identifier_ascii|]. destruct (number_split _ W) as (a & x & -> & ST & X).
    apply Forall_app. split; [now apply num_start_ascii|]. rewrite in_app_iff in N.
    assert (X' : numchars x) by (apply seq_numchars; tauto). clear -X'. induction X' as [|c x C X IH|e g x E G X IH]; [constructor| |].
    - constructor; [|exact IH]. unfold idc, is_digit, is_nondigit in C. lia.
    - constructor; [unfold is_exponent in E; lia|]. constructor; [unfold is_sign in G; lia|exact IH]. }
  cbn [FormatModel.format_token]. rewrite decode_ascii by (assumption || lia). auto.
Qed.

Lemma read_any : forall f t r, printable t -> after t (char_at r 0) = true -> char_at r 0 <> 92 -> opens_comment r = false ->
  next_token (format_token f t ++ r) = Ok (again f t, r).
Proof.
  intros f t r P A B C. destruct P as [n|w W N L|w W N|v V|m vs V|p P1 P2].
  - cbn [again FormatModel.format_token]. destruct f; [destruct n|]; cbn [app]; unfold newline; now rewrite read_space.
  - rewrite (proj1 (word_printed f w (or_introl W) N)). now apply read_name.
  - rewrite (proj2 (word_printed f w (or_intror W) N)). now apply read_number.
  - now apply read_char.
  - now apply read_string.
  - now apply read_punct.
Qed.

(** The first character of what is printed. *)
Lemma first_printed : forall f t, printable t -> exists c x, format_token f t = c :: x /\ c <> 92 /\ c <> 0 /\
  (c = 47 -> (t = TkPunct P_SLASH /\ x = []) \/ x = [61]).
Proof.
  intros f t P. destruct P as [n|w W N L|w W N|v V|m vs V|p P1 P2].
  - cbn [FormatModel.format_token]. unfold newline. destruct f; [destruct n|]; (do 2 eexists; split; [reflexivity|]; repeat split; try lia).
  - rewrite (proj1 (word_printed f w (or_introl W) N)). destruct (name_chars w W N) as (c & x & -> & C & X).
    exists c, x. split; [reflexivity|]. unfold is_nondigit in C. lia.
  - rewrite (proj2 (word_printed f w (or_intror W) N)). destruct (number_split _ W) as (a & x & -> & (c & C & [->| ->]) & X);
      apply digit_iff in C; unfold is_digit in C; (do 2 eexists; split; [reflexivity|]; lia).
  - cbn [FormatModel.format_token format_constant app]. do 2 eexists. split; [reflexivity|]. lia.
  - cbn [FormatModel.format_token]. destruct (literal_head isw m vs) as (x & ->). destruct m; (do 2 eexists; split; [reflexivity|]; split; [discriminate|]; split; [discriminate|]; intro E; discriminate E).
  - cbn [FormatModel.format_token]. destruct (printed_head p) as (c & x & F & H & HS & _). exists c, x. unfold punct_head in H.
    split; [exact F|]. split; [lia|]. split; [lia|]. intro E. destruct (HS E) as [(-> & ->)| ->]; auto.
Qed.

(** Each token may be followed by what follows it. *)
Fixpoint linked (f : ws_format) (ts : list ptok) : Prop :=
  match ts with [] => True | t :: r => after t (char_at (format f r) 0) = true /\ linked f r end.

Lemma printed_plain : forall f ts, Forall printable ts -> linked f ts -> char_at (format f ts) 0 <> 92 /\ opens_comment (format f ts) = false.
Proof.
  intros f [|t r] P L; [split; [discriminate|reflexivity]|]. inversion P as [|? ? P1 P2]; subst. destruct L as [A L].
  destruct (first_printed f t P1) as (c & x & F & N & _ & HS). unfold FormatModel.format, opens_comment in *. cbn [flat_map]. rewrite F. cbn [app char_at nth].
  split; [exact N|]. destruct (c =? 47) eqn:E; [|reflexivity]. apply Z.eqb_eq in E. destruct (HS E) as [(-> & ->)| ->]; [|reflexivity].
  cbn [app andb]. cbn [after] in A. apply andb_true_iff in A as [_ A]. change (punct_beq P_SLASH P_SLASH) with true in A.
  unfold char_at in A. lia.
Qed.

Lemma tokenize_printed : forall f ts fuel, Forall printable ts -> linked f ts -> (length (format f ts) < fuel)%nat ->
  exists l, tokenize fuel (format f ts) = Ok l /\ map fst l = map (again f) ts.
Proof.
  intros f. induction ts as [|t r IH]; intros [|fuel] P L Lt; try lia; [exists []; auto|].
  inversion P as [|? ? P1 P2]; subst. destruct L as [A L]. destruct (printed_plain f r P2 L) as [B C].
  destruct (first_printed f t P1) as (c & x & F & _).
  assert (Lt' : (length (format f r) < fuel)%nat).
  { unfold FormatModel.format in *. cbn [flat_map] in Lt. rewrite F in Lt. cbn [app length] in Lt. rewrite app_length in Lt. lia. }
  destruct (IH fuel P2 L Lt') as (l & E & M). exists ((again f t, format f r) :: l).
  split; [|cbn [map fst]; now rewrite M]. cbn [tokenize].
  change (format f (t :: r)) with (format_token f t ++ format f r). rewrite read_any by assumption. cbn [bind fst snd].
  rewrite E. cbn [bind]. destruct P1; reflexivity.
Qed.

(** ** White space between tokens *)

Definition neutral (c : Z) : bool := existsb (Z.eqb c) [0; 32; 10; 91; 93; 123; 125].
Lemma neutral_cases : forall c, neutral c = true -> In c [0; 32; 10; 91; 93; 123; 125].
Proof. intros c H. apply existsb_exists in H as (d & I & E). apply Z.eqb_eq in E. now subst. Qed.
Lemma neutral_after : forall t c, neutral c = true -> after t c = true.
Proof.
  intros t c H. apply neutral_cases in H. destruct t as [n| |k|w|l|w|p]; try reflexivity; cbn [after].
  - cbn [In] in H. repeat (destruct H as [<-|H]; [cbn; now rewrite ?andb_false_r|]). destruct H.
  - cbn [In] in H. repeat (destruct H as [<-|H]; [reflexivity|]). destruct H.
  - cbn [In] in H. repeat (destruct H as [<-|H]; [destruct p; vm_compute; reflexivity|]). destruct H.
Qed.

Lemma spaced_linked : forall f ts, spaced ts -> linked f ts.
Proof.
  intros f. induction ts as [|a [|b r] IH]; intro H; cbn [spaced linked] in *; [exact I| |].
  - split; [apply neutral_after; reflexivity|exact I].
  - destruct H as [H H']. split; [|apply IH, H']. destruct H as [(n & ->)|(n & ->)]; [reflexivity|].
    apply neutral_after. unfold FormatModel.format. cbn [flat_map FormatModel.format_token]. destruct f; [destruct n|]; reflexivity.
Qed.

(** ** Tokens of a text *)

Lemma next_token_inv : forall s t r, next_token s = Ok (t, r) ->
  match t with
  | TkSpace n => match_whitespace s = Ok (n, r)
  | TkEnd => s = []
  | TkChar c => match_char_constant s = Ok (c, r)
  | TkNumber e => match_number s = Ok (e, r)
  | TkString l => match_literal s = Ok (l, r)
  | TkName e => match_name s = Ok (e, r)
  | TkPunct p => match_punctuator s = Some (p, r)
  end.
Proof.
  intros s t r H. unfold next_token in H. remember (match_punctuator s) as mp eqn:MP.
  destruct (match_whitespace s) as [[n u]| | |]; cbn [map_res bind or_else fst snd] in H; try discriminate H; [injection H as <- <-; reflexivity|].
  destruct s as [|c s]; cbn [or_else] in H; [injection H as <- <-; reflexivity|].
  destruct (match_char_constant (c :: s)) as [[n u]| | |]; cbn [map_res bind or_else fst snd] in H; try discriminate H; [injection H as <- <-; reflexivity|].
  destruct (match_number (c :: s)) as [[n u]| | |]; cbn [map_res bind or_else fst snd] in H; try discriminate H; [injection H as <- <-; reflexivity|].
  destruct (match_literal (c :: s)) as [[n u]| | |]; cbn [map_res bind or_else fst snd] in H; try discriminate H; [injection H as <- <-; reflexivity|].
  destruct (match_name (c :: s)) as [[n u]| | |]; cbn [map_res bind or_else fst snd] in H; try discriminate H; [injection H as <- <-; reflexivity|].
  destruct mp as [[n u]|]; cbn [map_res bind or_else fst snd of_option] in H; [|discriminate H]. injection H as <- <-. reflexivity.
Qed.

(** A quote that starts a token of the text. *)
Lemma quote_token : forall q t t2 r2, quote q -> next_token (q :: t) = Ok (t2, r2) -> (forall w, q :: t = w ++ r2 -> ~ broken t2 w) ->
  exists u, q :: t = (q :: u ++ [q]) ++ r2 /\ char_sequence q u /\ (q = 39 -> u <> []).
Proof.
  intros q t t2 r2 Q H B. apply next_token_sound in H. remember (q :: t) as s eqn:E. destruct H as [|l s r N C|t2 w r O N K].
  - discriminate.
  - destruct C as [s|n l s u r W C]; [contradiction|]. exfalso. subst s. inversion W; subst; [|destruct Q; discriminate|destruct Q; discriminate].
    rename H1 into H0 || idtac. match goal with H : white_char _ |- _ => apply white_chars in H; destruct Q as [->| ->]; discriminate H end.
  - destruct (K (B w eq_refl)) as (k & RD & L). destruct w as [|c w]; [contradiction|]. cbn [app] in E. injection E as -> E.
    assert (NO : forall k', k' <> KChar -> k' <> KString -> ~ standard k' (q :: w)).
    { intros k' N1 N2 HS. inversion HS as [v V|v V|v V|v V|v V]; subst; try contradiction.
      - destruct (name_first _ V) as (c & y & EQ & G). injection EQ as <- _. destruct Q as [->| ->], G; discriminate.
      - destruct (number_first _ V) as (c & y & EQ & G). injection EQ as <- _. destruct Q as [->| ->], G as [G|(G & _)]; discriminate.
      - cbn in V. destruct Q as [->| ->]; repeat (destruct V as [V|V]; [discriminate V|]); exact V. }
    assert (SK : standard k (q :: w)).
    { destruct L as (_ & T & _). inversion T as [k0 v HS|c0 W NS]; subst; [exact HS|]. inversion RD. }
    inversion SK as [v V|v V|v V|v V|v V]; subst.
    + exfalso. apply (NO KName); try discriminate. now constructor.
    + exfalso. apply (NO KNumber); try discriminate. now constructor.
    + inversion V as [p u P U1 U2 EQ]. cbn in P. destruct P as [<-|[<-|[<-|[<-|[]]]]]; cbn [app text] in EQ; try (destruct Q as [->| ->]; discriminate EQ).
      change (39 :: u ++ [39] = q :: w) in EQ. injection EQ as <- <-. exists u. split; [reflexivity|]. auto.
    + inversion V as [p u P U EQ]. cbn in P. destruct P as [<-|[<-|[<-|[<-|[<-|[]]]]]]; cbn [app text] in EQ; try (destruct Q as [->| ->]; discriminate EQ).
      change (34 :: u ++ [34] = q :: w) in EQ. injection EQ as <- <-. exists u. split; [reflexivity|]. split; [exact U|discriminate].
    + exfalso. apply (NO KPunct); try discriminate. now constructor.
Qed.

Lemma longest_more : forall k w r k' w', longest k w (w ++ r) -> pp_token k' w' -> starts_with (w ++ r) w' -> (length w < length w')%nat -> False.
Proof. intros k w r k' w' (_ & _ & L) T P Lt. specialize (L k' w' T P). lia. Qed.

Lemma name_then : forall w r, identifier w -> ~ In 92 w -> longest KName w (w ++ r) ->
  (r = [] \/ exists t2 r2, next_token r = Ok (t2, r2) /\ forall v, r = v ++ r2 -> ~ broken t2 v) -> after (TkName w) (char_at r 0) = true.
Proof.
  intros w r W N L NT. cbn [after]. destruct r as [|c t]; [reflexivity|]. cbn [char_at nth].
  destruct NT as [NT|(t2 & r2 & NT & B)]; [discriminate|].
  assert (A : idc c = false).
  { destruct (idc c) eqn:E; [|reflexivity]. exfalso. apply (longest_more KName w (c :: t) KName (w ++ [c]) L).
    - constructor. constructor. unfold idc in E. destruct (is_digit c) eqn:D; [apply id_digit; [exact W|now apply digit_iff]|].
      apply id_nondigit; [exact W|]. constructor. now apply nondigit_iff.
    - exists t. now rewrite <- app_assoc.
    - rewrite app_length. cbn. lia. }
  rewrite A. cbn [negb andb]. apply negb_true_iff. destruct (quotable c w) eqn:QU; [|reflexivity]. exfalso. unfold quotable in QU.
  destruct (c =? 34) eqn:E1; [|destruct (c =? 39) eqn:E2; [|discriminate]].
  - apply Z.eqb_eq in E1. subst c. destruct (quote_token 34 t t2 r2 (or_introl eq_refl) NT B) as (u & E & U & _).
    apply existsb_exists in QU as (p & P & EQ). apply zlist_eqb_eq in EQ. subst p.
    apply (longest_more KName w (34 :: t) KString (w ++ 34 :: u ++ [34]) L).
    + constructor. constructor. apply (sl w u); [|exact U]. cbn in P |- *. tauto.
    + exists r2. rewrite E. now rewrite <- app_assoc.
    + rewrite app_length. cbn. lia.
  - apply Z.eqb_eq in E2. subst c. destruct (quote_token 39 t t2 r2 (or_intror eq_refl) NT B) as (u & E & U & UN).
    apply existsb_exists in QU as (p & P & EQ). apply zlist_eqb_eq in EQ. subst p.
    apply (longest_more KName w (39 :: t) KChar (w ++ 39 :: u ++ [39]) L).
    + constructor. constructor. apply (cc w u); [|auto|exact U]. cbn in P |- *. tauto.
    + exists r2. rewrite E. now rewrite <- app_assoc.
    + rewrite app_length. cbn. lia.
Qed.

Lemma sign_more : forall w e g, pp_number (w ++ [e]) -> ~ In 92 (w ++ [e]) -> is_exponent e = true -> is_sign g = true -> pp_number (w ++ [e; g]).
Proof.
  intros w e g W N E G. remember (w ++ [e]) as v eqn:V. pose proof (exponent_id e E) as (E1 & E2 & E3).
  assert (P : pp_number w).
  { destruct W as [c C|c C|p c P C|p n P NN|p e' g' P E' G'|p P].
    - destruct w as [|a w]; [|destruct w; discriminate]. injection V as ->. apply digit_iff in C. congruence.
    - apply digit_iff in C. destruct w as [|a [|b w]]; [discriminate| |destruct w; discriminate]. injection V as _ ->. congruence.
    - apply app_inj_tail in V as [-> ->]. apply digit_iff in C. congruence.
    - destruct NN as [c C|u U]; [|exfalso; apply N; rewrite in_app_iff; right; now apply ucn_backslash].
      apply app_inj_tail in V as [-> ->]. exact P.
    - change [e'; g'] with ([e'] ++ [g']) in V. rewrite app_assoc in V. apply app_inj_tail in V as [_ ->].
      cbn in G'. unfold is_sign in E2. lia.
    - apply app_inj_tail in V as [_ V]. subst e. discriminate E1. }
  apply pn_exponent; [exact P| |].
  - unfold is_exponent in E. cbn. lia.
  - unfold is_sign in G. cbn. lia.
Qed.
Lemma number_then : forall w r, pp_number w -> ~ In 92 w -> longest KNumber w (w ++ r) -> after (TkNumber w) (char_at r 0) = true.
Proof.
  intros w r W N L. cbn [after]. destruct r as [|c t]; [cbn; now rewrite andb_false_r|]. cbn [char_at nth].
  assert (M : pp_number (w ++ [c]) -> False).
  { intro P. apply (longest_more KNumber w (c :: t) KNumber (w ++ [c]) L).
    - constructor. now constructor.
    - exists t. now rewrite <- app_assoc.
    - rewrite app_length. cbn. lia. }
  assert (A : (idc c || (c =? 46)) = false).
  { destruct (idc c || (c =? 46)) eqn:E; [|reflexivity]. exfalso. apply M. unfold idc in E. destruct (is_digit c) eqn:D.
    - apply pn_more_digit; [exact W|now apply digit_iff].
    - destruct (is_nondigit c) eqn:D2; [apply pn_more_nondigit; [exact W|constructor; now apply nondigit_iff]|].
      cbn in E. apply Z.eqb_eq in E. subst c. now apply pn_dot. }
  rewrite A. cbn [negb andb]. apply negb_true_iff. destruct (is_exponent (last w 0) && is_sign c) eqn:E; [|reflexivity]. exfalso.
  apply andb_true_iff in E as [E1 E2]. apply M. destruct (exists_last (l := w)) as (v & e & ->); [intros ->; discriminate E1|].
  rewrite last_last in E1. rewrite <- app_assoc. cbn [app]. now apply sign_more.
Qed.

Lemma punct_printed : forall p, p <> P_DIGRAPH_HASH -> p <> P_DIGRAPH_DOUBLE_HASH ->
  format_punctuator p = spelling p \/ (neutral (char_at (format_punctuator p) 0) = true /\ forall c, after (TkPunct p) c = true).
Proof.
  intros p N1 N2. destruct p; try contradiction; try (left; reflexivity); right; (split; [reflexivity|]; intro c; vm_compute; reflexivity).
Qed.
Lemma punct_then : forall s p r, next_token s = Ok (TkPunct p, r) -> printable (TkPunct p) ->
  after (TkPunct p) (char_at r 0) = true /\ (char_at (format_punctuator p) 0 = char_at s 0 \/ neutral (char_at (format_punctuator p) 0) = true).
Proof.
  intros s p r H P. inversion P as [| | | | |? N1 N2]; subst. pose proof (next_token_inv _ _ _ H) as MP. apply next_token_sound in H.
  remember (TkPunct p) as t0 eqn:T0. destruct H as [|l s r NL C|t w r O NW K]; [discriminate|discriminate|]. subst t.
  destruct (K (fun x => x)) as (k & RD & L). inversion RD; subst. clear K RD.
  destruct (punct_printed p N1 N2) as [F|[F1 F2]]; [|split; [apply F2|right; exact F1]].
  split; [|left; rewrite F; destruct (spelling p); [contradiction|reflexivity]].
  cbn [after]. rewrite F. unfold match_punctuator in MP. rewrite trie_built in MP.
  destruct (match_loop the_trie (spelling p ++ r)) as [| |q n] eqn:ML; try discriminate MP. injection MP as -> MR.
  destruct (match_loop_stops _ _ _ _ ML) as (v & V & _ & S).
  assert (FS : firstn n (spelling p ++ r) = spelling p).
  { pose proof (firstn_skipn n (spelling p ++ r)) as FK. rewrite MR in FK. now apply app_inv_tail in FK. }
  rewrite FS in V. rewrite MR in S. rewrite V, S. cbn [andb].
  apply andb_true_iff. split; apply negb_true_iff.
  - destruct (punct_beq p P_DOT) eqn:E; [|reflexivity]. apply internal_punct_dec_bl in E. subst p. cbn [andb].
    destruct (is_digit (char_at r 0)) eqn:D; [|reflexivity]. exfalso. destruct r as [|c r]; [discriminate D|]. cbn [char_at nth] in D.
    apply (longest_more KPunct (spelling P_DOT) (c :: r) KNumber (text "." ++ [c]) L).
    + constructor. constructor. apply pn_dot_digit. now apply digit_iff.
    + exists r. reflexivity.
    + cbn. lia.
  - destruct (punct_beq p P_SLASH) eqn:E; [|reflexivity]. apply internal_punct_dec_bl in E. subst p. cbn [andb].
    destruct ((char_at r 0 =? 47) || (char_at r 0 =? 42)) eqn:D; [|reflexivity]. exfalso. apply O. right.
    destruct r as [|c r]; [discriminate D|]. cbn [char_at nth] in D. apply orb_true_iff in D as [D|D]; apply Z.eqb_eq in D; subst c.
    + right. exists r. reflexivity.
    + left. exists r. reflexivity.
Qed.

(** The mode of a buffer stays. *)
Lemma insert_buffer_mode : forall b l b', insert_buffer b l = Ok b' -> b_mode b' = b_mode b.
Proof.
  intros b l b' H. unfold insert_buffer in H. destruct l as [|x l]; [now injection H as <-|]. unfold ensure_capacity in H.
  destruct (capacity b <=? _)%nat; cbn [bind] in H.
  - destruct (blit (repeat 0 _) 0 _) as [n| | |]; try discriminate H. cbn [bind block b_len b_mode] in H.
    destruct (blit _ _ _) as [m| | |]; try discriminate H. injection H as <-. reflexivity.
  - destruct (blit _ _ _) as [m| | |]; try discriminate H. injection H as <-. reflexivity.
Qed.
Lemma u16_loop_mode : forall fuel b st l b', u16_loop fuel b st l = Ok b' -> b_mode b' = b_mode b.
Proof.
  induction fuel as [|fuel IH]; intros b st l b' H; cbn [u16_loop] in H; destruct l as [|x l]; try (now injection H as <-); [discriminate|].
  destruct (mbrtoc16 st (x :: l)) as [[|n] v st'|v|]; try discriminate H;
    (destruct (insert_buffer b (le 2 v)) as [b1| | |] eqn:E; try discriminate H; cbn [bind] in H; apply IH in H; apply insert_buffer_mode in E; congruence).
Qed.
Lemma wide_loop_mode : forall fuel b l b', wide_loop fuel b l = Ok b' -> b_mode b' = b_mode b.
Proof.
  induction fuel as [|fuel IH]; intros b l b' H; cbn [wide_loop] in H; destruct l as [|x l]; try (now injection H as <-); [discriminate|].
  destruct (mbrtoc32 (x :: l)) as [[v [|n]]|]; try discriminate H;
    (destruct (insert_buffer b (le 4 v)) as [b1| | |] eqn:E; try discriminate H; cbn [bind] in H; apply IH in H; apply insert_buffer_mode in E; congruence).
Qed.
Lemma buf_insert_mode : forall b c b', buf_insert b c = Ok b' -> b_mode b' = b_mode b.
Proof.
  intros b c b' H. unfold buf_insert in H. destruct (b_mode b) eqn:M; rewrite <- M; try (destruct (c32rtomb c) as [e|]; [|discriminate H]);
    eauto using insert_buffer_mode, u16_loop_mode, wide_loop_mode.
Qed.
Lemma string_loop_mode : forall fuel b s b' r, string_loop fuel b s = Ok (b', r) -> b_mode b' = b_mode b.
Proof.
  induction fuel as [|fuel IH]; intros b s b' r H; cbn [string_loop] in H; [discriminate|].
  destruct (char_at s 0 =? 34); [now injection H as <- _|]. destruct ((char_at s 0 =? 0) || (char_at s 0 =? 10)); [discriminate|].
  destruct (char_at s 0 =? 92).
  - destruct (next_escape s) as [[v u]| | |]; try discriminate H. cbn [bind fst snd] in H.
    match type of H with bind ?x _ = _ => destruct x as [b1| | |] eqn:E; try discriminate H end. cbn [bind] in H. apply IH in H. rewrite H.
    destruct (_ || _) in E; [|now apply buf_insert_mode in E]. unfold buf_insert_raw in E.
    destruct (v <=? raw_max (b_mode b)); [|discriminate]. now apply insert_buffer_mode in E.
  - destruct (buf_insert b (char_at s 0)) as [b1| | |] eqn:E; try discriminate H. cbn [bind] in H. apply IH in H. rewrite H. now apply buf_insert_mode in E.
Qed.
Lemma next_literal_mode : forall m s l r, next_literal m s = Ok (l, r) -> s_mode l = m /\ StrModel.starts_with (prefix m) s = true.
Proof.
  intros m s l r H. unfold next_literal in H. destruct (StrModel.starts_with (prefix m) s); [|discriminate].
  destruct (string_loop _ _ _) as [[b u]| | |] eqn:E; try discriminate H. cbn [bind fst snd] in H. injection H as <- _.
  apply string_loop_mode in E. split; [exact E|reflexivity].
Qed.
Lemma literal_first : forall s l r, match_literal s = Ok (l, r) -> char_at (prefix (s_mode l)) 0 = char_at s 0.
Proof.
  intros s l r H.
  assert (K : exists m, next_literal m s = Ok (l, r)).
  { unfold match_literal in H. destruct (next_literal Multibyte s) eqn:E0; cbn [or_else] in H; try discriminate H; [exists Multibyte; congruence|].
    destruct (next_literal Unicode8 s) eqn:E1; cbn [or_else] in H; try discriminate H; [exists Unicode8; congruence|].
    destruct (next_literal Unicode16 s) eqn:E2; cbn [or_else] in H; try discriminate H; [exists Unicode16; congruence|].
    destruct (next_literal Unicode32 s) eqn:E3; cbn [or_else] in H; try discriminate H; [exists Unicode32; congruence|]. exists Wide. exact H. }
  destruct K as (m & K). apply next_literal_mode in K as [<- K]. destruct (s_mode l); cbn in K |- *; lia.
Qed.

(** A token of the text and what follows it. *)
Lemma token_then : forall f s t r, next_token s = Ok (t, r) -> printable t ->
  match t with TkName _ | TkNumber _ => forall w, s = w ++ r -> ~ In 92 w | _ => True end ->
  (r = [] \/ exists t2 r2, next_token r = Ok (t2, r2) /\ forall v, r = v ++ r2 -> ~ broken t2 v) ->
  after t (char_at r 0) = true /\ (char_at (format_token f t) 0 = char_at s 0 \/ neutral (char_at (format_token f t) 0) = true).
Proof.
  intros f s t r H P PW NT. destruct P as [n|w W N L|w W N|v V|m vs V|p P1 P2].
  - split; [reflexivity|]. right. cbn [FormatModel.format_token]. destruct f; [destruct n|]; reflexivity.
  - apply next_token_sound in H. remember (TkName w) as t0 eqn:T0. destruct H as [|l s r NL C|t v r O NW K]; [discriminate|discriminate|]. subst t.
    destruct (K (fun x => x)) as (k & RD & LG). inversion RD as [e w' EW| | | |]; subst. specialize (EW (PW v eq_refl)). subst w.
    split; [now apply name_then|]. left. rewrite (proj1 (word_printed f v (or_introl W) N)). destruct v; [contradiction|reflexivity].
  - apply next_token_sound in H. remember (TkNumber w) as t0 eqn:T0. destruct H as [|l s r NL C|t v r O NW K]; [discriminate|discriminate|]. subst t.
    destruct (K (fun x => x)) as (k & RD & LG). inversion RD as [|e w' EW| | |]; subst. specialize (EW (PW v eq_refl)). subst w.
    split; [now apply number_then|]. left. rewrite (proj2 (word_printed f v (or_intror W) N)). destruct v; [contradiction|reflexivity].
  - split; [reflexivity|]. left. apply next_token_inv in H. cbn [FormatModel.format_token format_constant app char_at nth].
    unfold match_char_constant, next_char_constant in H. destruct (char_at s 0 =? 39) eqn:E; [apply Z.eqb_eq in E; symmetry; exact E|]. exfalso.
    cbn [bind or_else] in H. unfold next_prefixed in H.
    repeat match type of H with context [if ?b then _ else _] => destruct b end; cbn [or_else bind] in H; try discriminate H;
      repeat match type of H with context [bind ?x _] => destruct x as [[? ?]| | |]; cbn [or_else bind] in H; try discriminate H end.
  - split; [reflexivity|]. left. apply next_token_inv in H. apply literal_first in H. cbn [literal_with s_mode] in H. rewrite <- H.
    cbn [FormatModel.format_token]. destruct (literal_head isw m vs) as (x & ->). destruct m; reflexivity.
  - apply punct_then; [exact H|now constructor].
Qed.

Lemma source_linked : forall f fuel s l, tokenize fuel s = Ok l -> intact s l -> plain_words s l -> Forall printable (map fst l) ->
  linked f (map fst l) /\ (char_at (format f (map fst l)) 0 = char_at s 0 \/ neutral (char_at (format f (map fst l)) 0) = true).
Proof.
  intros f. induction fuel as [|fuel IH]; intros s l H I W P; cbn [tokenize] in H; [discriminate|].
  destruct (next_token s) as [[t r]| | |] eqn:NT; try discriminate H. cbn [bind fst snd] in H.
  assert (K : (t = TkEnd /\ l = []) \/ exists l', tokenize fuel r = Ok l' /\ l = (t, r) :: l').
  { destruct t; try (left; split; [reflexivity|congruence]); right; (destruct (tokenize fuel r) as [l'| | |]; try discriminate H; exists l'; split; [reflexivity|cbn in H; congruence]). }
  destruct K as [[-> ->]|(l' & T & ->)].
  - apply next_token_inv in NT. subst s. split; [exact Logic.I|left; reflexivity].
  - cbn [intact plain_words map fst] in I, W, P. destruct I as [I1 I2]. destruct W as [W1 W2]. inversion P as [|? ? P1 P2]; subst.
    destruct (IH r l' T I2 W2 P2) as [L HD].
    assert (NX : r = [] \/ exists t2 r2, next_token r = Ok (t2, r2) /\ forall v, r = v ++ r2 -> ~ broken t2 v).
    { destruct l' as [|[t2 r2] l2].
      - left. destruct fuel as [|fuel]; [discriminate T|]. cbn [tokenize] in T. destruct (next_token r) as [[t2 r2]| | |] eqn:N2; try discriminate T.
        cbn [bind fst snd] in T. destruct t2; try (destruct (tokenize fuel r2); discriminate T). apply next_token_inv in N2. exact N2.
      - right. exists t2, r2. destruct fuel as [|fuel]; [discriminate T|]. cbn [tokenize] in T. destruct (next_token r) as [[t3 r3]| | |] eqn:N2; try discriminate T.
        cbn [bind fst snd] in T. destruct I2 as [I2 _].
        assert (E3 : t3 = t2 /\ r3 = r2) by (destruct t3; try discriminate T; (destruct (tokenize fuel r3); try discriminate T; cbn in T; injection T as <- <- _; auto)).
        destruct E3 as [-> ->]. auto. }
    destruct (token_then f s t r NT P1 W1 NX) as [A FH]. cbn [map fst linked]. split.
    + split; [|exact L]. destruct HD as [->|HD]; [exact A|now apply neutral_after].
    + destruct (first_printed f t P1) as (c & x & F & _). unfold FormatModel.format. cbn [flat_map]. rewrite F in FH |- *. exact FH.
Qed.
End Printing.
