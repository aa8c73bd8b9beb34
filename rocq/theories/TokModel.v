(** Model of the division of the logical source text into preprocessing tokens
    (source/preprocessor/tokenizer.c, source/lexer/tokens/whitespace.c, pp_number.c,
    identifier.c, pp_header_name.c), of the table of keywords
    (source/lexer/tokens/keyword.c) and of the conversion of identifiers into tokens
    (source/preprocessor/convert.c:36-52).

    The text is the list of characters after the splicing of lines (C06); it holds no
    null character.  Character constants, string literals and punctuators are those of
    [StrModel] and [LexModel].  Source locations are in C43.  Lexer extensions are not
    modelled.  At the end of the text reading gives 0 and advancing is an error
    (source_cursor.c:50-56, 88-96). *)

From Coq Require Import ZArith Bool List String.
From Verif Require Import CTypes LexModel StrModel.
Import ListNotations.
Open Scope Z_scope.

(** ** Characters, source/util/char32.c *)

(** kefir_isspace32, char32.c:33-46 *)
Definition is_space (c : Z) : bool :=
  (c =? 32) || (c =? 12) || (c =? 11) || (c =? 9) || (c =? 10) || (c =? 13).
(** kefir_isnondigit32, char32.c:105-168 *)
Definition is_nondigit (c : Z) : bool :=
  (c =? 95) || ((97 <=? c) && (c <=? 122)) || ((65 <=? c) && (c <=? 90)).

(** ** White space, whitespace.c *)

(** The result of the three functions below: WHITESPACE_NO_MATCH, WHITESPACE_MATCH,
    WHITESPACE_NEWLINE, whitespace.c:27, and MAX. *)
Inductive wsm := WNone | WSome | WLine.
Definition wmax (a b : wsm) : wsm :=
  match a, b with
  | WLine, _ | _, WLine => WLine
  | WSome, _ | _, WSome => WSome
  | WNone, WNone => WNone
  end.

(** skip_whitespaces, whitespace.c:29-42: one character *)
Definition skip_space (s : list Z) : wsm * list Z :=
  match s with
  | c :: r => if is_space c then ((if c =? newline then WLine else WSome), r) else (WNone, s)
  | [] => (WNone, [])
  end.

(** The loop of skip_multiline_comment, whitespace.c:49-56: what follows the end of the
    comment, [None] if there is no end. *)
Fixpoint block_loop (s : list Z) : option (list Z) :=
  match s with
  | [] => None
  | c :: r => if (c =? 42) && (char_at r 0 =? 47) then Some (skipn 1 r) else block_loop r
  end.
(** skip_multiline_comment, whitespace.c:44-60 *)
Definition skip_block (s : list Z) : res (wsm * list Z) :=
  if (char_at s 0 =? 47) && (char_at s 1 =? 42) then
    match block_loop (skipn 2 s) with Some r => Ok (WSome, r) | None => Error end
  else Ok (WNone, s).

(** The loop of skip_oneline_comment, whitespace.c:68-71 *)
Fixpoint line_loop (s : list Z) : list Z :=
  match s with
  | c :: r => if c =? newline then s else line_loop r
  | [] => []
  end.
(** skip_oneline_comment, whitespace.c:62-79 *)
Definition skip_line (s : list Z) : wsm * list Z :=
  if (char_at s 0 =? 47) && (char_at s 1 =? 47) then
    match line_loop (skipn 2 s) with
    | c :: r => (WLine, r)
    | [] => (WSome, [])
    end
  else (WNone, s).

(** kefir_lexer_cursor_match_whitespace with a token, whitespace.c:81-104: one round of
    the three functions *)
Definition match_whitespace (s : list Z) : res (bool * list Z) :=
  let p := skip_space s in
  bind (skip_block (snd p)) (fun q =>
  let l := skip_line (snd q) in
  match wmax (wmax (fst p) (fst q)) (fst l) with
  | WNone => NoMatch
  | WSome => Ok (false, snd l)
  | WLine => Ok (true, snd l)
  end).

(** ** Numbers, pp_number.c *)

(** kefir_string_buffer_insert of a multibyte buffer, one character after the other:
    the bytes of the spelling, or an error for what is no character. *)
Fixpoint encode (cs : list Z) : option (list Z) :=
  match cs with
  | [] => Some []
  | c :: r => match c32rtomb c, encode r with Some e, Some l => Some (e ++ l) | _, _ => None end
  end.

Definition is_exponent (c : Z) : bool := (c =? 101) || (c =? 69) || (c =? 112) || (c =? 80).
Definition is_sign (c : Z) : bool := (c =? 43) || (c =? 45).

(** The loop of match_pp_number, pp_number.c:44-66.  Every iteration consumes a
    character. *)
Fixpoint number_loop (fuel : nat) (acc : list Z) (s : list Z) : res (list Z * list Z) :=
  match fuel with
  | O => Error
  | S fuel =>
    let a := char_at s 0 in let b := char_at s 1 in
    if is_exponent a && is_sign b then number_loop fuel (acc ++ [a; b]) (skipn 2 s)
    else if is_digit a || is_nondigit a || (a =? 46) then number_loop fuel (acc ++ [a]) (skipn 1 s)
    else match next_universal s with
         | Ok (c, r) => number_loop fuel (acc ++ [c]) r
         | NoMatch => Ok (acc, s)
         | Error => Error
         | Overrun => Overrun
         end
  end.
(** match_pp_number, pp_number.c:26-73 *)
Definition match_number (s : list Z) : res (list Z * list Z) :=
  let a := char_at s 0 in let b := char_at s 1 in
  let go n := bind (number_loop (S (List.length s)) (firstn n s) (skipn n s)) (fun p =>
              match encode (fst p) with Some e => Ok (e, snd p) | None => Error end) in
  if is_digit a then go 1%nat
  else if (a =? 46) && is_digit b then go 2%nat
  else NoMatch.

(** ** Identifiers, identifier.c *)

Definition max_identifier : nat := 255.

(** scan_identifier_nondigit, identifier.c:29-39 *)
Definition scan_nondigit (s : list Z) : res (Z * list Z) :=
  if is_nondigit (char_at s 0) then Ok (char_at s 0, skipn 1 s) else next_universal s.
(** scan_identifier_digit, identifier.c:41-50 *)
Definition scan_digit (s : list Z) : res (Z * list Z) :=
  if is_digit (char_at s 0) then Ok (char_at s 0, skipn 1 s) else scan_nondigit s.
(** The loop of kefir_lexer_scan_identifier_or_keyword, identifier.c:67-80; [acc] are
    the characters so far. *)
Fixpoint name_loop (fuel : nat) (acc : list Z) (s : list Z) : res (list Z * list Z) :=
  match fuel with
  | O => Error
  | S fuel =>
    match scan_digit s with
    | Ok (c, r) => if (List.length acc <? max_identifier)%nat then name_loop fuel (acc ++ [c]) r else Error
    | NoMatch => Ok (acc, s)
    | Error => Error
    | Overrun => Overrun
    end
  end.
(** The characters of an identifier, identifier.c:64-80 *)
Definition scan_name (s : list Z) : res (list Z * list Z) :=
  bind (scan_nondigit s) (fun p => name_loop (S (List.length s)) [fst p] (snd p)).

(** The part of a string before its null character, which is what
    kefir_token_new_identifier and match_keyword see. *)
Fixpoint until_nul (l : list Z) : list Z :=
  match l with
  | c :: r => if c =? 0 then [] else c :: until_nul r
  | [] => []
  end.
(** The bytes of the name, identifier.c:84-94 *)
Definition name_bytes (cs : list Z) : option (list Z) := option_map until_nul (encode cs).

(** kefir_lexer_match_identifier, identifier.c:124-133: no keywords *)
Definition match_name (s : list Z) : res (list Z * list Z) :=
  bind (scan_name s) (fun p => match name_bytes (fst p) with Some e => Ok (e, snd p) | None => Error end).

(** ** Header names, pp_header_name.c *)

(** The loop of match_header_name, pp_header_name.c:42-53.  At the end of the text
    kefir_lexer_source_cursor_next fails. *)
Fixpoint header_loop (terminator : Z) (s : list Z) : res (list Z * list Z) :=
  match s with
  | [] => Error
  | c :: r =>
    if c =? newline then Error
    else if c =? terminator then Ok ([], r)
    else bind (header_loop terminator r) (fun p => Ok (c :: fst p, snd p))
  end.
(** match_header_name, pp_header_name.c:26-62: whether it is a system header, and its
    name.  The check of the length, :58, is of no effect: kefir_string_buffer_value
    counts the terminator. *)
Definition match_header (s : list Z) : res (bool * list Z * list Z) :=
  let go system terminator r :=
    bind (header_loop terminator r) (fun p =>
    match encode (fst p) with
    | None => Error
    | Some e => Ok (system, e, snd p)
    end) in
  match s with
  | c :: r => if c =? 60 then go true 62 r else if c =? 34 then go false 34 r else NoMatch
  | [] => NoMatch
  end.

(** ** The tokenizer, tokenizer.c *)

Inductive ptok :=
  | TkSpace (newline : bool) | TkEnd | TkChar (c : cconst) | TkNumber (bytes : list Z)
  | TkString (l : literal) | TkName (bytes : list Z) | TkPunct (p : punct).

Definition map_res {A B} (f : A -> B) (x : res (A * list Z)) : res (B * list Z) :=
  bind x (fun p => Ok (f (fst p), snd p)).
Definition of_option {A} (x : option A) : res A := match x with Some a => Ok a | None => NoMatch end.

(** preprocessor_next_impl, tokenizer.c:26-84; the final KEFIR_NO_MATCH is an error *)
Definition next_token (s : list Z) : res (ptok * list Z) :=
  match
    or_else (map_res TkSpace (match_whitespace s))
    (or_else (match s with [] => Ok (TkEnd, []) | _ => NoMatch end)
    (or_else (map_res TkChar (match_char_constant s))
    (or_else (map_res TkNumber (match_number s))
    (or_else (map_res TkString (match_literal s))
    (or_else (map_res TkName (match_name s))
      (map_res TkPunct (of_option (match_punctuator s))))))))
  with
  | NoMatch => Error
  | r => r
  end.

(** A caller that reads to the end of the text: the tokens with the rest of the text
    after each. *)
Fixpoint tokenize (fuel : nat) (s : list Z) : res (list (ptok * list Z)) :=
  match fuel with
  | O => Error
  | S fuel =>
    bind (next_token s) (fun p =>
    match fst p with
    | TkEnd => Ok []
    | t => bind (tokenize fuel (snd p)) (fun l => Ok ((t, snd p) :: l))
    end)
  end.

(** ** Keywords, keyword.c *)

Inductive keyword :=
  | K_AUTO | K_BREAK | K_CASE | K_CHAR | K_CONST | K_CONTINUE | K_DEFAULT | K_DO | K_DOUBLE | K_ELSE | K_ENUM
  | K_EXTERN | K_FLOAT | K_FOR | K_GOTO | K_IF | K_INLINE | K_INT | K_LONG | K_REGISTER | K_RESTRICT | K_RETURN
  | K_SHORT | K_SIGNED | K_SIZEOF | K_STATIC | K_STRUCT | K_SWITCH | K_TYPEDEF | K_UNION | K_UNSIGNED | K_VOID
  | K_VOLATILE | K_WHILE | K_ALIGNAS | K_ALIGNOF | K_ATOMIC | K_BOOL | K_COMPLEX | K_GENERIC | K_IMAGINARY
  | K_NORETURN | K_STATIC_ASSERT | K_THREAD_LOCAL | K_ATTRIBUTE | K_ASM.

(** KEYWORDS, keyword.c:25-74 *)
Definition keyword_table : list (list Z * keyword) := map (fun p => (text (fst p), snd p)) [
  ("auto", K_AUTO); ("break", K_BREAK); ("case", K_CASE); ("char", K_CHAR); ("const", K_CONST);
  ("continue", K_CONTINUE); ("default", K_DEFAULT); ("do", K_DO); ("double", K_DOUBLE); ("else", K_ELSE);
  ("enum", K_ENUM); ("extern", K_EXTERN); ("float", K_FLOAT); ("for", K_FOR); ("goto", K_GOTO); ("if", K_IF);
  ("inline", K_INLINE); ("int", K_INT); ("long", K_LONG); ("register", K_REGISTER); ("restrict", K_RESTRICT);
  ("return", K_RETURN); ("short", K_SHORT); ("signed", K_SIGNED); ("sizeof", K_SIZEOF); ("static", K_STATIC);
  ("struct", K_STRUCT); ("switch", K_SWITCH); ("typedef", K_TYPEDEF); ("union", K_UNION);
  ("unsigned", K_UNSIGNED); ("void", K_VOID); ("volatile", K_VOLATILE); ("while", K_WHILE);
  ("_Alignas", K_ALIGNAS); ("_Alignof", K_ALIGNOF); ("_Atomic", K_ATOMIC); ("_Bool", K_BOOL);
  ("_Complex", K_COMPLEX); ("_Generic", K_GENERIC); ("_Imaginary", K_IMAGINARY); ("_Noreturn", K_NORETURN);
  ("_Static_assert", K_STATIC_ASSERT); ("_Thread_local", K_THREAD_LOCAL); ("__attribute__", K_ATTRIBUTE);
  ("__asm__", K_ASM); ("asm", K_ASM)]%string.

(** struct kefir_trie with keywords; [None] is KEYWORD_NONE. *)
Inductive ktrie := KTrie (value : option keyword) (vertices : list (Z * ktrie)).
Definition kvalue (t : ktrie) := let (v, _) := t in v.
Definition kverts (t : ktrie) := let (_, l) := t in l.
(** kefir_trie_at, trie.c:84-103 *)
Fixpoint kvertex (l : list (Z * ktrie)) (k : Z) : option ktrie :=
  match l with
  | [] => None
  | (k', t) :: r => if k' =? k then Some t else kvertex r k
  end.
Fixpoint kset (l : list (Z * ktrie)) (k : Z) (t : ktrie) : list (Z * ktrie) :=
  match l with
  | [] => []
  | (k', t') :: r => if k' =? k then (k', t) :: r else (k', t') :: kset r k t
  end.
(** insert_keyword, keyword.c:79-103; [None] is the clash error *)
Fixpoint insert_keyword (t : ktrie) (literal : list Z) (k : keyword) : option ktrie :=
  match literal with
  | [] => None
  | [c] =>
    match kvertex (kverts t) c with
    | None => Some (KTrie (kvalue t) (kverts t ++ [(c, KTrie (Some k) [])]))
    | Some v => match kvalue v with
                | None => Some (KTrie (kvalue t) (kset (kverts t) c (KTrie (Some k) (kverts v))))
                | Some _ => None
                end
    end
  | c :: r =>
    match kvertex (kverts t) c with
    | None => option_map (fun v => KTrie (kvalue t) (kverts t ++ [(c, v)])) (insert_keyword (KTrie None []) r k)
    | Some v => option_map (fun v' => KTrie (kvalue t) (kset (kverts t) c v')) (insert_keyword v r k)
    end
  end.
(** kefir_lexer_init_keywords, keyword.c:105-118 *)
Fixpoint insert_keywords (t : ktrie) (l : list (list Z * keyword)) : option ktrie :=
  match l with
  | [] => Some t
  | (w, k) :: r => match insert_keyword t w k with Some t' => insert_keywords t' r | None => None end
  end.
Definition keyword_trie : option ktrie := insert_keywords (KTrie None []) keyword_table.
(** match_keyword, keyword.c:120-133 *)
Fixpoint match_keyword (t : ktrie) (w : list Z) : option keyword :=
  match w with
  | [] => kvalue t
  | c :: r => match kvertex (kverts t) c with Some v => match_keyword v r | None => None end
  end.
(** kefir_lexer_get_keyword, keyword.c:135-147, of a string that a null ends *)
Definition get_keyword (w : list Z) : option keyword :=
  match keyword_trie with Some t => match_keyword t (until_nul w) | None => None end.

(** ** Conversion of identifiers, convert.c:36-52 *)

Inductive word := WKeyword (k : keyword) | WName (bytes : list Z).

(** kefir_lexer_scan_identifier_or_keyword with keywords, identifier.c:56-101 *)
Definition scan_word (s : list Z) : res (word * list Z) :=
  bind (scan_name s) (fun p =>
  match get_keyword (fst p) with
  | Some k => Ok (WKeyword k, snd p)
  | None => match name_bytes (fst p) with Some e => Ok (WName e, snd p) | None => Error end
  end).

(** The characters of the bytes of a name, as the new cursor reads them; -1 stands for
    bytes that are no character. *)
Fixpoint decode_all (fuel : nat) (bytes : list Z) : list Z :=
  match fuel with
  | O => []
  | S fuel => match bytes with
              | [] => []
              | _ => match mbrtoc32 bytes with
                     | Some (c, n) => c :: decode_all fuel (skipn n bytes)
                     | None => [-1]
                     end
              end
  end.
(** kefir_preprocessor_token_convert of an identifier; a rest is an error *)
Definition convert_name (bytes : list Z) : res word :=
  bind (scan_word (decode_all (List.length bytes) bytes)) (fun p =>
  match snd p with [] => Ok (fst p) | _ => Error end).
