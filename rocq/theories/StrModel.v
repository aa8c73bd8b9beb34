(** Model of string buffers (source/core/string_buffer.c), of the lexing of string
    literals and character constants (source/lexer/tokens/string_literal/*.c,
    characters.c, character_constant.c), of their printing in preprocess-only output
    (source/preprocessor/format.c) and of the joining of adjacent literals
    (source/preprocessor/convert.c).

    The compiler runs in a UTF-8 locale (setlocale(LC_ALL, ""), source/main/main.c:363):
    the multibyte functions of the C library are modelled by UTF-8.  Allocation does not
    fail and sizes do not reach 2^64. *)

From Coq Require Import ZArith Bool List Ascii String.
From Verif Require Import LexModel LexCursor.
Import ListNotations.
Open Scope Z_scope.

(** ** The C library *)

(** UTF-8 encoding of a character; none for surrogates and beyond U+10FFFF. *)
Definition utf8_encode (c : Z) : option (list Z) :=
  if c <? 0 then None else
  if c <? 128 then Some [c] else
  if c <? 2048 then Some [192 + c / 64; 128 + c mod 64] else
  if c <? 65536 then
    if (55296 <=? c) && (c <? 57344) then None
    else Some [224 + c / 4096; 128 + c / 64 mod 64; 128 + c mod 64]
  else if c <? 1114112 then
    Some [240 + c / 262144; 128 + c / 4096 mod 64; 128 + c / 64 mod 64; 128 + c mod 64]
  else None.

(** c32rtomb from the initial state; [None] is (size_t) -1. *)
Definition c32rtomb (c : Z) : option (list Z) := utf8_encode c.

Fixpoint zlist_eqb (a b : list Z) : bool :=
  match a, b with
  | [], [] => true
  | x :: a, y :: b => (x =? y) && zlist_eqb a b
  | _, _ => false
  end.

(** The first character of a byte sequence and the number of its bytes; [None] if the
    bytes do not start with a complete encoding. *)
Definition mb_first (bytes : list Z) : option (Z * nat) :=
  match utf8 bytes with
  | Some (c, n) =>
    match utf8_encode c with
    | Some e => if zlist_eqb e (firstn n bytes) then Some (c, n) else None
    | None => None
    end
  | None => None
  end.

(** mbrtoc32 and mbtowc: character and return value, 0 for the null character. *)
Definition mbrtoc32 (bytes : list Z) : option (Z * nat) :=
  match mb_first bytes with
  | Some (c, n) => Some (c, if c =? 0 then 0%nat else n)
  | None => None
  end.

(** mbrtoc16: return value, stored char16_t and new state; the state holds a low
    surrogate still to be delivered. *)
Inductive rc16 := Rc16 (n : nat) (v : Z) (st : option Z) | Rc16Pending (v : Z) | Rc16Error.
Definition mbrtoc16 (st : option Z) (bytes : list Z) : rc16 :=
  match st with
  | Some low => Rc16Pending low
  | None =>
    match mb_first bytes with
    | None => Rc16Error
    | Some (c, n) =>
      if c =? 0 then Rc16 0 0 None
      else if c <? 65536 then Rc16 n c None
      else Rc16 n (55296 + (c - 65536) / 1024) (Some (56320 + (c - 65536) mod 1024))
    end
  end.

(** c16rtomb: bytes and new state; the state holds a high surrogate. *)
Definition c16rtomb (st : option Z) (v : Z) : option (list Z * option Z) :=
  match st with
  | Some high =>
    if (56320 <=? v) && (v <? 57344)
    then match utf8_encode (65536 + (high - 55296) * 1024 + (v - 56320)) with
         | Some e => Some (e, None) | None => None end
    else None
  | None =>
    if (55296 <=? v) && (v <? 56320) then Some ([], Some v)
    else match utf8_encode v with Some e => Some (e, None) | None => None end
  end.

(** Little-endian bytes of an integer object, and back. *)
Fixpoint le (n : nat) (v : Z) : list Z :=
  match n with O => [] | S n => v mod 256 :: le n (v / 256) end.
Fixpoint unle (l : list Z) : Z :=
  match l with [] => 0 | b :: l => b + 256 * unle l end.

(** ** String buffers *)

(** kefir_string_buffer_mode_t, headers/kefir/core/string_buffer.h:27-33 *)
Inductive mode := Multibyte | Unicode8 | Unicode16 | Unicode32 | Wide.

(** sizeof a character, NullBytes in string_buffer.c:117-121 *)
Definition width (m : mode) : nat :=
  match m with Multibyte | Unicode8 => 1 | Unicode16 => 2 | Unicode32 | Wide => 4 end.

(** struct kefir_string_buffer: [block] is the allocation, its size the capacity. *)
Record buf := { b_mode : mode; block : list Z; b_len : nat }.
Definition capacity (b : buf) : nat := List.length (block b).

Inductive res (A : Type) := Ok (a : A) | NoMatch | Error | Overrun.
Arguments Ok {A} a. Arguments NoMatch {A}. Arguments Error {A}. Arguments Overrun {A}.
Definition bind {A B} (x : res A) (f : A -> res B) : res B :=
  match x with Ok a => f a | NoMatch => NoMatch | Error => Error | Overrun => Overrun end.

(** memcpy of [src] to offset [pos] of a block; [Overrun] is a write outside it. *)
Definition blit (dst : list Z) (pos : nat) (src : list Z) : res (list Z) :=
  if (pos + List.length src <=? List.length dst)%nat
  then Ok (firstn pos dst ++ src ++ skipn (pos + List.length src) dst)
  else Overrun.

(** kefir_string_buffer_init, string_buffer.c:30-42 *)
Definition buf_init (m : mode) : buf := {| b_mode := m; block := repeat 0 32; b_len := 0 |}.

(** kefir_string_buffer_init_value, :44-75, of a token's literal of [n] characters with
    the terminator *)
Definition buf_init_value (m : mode) (value : list Z) (n : nat) : buf :=
  {| b_mode := m; block := value; b_len := ((n - 1) * width m)%nat |}.

(** kefir_string_buffer_value, :88-112: the block and the number of characters with the
    terminator. *)
Definition buf_value (b : buf) : list Z * nat := (block b, (b_len b / width (b_mode b) + 1)%nat).

(** ensure_capacity, :114-132 *)
Definition ensure_capacity (b : buf) (size : nat) : res buf :=
  if (capacity b <=? b_len b + size + 1)%nat then
    bind (blit (repeat 0 (b_len b + size + width (b_mode b) + 64)) 0 (firstn (b_len b) (block b)))
      (fun new => Ok {| b_mode := b_mode b; block := new; b_len := b_len b |})
  else Ok b.

(** insert_buffer, :134-145 *)
Definition insert_buffer (b : buf) (fragment : list Z) : res buf :=
  match fragment with
  | [] => Ok b
  | _ =>
    bind (ensure_capacity b (List.length fragment)) (fun b =>
    bind (blit (block b) (b_len b) fragment) (fun l =>
    Ok {| b_mode := b_mode b; block := l; b_len := (b_len b + List.length fragment)%nat |}))
  end.

(** The loop of kefir_string_buffer_insert_unicode16_character, :213-233.  The fuel is
    the number of iterations. *)
Fixpoint u16_loop (fuel : nat) (b : buf) (st : option Z) (bytes : list Z) : res buf :=
  match bytes with
  | [] => Ok b
  | _ =>
    match fuel with
    | O => Error
    | S fuel =>
      match mbrtoc16 st bytes with
      | Rc16Error => Error
      | Rc16Pending v => bind (insert_buffer b (le 2 v)) (fun b => u16_loop fuel b None bytes)
      | Rc16 0 v st => bind (insert_buffer b (le 2 v)) (fun b => u16_loop fuel b st [])
      | Rc16 n v st => bind (insert_buffer b (le 2 v)) (fun b => u16_loop fuel b st (skipn n bytes))
      end
    end
  end.

(** The loop of kefir_string_buffer_insert_wide_character, :272-287 *)
Fixpoint wide_loop (fuel : nat) (b : buf) (bytes : list Z) : res buf :=
  match bytes with
  | [] => Ok b
  | _ =>
    match fuel with
    | O => Error
    | S fuel =>
      match mbrtoc32 bytes with
      | None => Error
      | Some (v, O) => bind (insert_buffer b (le 4 v)) (fun b => wide_loop fuel b [])
      | Some (v, n) => bind (insert_buffer b (le 4 v)) (fun b => wide_loop fuel b (skipn n bytes))
      end
    end
  end.

(** kefir_string_buffer_insert, :291-318 with the functions for the modes, :156-289.
    An iteration either consumes a byte or delivers a pending surrogate. *)
Definition buf_insert (b : buf) (c : Z) : res buf :=
  match b_mode b with
  | Unicode32 => insert_buffer b (le 4 c)
  | m =>
    match c32rtomb c with
    | None => Error
    | Some e =>
      match m with
      | Unicode16 => u16_loop (2 * List.length e + 2) b None e
      | Wide => wide_loop (List.length e + 1) b e
      | _ => insert_buffer b e
      end
    end
  end.

(** kefir_string_buffer_insert_raw, :320-367: limits and conversions; [Error] is
    KEFIR_OUT_OF_BOUNDS. *)
Definition raw_max (m : mode) : Z :=
  match m with
  | Multibyte | Unicode8 => 255
  | Unicode16 => 65535
  | Unicode32 => 2 ^ 32 - 1
  | Wide => 2 ^ 31 - 1
  end.
Definition buf_insert_raw (b : buf) (v : Z) : res buf :=
  if v <=? raw_max (b_mode b) then insert_buffer b (le (width (b_mode b)) v) else Error.

(** insert_multibyte, :369-392 *)
Fixpoint insert_multibyte (fuel : nat) (b : buf) (bytes : list Z) : res buf :=
  match bytes with
  | [] => Ok b
  | _ =>
    match fuel with
    | O => Error
    | S fuel =>
      match mbrtoc32 bytes with
      | None => Error
      | Some (c, n) =>
        bind (buf_insert b c) (fun b => insert_multibyte fuel b (skipn (match n with O => 1 | _ => n end) bytes))
      end
    end
  end.

Definition contents (b : buf) : list Z := firstn (b_len b) (block b).

(** kefir_string_buffer_convert, :394-433 *)
Definition buf_convert (b : buf) (m : mode) : res buf :=
  match b_mode b with
  | Multibyte =>
    match m with
    | Multibyte => Ok b
    | Unicode8 => Ok {| b_mode := Unicode8; block := block b; b_len := b_len b |}
    | _ => insert_multibyte (S (b_len b)) (buf_init m) (contents b)
    end
  | _ => Error
  end.

(** begin[i] for all characters of the source buffer, :452, 472, 480 *)
Fixpoint elements (n : nat) (w : nat) (bytes : list Z) : list Z :=
  match n with
  | O => []
  | S n => unle (firstn w bytes) :: elements n w (skipn w bytes)
  end.

Fixpoint merge16 (b : buf) (st : option Z) (l : list Z) : res buf :=
  match l with
  | [] => Ok b
  | v :: l =>
    match c16rtomb st v with
    | None => Error
    | Some ([], st) => merge16 b st l
    | Some (e, st) => bind (insert_multibyte (S (List.length e)) b e) (fun b => merge16 b st l)
    end
  end.
Fixpoint merge32 (b : buf) (l : list Z) : res buf :=
  match l with
  | [] => Ok b
  | v :: l => bind (buf_insert b v) (fun b => merge32 b l)
  end.
Fixpoint merge_wide (b : buf) (l : list Z) : res buf :=
  match l with
  | [] => Ok b
  | v :: l =>
    match c32rtomb v with
    | None => Error
    | Some e => bind (insert_multibyte (S (List.length e)) b e) (fun b => merge_wide b l)
    end
  end.

(** kefir_string_buffer_merge, :435-490 *)
Definition buf_merge (dst src : buf) : res buf :=
  match b_mode src with
  | Multibyte | Unicode8 => insert_multibyte (S (b_len src)) dst (contents src)
  | Unicode16 => merge16 dst None (elements (b_len src / 2) 2 (block src))
  | Unicode32 => merge32 dst (elements (b_len src / 4) 4 (block src))
  | Wide => merge_wide dst (elements (b_len src / 4) 4 (block src))
  end.

(** ** String literal tokens *)

(** struct kefir_string_literal_token: type, characters with the terminator *)
Record literal := { s_mode : mode; s_bytes : list Z; s_count : nat }.

(** kefir_token_new_string_literal_*, of a buffer's value: the first [n] characters are
    copied, source/lexer/lexem.c *)
Definition literal_of (b : buf) : literal :=
  let (v, n) := buf_value b in
  {| s_mode := b_mode b; s_bytes := firstn (n * width (b_mode b)) v; s_count := n |}.

(** init_string_buffer and join_string_literals_impl, convert.c:69-166 *)
Definition join_literals (l1 l2 : literal) : res literal :=
  let b1 := buf_init_value (s_mode l1) (s_bytes l1) (s_count l1) in
  let b2 := buf_init_value (s_mode l2) (s_bytes l2) (s_count l2) in
  bind (match s_mode l1, s_mode l2 with
        | Multibyte, Multibyte => Ok b1
        | Multibyte, m => buf_convert b1 m
        | _, _ => Ok b1
        end) (fun b1 =>
  bind (buf_merge b1 b2) (fun b1 => Ok (literal_of b1))).

(** append_string_literal, convert.c:168-219, for two adjacent literals *)
Definition mode_eqb (a b : mode) : bool :=
  match a, b with
  | Multibyte, Multibyte | Unicode8, Unicode8 | Unicode16, Unicode16 | Unicode32, Unicode32 | Wide, Wide => true
  | _, _ => false
  end.
Definition append_literal (l1 l2 : literal) : res literal :=
  match s_mode l1 with
  | Multibyte => join_literals l1 l2
  | m => if mode_eqb (s_mode l2) Multibyte || mode_eqb (s_mode l2) m then join_literals l1 l2 else NoMatch
  end.

(** ** Escape sequences, characters.c *)

(** next_simple_escape_sequence, :51-112: the character after the backslash and its
    meaning *)
Definition simple_escapes : list (Z * Z) :=
  [(39, 39); (34, 34); (63, 63); (92, 92); (97, 7); (98, 8); (102, 12); (110, 10); (114, 13); (116, 9); (118, 11)].
Fixpoint zassoc (k : Z) (l : list (Z * Z)) : option Z :=
  match l with [] => None | (a, b) :: l => if a =? k then Some b else zassoc k l end.
Definition next_simple (s : list Z) : res (Z * list Z) :=
  match zassoc (char_at s 1) simple_escapes with
  | Some v => Ok (v, skipn 2 s)
  | None => NoMatch
  end.

(** next_octal_escape_sequence, :114-132 *)
Definition oct (c : Z) : Z := c - 48.
Definition next_octal_escape (s : list Z) : res (Z * list Z) :=
  let a := char_at s 1 in let b := char_at s 2 in let c := char_at s 3 in
  if is_octal a && is_octal b && is_octal c
  then Ok (Z.lor (Z.lor (Z.shiftl (oct a) 6) (Z.shiftl (oct b) 3)) (oct c), skipn 4 s)
  else if is_octal a && is_octal b then Ok (Z.lor (Z.shiftl (oct a) 3) (oct b), skipn 3 s)
  else if is_octal a then Ok (oct a, skipn 2 s)
  else NoMatch.

(** next_hexadecimal_escape_sequence, :134-150; the value is a char32_t *)
Fixpoint hex_loop (v : Z) (s : list Z) : Z * list Z :=
  match s with
  | c :: r => if is_hex c then hex_loop ((v * 16 + hex_value c) mod 2 ^ 32) r else (v, s)
  | [] => (v, s)
  end.
Definition next_hex_escape (s : list Z) : res (Z * list Z) :=
  if char_at s 1 =? 120 then
    let r := skipn 2 s in
    if is_hex (char_at r 0) then Ok (hex_loop 0 r) else Error
  else NoMatch.

(** kefir_lexer_cursor_next_universal_character, :14-49 *)
Definition hex_fold (l : list Z) : Z := fold_left (fun v c => v * 16 + hex_value c) l 0.
Definition next_universal (s : list Z) : res (Z * list Z) :=
  if (char_at s 0 =? 92) && (char_at s 1 =? 117) then
    let d := map (char_at s) [2; 3; 4; 5]%nat in
    if forallb is_hex d then Ok (hex_fold d, skipn 6 s) else Error
  else if (char_at s 0 =? 92) && (char_at s 1 =? 85) then
    let d := map (char_at s) [2; 3; 4; 5; 6; 7; 8; 9]%nat in
    if forallb is_hex d then Ok (hex_fold d, skipn 10 s) else Error
  else NoMatch.

(** kefir_lexer_cursor_next_escape_sequence, :152-167 *)
Definition or_else {A} (x y : res A) : res A := match x with NoMatch => y | _ => x end.
Definition next_escape (s : list Z) : res (Z * list Z) :=
  if char_at s 0 =? 92 then
    or_else (next_simple s) (or_else (next_octal_escape s) (or_else (next_hex_escape s) (next_universal s)))
  else NoMatch.

(** ** String literals, string_literal/impl.c, narrow.c, unicode8.c, ... *)

(** kefir_lexer_next_string_literal_impl after the prefix, impl.c:43-77.  Every
    iteration consumes a character. *)
Fixpoint string_loop (fuel : nat) (b : buf) (s : list Z) : res (buf * list Z) :=
  match fuel with
  | O => Error
  | S fuel =>
    let c := char_at s 0 in
    if c =? 34 then Ok (b, skipn 1 s)
    else if (c =? 0) || (c =? 10) then Error
    else if c =? 92 then
      let raw := (char_at s 1 =? 120) || is_octal (char_at s 1) || is_hex (char_at s 1) in
      bind (next_escape s) (fun p =>
      bind (if raw then buf_insert_raw b (fst p) else buf_insert b (fst p)) (fun b =>
      string_loop fuel b (snd p)))
    else bind (buf_insert b c) (fun b => string_loop fuel b (skipn 1 s))
  end.

Definition prefix (m : mode) : list Z :=
  match m with
  | Multibyte => text """" | Unicode8 => text "u8""" | Unicode16 => text "u""" | Unicode32 => text "U""" | Wide => text "L"""
  end.

(** kefir_lexer_cursor_match_string *)
Fixpoint starts_with (p s : list Z) : bool :=
  match p with
  | [] => true
  | c :: p => (char_at s 0 =? c) && starts_with p (skipn 1 s)
  end.

Definition next_literal (m : mode) (s : list Z) : res (literal * list Z) :=
  if starts_with (prefix m) s then
    let r := skipn (List.length (prefix m)) s in
    bind (string_loop (S (List.length r)) (buf_init m) r) (fun p => Ok (literal_of (fst p), snd p))
  else NoMatch.

(** kefir_lexer_match_string_literal without merging of adjacent literals (the
    preprocessor's tokenizer), string_literal.c:29-59 *)
Definition match_literal (s : list Z) : res (literal * list Z) :=
  or_else (next_literal Multibyte s) (or_else (next_literal Unicode8 s) (or_else (next_literal Unicode16 s)
    (or_else (next_literal Unicode32 s) (next_literal Wide s)))).

(** ** Printing, format.c *)

(** printf with %x and %03o: digits of an unsigned int *)
Fixpoint digits (fuel : nat) (base v : Z) : list Z :=
  let d := v mod base in
  let c := if d <? 10 then 48 + d else 87 + d in
  match fuel with
  | O => [c]
  | S fuel => if v <? base then [c] else digits fuel base (v / base) ++ [c]
  end.
Definition print_hex (v : Z) : list Z := digits 7 16 v.
Definition print_oct3 (v : Z) : list Z :=
  let d := digits 10 8 v in repeat 48 (3 - List.length d) ++ d.

(** char is signed; isprint in a UTF-8 locale accepts 32..126 *)
Definition schar (b : Z) : Z := if b <? 128 then b else b - 256.

(** format_char, format.c:94-151, for a byte 0..255 *)
Definition format_escapes : list (Z * Z) :=
  [(39, 39); (34, 34); (63, 63); (92, 92); (7, 97); (8, 98); (12, 102); (10, 110); (13, 114); (9, 116); (11, 118); (0, 48)].
Definition format_char (b : Z) : list Z :=
  match zassoc (schar b) format_escapes with
  | Some e => [92; e]
  | None => if (32 <=? schar b) && (schar b <=? 126) then [schar b]
            else 92 :: print_oct3 (schar b mod 2 ^ 32)
  end.

Section Locale.

(** iswprint of the locale *)
Variable iswprint : Z -> bool.

(** format_string_literal, format.c:262-308.  A printable wide character is written
    with %lc in the encoding of the locale, so it is that character of the text; a
    wchar_t is a signed 32-bit integer and printed by %x as unsigned. *)
Definition format_element (m : mode) (v : Z) : list Z :=
  match m with
  | Multibyte | Unicode8 => format_char v
  | Unicode16 | Unicode32 => 92 :: 120 :: print_hex v
  | Wide => if iswprint v then [v] else 92 :: 120 :: print_hex v
  end.
Definition format_literal (l : literal) : list Z :=
  prefix (s_mode l) ++
  flat_map (format_element (s_mode l)) (elements (s_count l - 1) (width (s_mode l)) (s_bytes l)) ++ [34].

End Locale.

(** ** Character constants, character_constant.c *)

(** next_character and the loop of match_narrow_character, :26-103.  The value is an
    int; the computed value is kept exact here and [None] stands for a shift of a
    negative value or an overflow, undefined in C. *)
Definition add_byte (v : option Z) (b : Z) : option Z :=
  match v with
  | Some v => if (0 <=? v) && (v * 256 + schar b <? 2 ^ 31) then Some (v * 256 + schar b) else None
  | None => None
  end.
Fixpoint char_loop (fuel : nat) (v : option Z) (s : list Z) : res (option Z * list Z) :=
  match fuel with
  | O => Error
  | S fuel =>
    let c := char_at s 0 in
    if c =? 92 then
      let raw := (char_at s 1 =? 120) || is_octal (char_at s 1) || is_hex (char_at s 1) in
      bind (next_escape s) (fun p =>
      if raw then if fst p <=? 255 then char_loop fuel (add_byte v (fst p)) (snd p) else Error
      else match c32rtomb (fst p) with
           | Some e => char_loop fuel (fold_left add_byte e v) (snd p)
           | None => Error
           end)
    else if c =? 39 then Ok (v, skipn 1 s)
    else match c32rtomb c with
         | Some e => char_loop fuel (fold_left add_byte e v) (skipn 1 s)
         | None => Error
         end
  end.
Definition next_char_constant (s : list Z) : res (option Z * list Z) :=
  if char_at s 0 =? 39 then
    if char_at s 1 =? 39 then Error else char_loop (S (List.length s)) (Some 0) (skipn 1 s)
  else NoMatch.

(** match_impl, :151-167, and the prefixed constants, :67-149 *)
Inductive cconst := CNarrow (v : option Z) | CWide (v : Z) | CUnicode16 (v : Z) | CUnicode32 (v : Z).

(** next_wide_character and scan_wide_character *)
Fixpoint wide_char_loop (fuel : nat) (v : Z) (s : list Z) : res (Z * list Z) :=
  match fuel with
  | O => Error
  | S fuel =>
    let c := char_at s 0 in
    if c =? 92 then bind (next_escape s) (fun p => wide_char_loop fuel (fst p) (snd p))
    else if c =? 39 then Ok (v, skipn 1 s)
    else wide_char_loop fuel c (skipn 1 s)
  end.
Definition next_prefixed (p : Z) (mk : Z -> cconst) (s : list Z) : res (cconst * list Z) :=
  if (char_at s 0 =? p) && (char_at s 1 =? 39) then
    if char_at s 2 =? 39 then Error
    else bind (wide_char_loop (S (List.length s)) 0 (skipn 2 s)) (fun r => Ok (mk (fst r), snd r))
  else NoMatch.
Definition match_char_constant (s : list Z) : res (cconst * list Z) :=
  or_else (bind (next_char_constant s) (fun r => Ok (CNarrow (fst r), snd r)))
  (or_else (next_prefixed 76 (fun v => CWide (if v <? 2 ^ 31 then v else v - 2 ^ 32)) s)
  (or_else (next_prefixed 117 (fun v => CUnicode16 (v mod 2 ^ 16)) s) (next_prefixed 85 CUnicode32 s))).

(** format_wchar, format.c:154-211 *)
Definition format_wchar (iswprint : Z -> bool) (v : Z) : list Z :=
  match zassoc v format_escapes with
  | Some e => [92; e]
  | None => if iswprint v then [v] else 92 :: 120 :: print_hex (v mod 2 ^ 32)
  end.

(** format_constant, format.c:229-256: the int is passed as a char; the prefixed
    constants are printed without prefix, the last two also without quotes. *)
Definition format_constant (iswprint : Z -> bool) (c : cconst) : list Z :=
  match c with
  | CNarrow (Some v) => [39] ++ format_char (v mod 256) ++ [39]
  | CNarrow None => []
  | CWide v => [39] ++ format_wchar iswprint v ++ [39]
  | CUnicode16 v | CUnicode32 v => [v]
  end.
