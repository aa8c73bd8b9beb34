(** Model of the lexer: source cursor (source/lexer/source_cursor.c), punctuators
    (source/lexer/tokens/punctuator.c, source/core/trie.c), integer constants
    (source/lexer/tokens/integer_constant.c), and of the pasting of punctuators
    (source/preprocessor/user_macro.c:236-285). *)

From Coq Require Import ZArith Bool List Ascii String.
From Verif Require Import CTypes.
Import ListNotations.
Open Scope Z_scope.

(** Characters are their code points. *)
Definition text (s : string) : list Z := map (fun c => Z.of_nat (nat_of_ascii c)) (list_ascii_of_string s).

(** ** Source cursor *)

Section Cursor.

(** mbrtoc32 on the bytes from the cursor on, in the locale of the compiler: the
    character and the number of bytes used; [None] for an invalid or incomplete
    character, in particular at the end of input.  The conversion state after a
    complete character is the initial one (true of UTF-8). *)
Variable decode : list Z -> option (Z * nat).

Definition newline : Z := 10.
Definition backslash : Z := 92.

(** The bytes after a backslash, if a newline follows it: source_cursor.c:56-73, 107-127. *)
Definition splice (c : Z) (r : list Z) : option (list Z) :=
  if c =? backslash then
    match r with
    | [] => None
    | _ => match decode r with
           | Some (c2, n2) => if c2 =? 0 then None else if c2 =? newline then Some (skipn n2 r) else None
           | None => None
           end
    end
  else None.

(** at_impl, source_cursor.c:40-80.  The fuel is the number of iterations. *)
Fixpoint at_loop (fuel : nat) (bytes : list Z) (count : nat) : Z :=
  match fuel with
  | O => -1
  | S fuel =>
    match decode bytes with
    | None => 0
    | Some (c, n) =>
      if c =? 0 then 0 else
      let r := skipn n bytes in
      match splice c r with
      | Some r' => at_loop fuel r' count
      | None => match count with O => c | S count => at_loop fuel r count end
      end
    end
  end.
Definition cursor_at (bytes : list Z) (count : nat) : Z := at_loop (S (List.length bytes)) bytes count.

(** next_impl, source_cursor.c:87-140: the new position, line and column; [None] is
    KEFIR_INVALID_STATE. *)
Record cursor := { here : list Z; line : Z; column : Z }.
Fixpoint next_loop (fuel : nat) (s : cursor) (count : nat) : option cursor :=
  match count with
  | O => Some s
  | S count' =>
    match fuel with
    | O => None
    | S fuel =>
      match decode (here s) with
      | None => None
      | Some (c, n) =>
        if c =? 0 then Some s else
        let r := skipn n (here s) in
        if c =? newline then next_loop fuel {| here := r; line := line s + 1; column := 1 |} count'
        else match splice c r with
        | Some r' => next_loop fuel {| here := r'; line := line s + 1; column := 1 |} count
        | None => next_loop fuel {| here := r; line := line s; column := column s + 1 |} count'
        end
      end
    end
  end.
Definition cursor_next (s : cursor) (count : nat) : option cursor := next_loop (S (List.length (here s))) s count.

End Cursor.

(** From here on the cursor is the remaining logical text: [at k] is its k-th character
    (0 after the end) and [next k] drops k characters.  c06_* in PropLex.v prove this. *)
Definition char_at (s : list Z) (k : nat) : Z := nth k s 0.

(** ** Punctuators *)

(** kefir_punctuator_token_t, headers/kefir/lexer/punctuator.h *)
Inductive punct :=
  | P_LEFT_BRACKET | P_RIGHT_BRACKET | P_LEFT_PARENTHESE | P_RIGHT_PARENTHESE | P_LEFT_BRACE
  | P_RIGHT_BRACE | P_DOT | P_RIGHT_ARROW | P_DOUBLE_PLUS | P_DOUBLE_MINUS | P_AMPERSAND
  | P_STAR | P_PLUS | P_MINUS | P_TILDE | P_EXCLAMATION_MARK | P_SLASH | P_PERCENT
  | P_LEFT_SHIFT | P_RIGHT_SHIFT | P_LESS_THAN | P_GREATER_THAN | P_LESS_OR_EQUAL
  | P_GREATER_OR_EQUAL | P_EQUAL | P_NOT_EQUAL | P_CARET | P_VBAR | P_DOUBLE_AMPERSAND
  | P_DOUBLE_VBAR | P_QUESTION_MARK | P_COLON | P_SEMICOLON | P_ELLIPSIS | P_ASSIGN
  | P_ASSIGN_MULTIPLY | P_ASSIGN_DIVIDE | P_ASSIGN_MODULO | P_ASSIGN_ADD | P_ASSIGN_SUBTRACT
  | P_ASSIGN_SHIFT_LEFT | P_ASSIGN_SHIFT_RIGHT | P_ASSIGN_AND | P_ASSIGN_XOR | P_ASSIGN_OR
  | P_COMMA | P_HASH | P_DOUBLE_HASH | P_DIGRAPH_LEFT_BRACKET | P_DIGRAPH_RIGHT_BRACKET
  | P_DIGRAPH_LEFT_BRACE | P_DIGRAPH_RIGHT_BRACE | P_DIGRAPH_HASH | P_DIGRAPH_DOUBLE_HASH.
Scheme Equality for punct.

(** PUNCTUATORS, punctuator.c:25-81 *)
Definition punctuators : list (punct * list Z) := [
  (P_LEFT_BRACKET, text "["); (P_RIGHT_BRACKET, text "]"); (P_LEFT_PARENTHESE, text "(");
  (P_RIGHT_PARENTHESE, text ")"); (P_LEFT_BRACE, text "{"); (P_RIGHT_BRACE, text "}");
  (P_DOT, text "."); (P_RIGHT_ARROW, text "->"); (P_DOUBLE_PLUS, text "++");
  (P_DOUBLE_MINUS, text "--"); (P_AMPERSAND, text "&"); (P_STAR, text "*");
  (P_PLUS, text "+"); (P_MINUS, text "-"); (P_TILDE, text "~");
  (P_EXCLAMATION_MARK, text "!"); (P_SLASH, text "/"); (P_PERCENT, text "%");
  (P_LEFT_SHIFT, text "<<"); (P_RIGHT_SHIFT, text ">>"); (P_LESS_THAN, text "<");
  (P_GREATER_THAN, text ">"); (P_LESS_OR_EQUAL, text "<="); (P_GREATER_OR_EQUAL, text ">=");
  (P_EQUAL, text "=="); (P_NOT_EQUAL, text "!="); (P_CARET, text "^"); (P_VBAR, text "|");
  (P_DOUBLE_AMPERSAND, text "&&"); (P_DOUBLE_VBAR, text "||"); (P_QUESTION_MARK, text "?");
  (P_COLON, text ":"); (P_SEMICOLON, text ";"); (P_ELLIPSIS, text "...");
  (P_ASSIGN, text "="); (P_ASSIGN_MULTIPLY, text "*="); (P_ASSIGN_DIVIDE, text "/=");
  (P_ASSIGN_MODULO, text "%="); (P_ASSIGN_ADD, text "+="); (P_ASSIGN_SUBTRACT, text "-=");
  (P_ASSIGN_SHIFT_LEFT, text "<<="); (P_ASSIGN_SHIFT_RIGHT, text ">>=");
  (P_ASSIGN_AND, text "&="); (P_ASSIGN_XOR, text "^="); (P_ASSIGN_OR, text "|=");
  (P_COMMA, text ","); (P_HASH, text "#"); (P_DOUBLE_HASH, text "##");
  (P_DIGRAPH_LEFT_BRACKET, text "<:"); (P_DIGRAPH_RIGHT_BRACKET, text ":>");
  (P_DIGRAPH_LEFT_BRACE, text "<%"); (P_DIGRAPH_RIGHT_BRACE, text "%>");
  (P_DIGRAPH_HASH, text "%:"); (P_DIGRAPH_DOUBLE_HASH, text "%:%:")].

(** struct kefir_trie, headers/kefir/core/trie.h; [None] is PUNCTUATOR_NONE. *)
Inductive trie := Trie (value : option punct) (vertices : list (Z * trie)).
Definition tvalue (t : trie) := let (v, _) := t in v.
Definition tverts (t : trie) := let (_, l) := t in l.

(** kefir_trie_at, trie.c:84-103 *)
Fixpoint vertex (l : list (Z * trie)) (k : Z) : option trie :=
  match l with
  | [] => None
  | (k', t) :: r => if k' =? k then Some t else vertex r k
  end.
Definition trie_at (t : trie) (k : Z) : option trie := vertex (tverts t) k.

(** Change the vertex found by kefir_trie_at in place. *)
Fixpoint set_vertex (l : list (Z * trie)) (k : Z) (t : trie) : list (Z * trie) :=
  match l with
  | [] => []
  | (k', t') :: r => if k' =? k then (k', t) :: r else (k', t') :: set_vertex r k t
  end.

(** kefir_trie_insert_vertex appends, trie.c:55-82. *)
Definition insert_vertex (t : trie) (k : Z) (t' : trie) : trie := Trie (tvalue t) (tverts t ++ [(k, t')]).

(** insert_punctuator, punctuator.c:86-110; [None] is the clash error.  [literal] is
    not empty. *)
Fixpoint insert_punct (t : trie) (literal : list Z) (p : punct) : option trie :=
  match literal with
  | [] => None
  | [c] =>
    match trie_at t c with
    | None => Some (insert_vertex t c (Trie (Some p) []))
    | Some v => match tvalue v with
                | None => Some (Trie (tvalue t) (set_vertex (tverts t) c (Trie (Some p) (tverts v))))
                | Some _ => None
                end
    end
  | c :: r =>
    match trie_at t c with
    | None => option_map (insert_vertex t c) (insert_punct (Trie None []) r p)
    | Some v => option_map (fun v' => Trie (tvalue t) (set_vertex (tverts t) c v')) (insert_punct v r p)
    end
  end.

(** kefir_lexer_init_punctuators, punctuator.c:112-126 *)
Fixpoint insert_all (t : trie) (l : list (punct * list Z)) : option trie :=
  match l with
  | [] => Some t
  | (p, w) :: r => match insert_punct t w p with Some t' => insert_all t' r | None => None end
  end.
Definition punct_trie : option trie := insert_all (Trie None []) punctuators.

(** match_punctuator, punctuator.c:128-143: the punctuator and the number of characters
    consumed. *)
Inductive pmatch := PNotFound | PNoMatch | POk (p : punct) (n : nat).
Fixpoint match_loop (t : trie) (s : list Z) : pmatch :=
  match s with
  | [] => match trie_at t 0 with None => PNotFound | Some _ => PNoMatch end
  | c :: r =>
    match trie_at t c with
    | None => PNotFound
    | Some v =>
      match match_loop v r with
      | PNotFound => match tvalue v with None => PNoMatch | Some p => POk p 1 end
      | PNoMatch => PNoMatch
      | POk p n => POk p (S n)
      end
    end
  end.

(** match_impl and kefir_lexer_match_punctuator, punctuator.c:145-167: [None] is
    KEFIR_NO_MATCH, with the cursor restored. *)
Definition match_punctuator (s : list Z) : option (punct * list Z) :=
  match punct_trie with
  | None => None
  | Some t => match match_loop t s with POk p n => Some (p, skipn n s) | _ => None end
  end.

(** ** Pasting of punctuators *)

(** Combinations, user_macro.c:239-273 *)
Definition combinations : list (punct * punct * punct) := [
  (P_MINUS, P_GREATER_THAN, P_RIGHT_ARROW); (P_MINUS, P_MINUS, P_DOUBLE_MINUS);
  (P_PLUS, P_PLUS, P_DOUBLE_PLUS); (P_LESS_THAN, P_LESS_THAN, P_LEFT_SHIFT);
  (P_GREATER_THAN, P_GREATER_THAN, P_RIGHT_SHIFT); (P_LESS_THAN, P_ASSIGN, P_LESS_OR_EQUAL);
  (P_GREATER_THAN, P_ASSIGN, P_GREATER_OR_EQUAL); (P_ASSIGN, P_ASSIGN, P_EQUAL);
  (P_EXCLAMATION_MARK, P_ASSIGN, P_NOT_EQUAL); (P_AMPERSAND, P_AMPERSAND, P_DOUBLE_AMPERSAND);
  (P_VBAR, P_VBAR, P_DOUBLE_VBAR); (P_STAR, P_ASSIGN, P_ASSIGN_MULTIPLY);
  (P_SLASH, P_ASSIGN, P_ASSIGN_DIVIDE); (P_PERCENT, P_ASSIGN, P_ASSIGN_MODULO);
  (P_PLUS, P_ASSIGN, P_ASSIGN_ADD); (P_MINUS, P_ASSIGN, P_ASSIGN_SUBTRACT);
  (P_LEFT_SHIFT, P_ASSIGN, P_ASSIGN_SHIFT_LEFT);
  (P_LESS_THAN, P_LESS_OR_EQUAL, P_ASSIGN_SHIFT_LEFT);
  (P_RIGHT_SHIFT, P_ASSIGN, P_ASSIGN_SHIFT_RIGHT);
  (P_GREATER_THAN, P_GREATER_OR_EQUAL, P_ASSIGN_SHIFT_RIGHT);
  (P_AMPERSAND, P_ASSIGN, P_ASSIGN_AND); (P_CARET, P_ASSIGN, P_ASSIGN_XOR);
  (P_VBAR, P_ASSIGN, P_ASSIGN_OR); (P_HASH, P_HASH, P_DOUBLE_HASH);
  (P_LESS_THAN, P_COLON, P_DIGRAPH_LEFT_BRACKET);
  (P_COLON, P_GREATER_THAN, P_DIGRAPH_RIGHT_BRACKET);
  (P_LESS_THAN, P_PERCENT, P_DIGRAPH_LEFT_BRACE);
  (P_PERCENT, P_GREATER_THAN, P_DIGRAPH_RIGHT_BRACE); (P_PERCENT, P_COLON, P_DIGRAPH_HASH);
  (P_DIGRAPH_HASH, P_DIGRAPH_HASH, P_DIGRAPH_DOUBLE_HASH)].

(** macro_concat_punctuators, user_macro.c:236-285 *)
Fixpoint concat_loop (l : list (punct * punct * punct)) (a b : punct) : option punct :=
  match l with
  | [] => None
  | (x, y, r) :: l => if punct_beq x a && punct_beq y b then Some r else concat_loop l a b
  end.
Definition concat_punctuators (a b : punct) : option punct := concat_loop combinations a b.

(** ** Integer constants *)

(** kefir_isdigit32 etc., source/util/char32.c *)
Definition is_digit (c : Z) : bool := (48 <=? c) && (c <=? 57).
Definition is_octal (c : Z) : bool := (48 <=? c) && (c <=? 55).
Definition is_hex (c : Z) : bool := is_digit c || ((97 <=? c) && (c <=? 102)) || ((65 <=? c) && (c <=? 70)).
Definition hex_value (c : Z) : Z :=
  if is_digit c then c - 48 else if 97 <=? c then c - 87 else c - 55.

Definition wrap64 (z : Z) : Z := z mod 2 ^ 64.

(** The loops of next_decimal_constant, next_octal_constant and
    next_hexadecimal_constant, integer_constant.c:158-200, on an unsigned 64-bit value. *)
Fixpoint digits_loop (ok : Z -> bool) (val : Z -> Z) (base : Z) (s : list Z) (acc : Z) : Z * list Z :=
  match s with
  | c :: r => if ok c then digits_loop ok val base r (wrap64 (wrap64 (acc * base) + val c)) else (acc, s)
  | [] => (acc, [])
  end.

Definition next_decimal (s : list Z) : option (Z * list Z) :=
  let c := char_at s 0 in
  if is_digit c && negb (c =? 48) then Some (digits_loop is_digit (fun c => c - 48) 10 s 0) else None.
Definition next_hexadecimal (s : list Z) : option (Z * list Z) :=
  if (char_at s 0 =? 48) && ((char_at s 1 =? 120) || (char_at s 1 =? 88)) && is_hex (char_at s 2)
  then Some (digits_loop is_hex hex_value 16 (skipn 2 s) 0) else None.
Definition next_octal (s : list Z) : option (Z * list Z) :=
  if char_at s 0 =? 48 then Some (digits_loop is_octal (fun c => c - 48) 8 s 0) else None.

(** SUFFIXES, integer_constant.c:205-232 *)
Definition suffixes : list (list Z * ity) := [
  (text "uLL", IULLong); (text "ull", IULLong); (text "LLu", IULLong); (text "llu", IULLong);
  (text "ULL", IULLong); (text "Ull", IULLong); (text "LLU", IULLong); (text "llU", IULLong);
  (text "uL", IULong); (text "ul", IULong); (text "Lu", IULong); (text "lu", IULong);
  (text "UL", IULong); (text "Ul", IULong); (text "LU", IULong); (text "lU", IULong);
  (text "u", IUInt); (text "U", IUInt); (text "LL", ILLong); (text "ll", ILLong);
  (text "L", ILong); (text "l", ILong)].

(** kefir_lexer_cursor_match_string, source_cursor.c:172-184 *)
Fixpoint match_string (s w : list Z) : bool :=
  match w with
  | [] => true
  | c :: w => (char_at s 0 =? c) && match_string (tl s) w
  end.
Fixpoint find_suffix (l : list (list Z * ity)) (s : list Z) : option (list Z * ity) :=
  match l with
  | [] => None
  | (w, t) :: l => if match_string s w then Some (w, t) else find_suffix l s
  end.

(** get_permitted_constant_types, integer_constant.c:35-97 *)
Definition permitted (t : ity) (decimal : bool) : list ity :=
  match t with
  | IInt => if decimal then [IInt; ILong; ILLong] else [IInt; IUInt; ILong; IULong; ILLong; IULLong]
  | IUInt => [IUInt; IULong; IULLong]
  | ILong => if decimal then [ILong; ILLong] else [ILong; IULong; ILLong; IULLong]
  | IULong => [IULong; IULLong]
  | ILLong => if decimal then [ILLong] else [ILLong; IULLong]
  | IULLong => [IULLong]
  | _ => []
  end.

(** Limits of kefir_lexer_context_default, source/lexer/context.c:28-33. *)
Definition limit (t : ity) : Z :=
  match t with
  | IInt => 2147483647
  | IUInt => 4294967295
  | ILong | ILLong => 9223372036854775807
  | IULong | IULLong => 18446744073709551615
  | _ => -1
  end.

(** build_integral_constant and make_integral_constant, integer_constant.c:99-156 *)
Fixpoint build (l : list ity) (value : Z) : option ity :=
  match l with
  | [] => None
  | t :: l => if value <=? limit t then Some t else build l value
  end.

Inductive iconst := IcNoMatch | IcOutOfBounds | IcOk (t : ity) (value : Z) (rest : list Z).

(** scan_suffix, integer_constant.c:202-252 *)
Definition scan_suffix (s : list Z) (decimal : bool) (value : Z) : iconst :=
  let (w, t) := match find_suffix suffixes s with Some x => x | None => ([], IInt) end in
  match build (permitted t decimal) value with
  | Some ty => IcOk ty value (skipn (List.length w) s)
  | None => IcOutOfBounds
  end.

(** kefir_lexer_scan_integral_constant, integer_constant.c:254-279 *)
Definition scan_integer (s : list Z) : iconst :=
  match next_decimal s with
  | Some (v, r) => scan_suffix r true v
  | None =>
    match next_hexadecimal s with
    | Some (v, r) => scan_suffix r false v
    | None =>
      match next_octal s with
      | Some (v, r) => scan_suffix r false v
      | None => IcNoMatch
      end
    end
  end.
