(** Model of the preprocess-only output: source/preprocessor/format.c, with the string
    literals and character constants of [StrModel].

    The output is the list of characters that the next reader sees: names and numbers
    are written as their bytes and read as UTF-8.  Keyword, header name, placemaker and
    extension tokens are absent: the tokenizer makes none of them for a text line. *)

From Coq Require Import ZArith Bool List String.
From Verif Require Import LexModel StrModel TokModel.
Import ListNotations.
Open Scope Z_scope.

(** PUNCTUATORS in format_punctuator, format.c:36-89 *)
Definition format_punctuator (p : punct) : list Z :=
  text match p with
  | P_LEFT_BRACKET => "[" | P_RIGHT_BRACKET => "]" | P_LEFT_PARENTHESE => "(" | P_RIGHT_PARENTHESE => ")"
  | P_LEFT_BRACE => "{" | P_RIGHT_BRACE => "}" | P_DOT => "." | P_RIGHT_ARROW => "->" | P_DOUBLE_PLUS => "++"
  | P_DOUBLE_MINUS => "--" | P_AMPERSAND => "&" | P_STAR => "*" | P_PLUS => "+" | P_MINUS => "-" | P_TILDE => "~"
  | P_EXCLAMATION_MARK => "!" | P_SLASH => "/" | P_PERCENT => "%" | P_LEFT_SHIFT => "<<" | P_RIGHT_SHIFT => ">>"
  | P_LESS_THAN => "<" | P_GREATER_THAN => ">" | P_LESS_OR_EQUAL => "<=" | P_GREATER_OR_EQUAL => ">=" | P_EQUAL => "=="
  | P_NOT_EQUAL => "!=" | P_CARET => "^" | P_VBAR => "|" | P_DOUBLE_AMPERSAND => "&&" | P_DOUBLE_VBAR => "||"
  | P_QUESTION_MARK => "?" | P_COLON => ":" | P_SEMICOLON => ";" | P_ELLIPSIS => "..." | P_ASSIGN => "="
  | P_ASSIGN_MULTIPLY => "*=" | P_ASSIGN_DIVIDE => "/=" | P_ASSIGN_MODULO => "%=" | P_ASSIGN_ADD => "+="
  | P_ASSIGN_SUBTRACT => "-=" | P_ASSIGN_SHIFT_LEFT => "<<=" | P_ASSIGN_SHIFT_RIGHT => ">>=" | P_ASSIGN_AND => "&="
  | P_ASSIGN_XOR => "^=" | P_ASSIGN_OR => "|=" | P_COMMA => "," | P_HASH => "#" | P_DOUBLE_HASH => "##"
  | P_DIGRAPH_LEFT_BRACKET => "[" | P_DIGRAPH_RIGHT_BRACKET => "]" | P_DIGRAPH_LEFT_BRACE => "{"
  | P_DIGRAPH_RIGHT_BRACE => "}" | P_DIGRAPH_HASH => "#" | P_DIGRAPH_DOUBLE_HASH => "##"
  end%string.

(** kefir_preprocessor_whitespace_format_t, headers/kefir/preprocessor/format.h:27-30 *)
Inductive ws_format := Original | SingleSpace.

Section Locale.
Variable iswprint : Z -> bool.

(** format_token, format.c:310-365 *)
Definition format_token (f : ws_format) (t : ptok) : list Z :=
  match t with
  | TkEnd => []
  | TkName bytes | TkNumber bytes => decode_all (List.length bytes) bytes
  | TkChar c => format_constant iswprint c
  | TkString l => format_literal iswprint l
  | TkPunct p => format_punctuator p
  | TkSpace n => match f with Original => if n then [newline] else [32] | SingleSpace => [32] end
  end.

(** kefir_preprocessor_format, format.c:367-376 *)
Definition format (f : ws_format) (ts : list ptok) : list Z := flat_map (format_token f) ts.

End Locale.
