(** What the preprocessing tokens of a text are: C17 6.4 (tokens), 6.4.1 (keywords),
    6.4.2.1 (identifiers), 6.4.3 (universal character names), 6.4.4.4 (character
    constants), 6.4.5 (string literals), 6.4.6 (punctuators), 6.4.8 (numbers), 6.4.9
    (comments). *)

From Coq Require Import ZArith Bool List String.
From Verif Require Import LexModel PropPunct.
Import ListNotations.
Open Scope Z_scope.

Definition digit (c : Z) : Prop := In c (text "0123456789").
Definition octal_digit (c : Z) : Prop := In c (text "01234567").
Definition hexadecimal_digit (c : Z) : Prop := In c (text "0123456789abcdefABCDEF").
Definition nondigit (c : Z) : Prop := In c (text "_abcdefghijklmnopqrstuvwxyzABCDEFGHIJKLMNOPQRSTUVWXYZ").
(** space, horizontal tab, new-line, vertical tab, form feed, carriage return *)
Definition white_char (c : Z) : Prop := In c [32; 9; 10; 11; 12; 13].

(** 6.4.3 *)
Inductive ucn : list Z -> Prop :=
  | ucn_4 : forall d, List.length d = 4%nat -> Forall hexadecimal_digit d -> ucn (text "\u" ++ d)
  | ucn_8 : forall d, List.length d = 8%nat -> Forall hexadecimal_digit d -> ucn (text "\U" ++ d).

(** 6.4.2.1 *)
Inductive identifier_nondigit : list Z -> Prop :=
  | in_nondigit : forall c, nondigit c -> identifier_nondigit [c]
  | in_ucn : forall w, ucn w -> identifier_nondigit w.
Inductive identifier : list Z -> Prop :=
  | id_first : forall n, identifier_nondigit n -> identifier n
  | id_nondigit : forall i n, identifier i -> identifier_nondigit n -> identifier (i ++ n)
  | id_digit : forall i c, identifier i -> digit c -> identifier (i ++ [c]).

(** 6.4.8 *)
Inductive pp_number : list Z -> Prop :=
  | pn_digit : forall c, digit c -> pp_number [c]
  | pn_dot_digit : forall c, digit c -> pp_number (text "." ++ [c])
  | pn_more_digit : forall p c, pp_number p -> digit c -> pp_number (p ++ [c])
  | pn_more_nondigit : forall p n, pp_number p -> identifier_nondigit n -> pp_number (p ++ n)
  | pn_exponent : forall p e g, pp_number p -> In e (text "eEpP") -> In g (text "+-") -> pp_number (p ++ [e; g])
  | pn_dot : forall p, pp_number p -> pp_number (p ++ text ".").

(** 6.4.4.4 *)
Inductive escape_sequence : list Z -> Prop :=
  | es_simple : forall c, In c (text "'""?\abfnrtv") -> escape_sequence [92; c]
  | es_octal : forall d, (1 <= List.length d <= 3)%nat -> Forall octal_digit d -> escape_sequence (92 :: d)
  | es_hexadecimal : forall d, d <> [] -> Forall hexadecimal_digit d -> escape_sequence (text "\x" ++ d)
  | es_ucn : forall w, ucn w -> escape_sequence w.
(** c-char-sequence and s-char-sequence, for the quote [q] *)
Inductive char_sequence (q : Z) : list Z -> Prop :=
  | cs_nil : char_sequence q []
  | cs_char : forall c w, c <> q -> c <> 92 -> c <> 10 -> char_sequence q w -> char_sequence q (c :: w)
  | cs_escape : forall e w, escape_sequence e -> char_sequence q w -> char_sequence q (e ++ w).
Inductive character_constant : list Z -> Prop :=
  | cc : forall p w, In p (map text [""; "L"; "u"; "U"]%string) -> w <> [] -> char_sequence 39 w ->
         character_constant (p ++ [39] ++ w ++ [39]).
(** 6.4.5 *)
Inductive string_literal : list Z -> Prop :=
  | sl : forall p w, In p (map text [""; "u8"; "u"; "U"; "L"]%string) -> char_sequence 34 w ->
         string_literal (p ++ [34] ++ w ++ [34]).

(** 6.4p1: preprocessing-token, without header names *)
Inductive kind := KName | KNumber | KChar | KString | KPunct | KOther.
Inductive standard : kind -> list Z -> Prop :=
  | st_name : forall w, identifier w -> standard KName w
  | st_number : forall w, pp_number w -> standard KNumber w
  | st_char : forall w, character_constant w -> standard KChar w
  | st_string : forall w, string_literal w -> standard KString w
  | st_punct : forall w, In w c17_punctuators -> standard KPunct w.
Inductive pp_token : kind -> list Z -> Prop :=
  | pt_standard : forall k w, standard k w -> pp_token k w
  | pt_other : forall c, ~ white_char c -> (forall k, ~ standard k [c]) -> pp_token KOther [c].

(** 6.4p4: the next preprocessing token is the longest sequence that could be one. *)
Definition longest (k : kind) (w s : list Z) : Prop :=
  starts_with s w /\ pp_token k w /\
  forall k' w', pp_token k' w' -> starts_with s w' -> (List.length w' <= List.length w)%nat.

(** 6.4p3, 6.4.9: a white-space character or a comment at the start of [s], [r] what
    follows; whether it is a new-line. *)
Inductive white : bool -> list Z -> list Z -> Prop :=
  | wh_char : forall c r, white_char c -> white (c =? 10) (c :: r) r
  | wh_block : forall x r, (forall y z, x ++ text "*" <> y ++ text "*/" ++ z) ->
               white false (text "/*" ++ x ++ text "*/" ++ r) r
  | wh_line : forall x r, ~ In 10 x -> (r = [] \/ exists t, r = 10 :: t) ->
              white false (text "//" ++ x ++ r) r.

(** What opens white space: no token starts there. *)
Definition opens_white (s : list Z) : Prop :=
  (exists c r, s = c :: r /\ white_char c) \/ starts_with s (text "/*") \/ starts_with s (text "//").

(** A text as preprocessing tokens and white space, 5.1.1.2p1 phase 3. *)
Inductive item := IWhite (newline : bool) | IToken (k : kind) (w : list Z).
Inductive division : list Z -> list item -> Prop :=
  | dv_end : division [] []
  | dv_white : forall n s r l, white n s r -> division r l -> division s (IWhite n :: l)
  | dv_token : forall k w r l, ~ opens_white (w ++ r) -> longest k w (w ++ r) -> division r l ->
               division (w ++ r) (IToken k w :: l).

(** 6.4.7: whether it is between angle brackets, the name, the lexeme *)
Inductive header_name : bool -> list Z -> list Z -> Prop :=
  | hn_h : forall n, n <> [] -> ~ In 10 n -> ~ In 62 n -> header_name true n (text "<" ++ n ++ text ">")
  | hn_q : forall n, n <> [] -> ~ In 10 n -> ~ In 34 n -> header_name false n (text """" ++ n ++ text """").

(** The texts for which acceptance is shown: names of at most 255 characters, no
    universal character name in names and numbers, no octal, hexadecimal or universal
    escape in literals, characters below the surrogates, no character that is no token,
    and no [.] or [%:] directly before a token that starts with [.] or [%]. *)
Inductive plain (q : Z) : list Z -> Prop :=
  | pl_nil : plain q []
  | pl_char : forall c w, 0 < c < 55296 -> c <> q -> c <> 92 -> c <> 10 -> plain q w -> plain q (c :: w)
  | pl_escape : forall c w, In c (text "'""?\abfnrtv") -> plain q w -> plain q (92 :: c :: w).
Inductive fine : kind -> list Z -> Prop :=
  | fn_name : forall w, ~ In 92 w -> (List.length w <= 255)%nat -> fine KName w
  | fn_number : forall w, ~ In 92 w -> fine KNumber w
  | fn_char : forall p w, In p (map text [""; "L"; "u"; "U"]%string) -> plain 39 w -> fine KChar (p ++ [39] ++ w ++ [39])
  | fn_string : forall p w, In p (map text [""; "u8"; "u"; "U"; "L"]%string) -> plain 34 w -> fine KString (p ++ [34] ++ w ++ [34])
  | fn_punct : forall w, fine KPunct w.
Definition clash (w : list Z) (l : list item) : Prop :=
  exists k t l', (w = text "." /\ l = IToken k (46 :: t) :: l') \/ (w = text "%:" /\ l = IToken k (37 :: t) :: l').
Fixpoint all_fine (l : list item) : Prop :=
  match l with
  | [] => True
  | IWhite _ :: l' => all_fine l'
  | IToken k w :: l' => fine k w /\ ~ clash w l' /\ all_fine l'
  end.

(** 6.4.1 *)
Definition c17_keywords : list (list Z) := map text [
  "auto"; "break"; "case"; "char"; "const"; "continue"; "default"; "do"; "double"; "else"; "enum"; "extern";
  "float"; "for"; "goto"; "if"; "inline"; "int"; "long"; "register"; "restrict"; "return"; "short"; "signed";
  "sizeof"; "static"; "struct"; "switch"; "typedef"; "union"; "unsigned"; "void"; "volatile"; "while";
  "_Alignas"; "_Alignof"; "_Atomic"; "_Bool"; "_Complex"; "_Generic"; "_Imaginary"; "_Noreturn";
  "_Static_assert"; "_Thread_local"]%string.
