(** Model of the JSON writer, source/util/json.c.  The output is a list of bytes.  A string
    of the locale is the list of its characters as mbrtoc32 gives them, each with its bytes.
    NULL checks, output errors and the environment variable that turns a long double into a
    double are left out; hexadecimal floats are given as the text that %a prints. *)

From Coq Require Import ZArith Bool List String.
From Verif Require Import LexModel AsmModel.
Import ListNotations.
Open Scope Z_scope.

(** kefir_json_state_t, headers/kefir/util/json.h:29-36 *)
Inductive jstate := JInit | JObjectEmpty | JObjectField | JObject_ | JArrayEmpty | JArray_.
(** struct kefir_json_output, :38-43 *)
Record writer := { w_indent : nat; w_state : nat -> jstate; w_level : nat; w_out : list Z }.
(** KEFIR_JSON_MAX_DEPTH, :27 *)
Definition MAX_DEPTH : nat := 1024.

(** A double as %lf prints it: the magnitude in units of 10^-6 *)
Inductive double := Finite (negative : bool) (millionths : Z) | Infinite (negative : bool) | NotNumber (negative : bool).

Inductive jcall :=
  | ObjectBegin | ObjectEnd | ArrayBegin | ArrayEnd | Key (s : list (Z * list Z))
  | Integer (v : Z) | UInteger (v : Z) | Float (d : double) | HexFloat (t : list Z)
  | String_ (s : list (Z * list Z)) | RawString (b : list Z) | Boolean (b : bool) | Null.

(** kefir_json_output_init, json.c:27-36 *)
Definition json_init (indent : nat) : writer :=
  {| w_indent := indent; w_state := fun _ => JInit; w_level := 0; w_out := [] |}.
(** kefir_json_output_finalize, json.c:38-45 *)
Definition json_finalize (w : writer) : bool := (w_level w =? 0)%nat.

Definition print (t : list Z) (w : writer) : writer :=
  {| w_indent := w_indent w; w_state := w_state w; w_level := w_level w; w_out := w_out w ++ t |}.
Definition here (w : writer) : jstate := w_state w (w_level w).
Definition become (s : jstate) (w : writer) : writer :=
  {| w_indent := w_indent w; w_state := fun k => if (k =? w_level w)%nat then s else w_state w k;
     w_level := w_level w; w_out := w_out w |}.
Definition at_level (k : nat) (w : writer) : writer :=
  {| w_indent := w_indent w; w_state := w_state w; w_level := k; w_out := w_out w |}.

(** write_indent, json.c:53-61 *)
Definition indent_text (w : writer) : list Z :=
  if (0 <? w_indent w)%nat then 10 :: repeat 32 (w_indent w * w_level w) else [].
Definition write_indent (w : writer) : writer := print (indent_text w) w.
(** write_separator, json.c:63-88 *)
Definition write_separator (w : writer) : writer :=
  match here w with
  | JObjectEmpty | JArrayEmpty => write_indent w
  | JInit => w
  | JObjectField => print (58 :: if (0 <? w_indent w)%nat then [32] else []) w
  | JObject_ | JArray_ => write_indent (print [44] w)
  end.
(** validate_value, json.c:257-275, and the same in object_begin and array_begin, :96-111,
    :137-152; None is an error *)
Definition validate_value (w : writer) : option writer :=
  match here w with
  | JObjectField => Some (become JObject_ w)
  | JArrayEmpty => Some (become JArray_ w)
  | JInit | JArray_ => Some w
  | JObjectEmpty | JObject_ => None
  end.

(** format_string, json.c:179-235: a character and its bytes *)
Definition string_char (p : Z * list Z) : list Z :=
  let (c, bytes) := p in
  if c =? 34 then [92; 34] else if c =? 92 then [92; 92] else if c =? 47 then [92; 47]
  else if c =? 8 then text "\b" else if c =? 12 then text "\f" else if c =? 10 then text "\n"
  else if c =? 13 then text "\r" else if c =? 9 then text "\t" else if c =? 7 then text "\a"
  else bytes.
Definition format_string (s : list (Z * list Z)) : list Z := 34 :: flat_map string_char s ++ [34].
(** kefir_json_output_raw_string, json.c:345-404: a char as an unsigned byte *)
Definition raw_char (c : Z) : list Z :=
  if c =? 34 then [92; 34] else if c =? 92 then [92; 92] else if c =? 47 then [92; 47]
  else if c =? 8 then text "\b" else if c =? 12 then text "\f" else if c =? 10 then text "\n"
  else if c =? 13 then text "\r" else if c =? 9 then text "\t" else if c =? 7 then text "\a"
  else if c =? 11 then text "\v" else if c =? 63 then text "\?" else if c =? 0 then text "\u0000"
  else [c].

Section Locale.
(** The decimal point of the locale, main.c:363 *)
Variable point : Z.

Definition six (v : Z) : list Z :=
  map (fun k => 48 + v / 10 ^ k mod 10) [5; 4; 3; 2; 1; 0].
(** %lf *)
Definition float_text (d : double) : list Z :=
  match d with
  | Finite neg m => (if neg then [45] else []) ++ print_unsigned (m / 1000000) ++ point :: six (m mod 1000000)
  | Infinite neg => (if neg then [45] else []) ++ text "inf"
  | NotNumber neg => (if neg then [45] else []) ++ text "nan"
  end.

(** The text of a value *)
Definition scalar_text (c : jcall) : list Z :=
  match c with
  | Integer v => print_signed v
  | UInteger v => print_unsigned v
  | Float d => float_text d
  | HexFloat t => 34 :: t ++ [34]
  | String_ s => format_string s
  | RawString b => 34 :: flat_map raw_char b ++ [34]
  | Boolean b => if b then text "true" else text "false"
  | Null => text "null"
  | _ => []
  end.

(** A call: whether it succeeds, and the writer after it *)
Definition jstep (c : jcall) (w : writer) : bool * writer :=
  match c with
  (* kefir_json_output_object_begin, _array_begin, json.c:90-114, :131-155 *)
  | ObjectBegin | ArrayBegin =>
    if (w_level w + 1 <? MAX_DEPTH)%nat then
      let w := write_separator w in
      match validate_value w with
      | Some w =>
        let w := at_level (S (w_level w)) w in
        (true, print (match c with ObjectBegin => [123] | _ => [91] end)
                     (become (match c with ObjectBegin => JObjectEmpty | _ => JArrayEmpty end) w))
      | None => (false, w)
      end
    else (false, w)
  (* kefir_json_output_object_end, :116-129 *)
  | ObjectEnd =>
    if (0 <? w_level w)%nat then
      match here w with
      | JObjectEmpty => (true, print [125] (at_level (pred (w_level w)) w))
      | JObject_ => (true, print [125] (write_indent (at_level (pred (w_level w)) w)))
      | _ => (false, w)
      end
    else (false, w)
  (* kefir_json_output_array_end, :157-171 *)
  | ArrayEnd =>
    if (0 <? w_level w)%nat then
      match here w with
      | JArrayEmpty => (true, print [93] (at_level (pred (w_level w)) w))
      | JArray_ => (true, print [93] (write_indent (at_level (pred (w_level w)) w)))
      | _ => (false, w)
      end
    else (false, w)
  (* kefir_json_output_object_key, :237-248 *)
  | Key s =>
    let w := write_separator w in
    match here w with
    | JObjectEmpty | JObject_ => (true, print (format_string s) (become JObjectField w))
    | _ => (false, w)
    end
  (* the functions for scalars, :277-343, :345-420 *)
  | _ =>
    let w := write_separator w in
    match validate_value w with
    | Some w => (true, print (scalar_text c) w)
    | None => (false, w)
    end
  end.
(** A caller stops at the first call that fails (REQUIRE_OK) *)
Fixpoint jrun (l : list jcall) (w : writer) : option writer :=
  match l with
  | [] => Some w
  | c :: l => let (ok, w) := jstep c w in if ok then jrun l w else None
  end.
End Locale.
