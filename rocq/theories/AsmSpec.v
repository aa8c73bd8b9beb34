(** What a text in the syntax of the GNU assembler (x86-64, Intel syntax with prefixes)
    means, for the statements that define data.  A text is a list of lines; a line has
    labels and at most one directive.  The meaning of a text is what it adds to the
    sections and to the table of labels.

    Nothing here refers to the printer. *)

From Coq Require Import ZArith Bool List String.
From Verif Require Import LexModel.
Import ListNotations.
Open Scope Z_scope.
Local Notation length := List.length.

(** ** Words of a line *)

Inductive word := Name (n : list Z) | Number (v : Z) | Bytes (b : list Z) | Mark (c : Z).

Definition within (a b c : Z) : bool := (a <=? c) && (c <=? b).
(** a letter, _, ., $ or a byte above 127 *)
Definition starts_name (c : Z) : bool :=
  within 97 122 c || within 65 90 c || (c =? 95) || (c =? 46) || (c =? 36) || within 128 255 c.
Definition is_digit (c : Z) : bool := within 48 57 c.
Definition in_name (c : Z) : bool := starts_name c || is_digit c.

(** The value of a digit *)
Definition digit_value (c : Z) : Z :=
  if is_digit c then c - 48 else if within 97 102 c then c - 87 else if within 65 70 c then c - 55 else 99.
Fixpoint in_base (base : Z) (acc : Z) (l : list Z) : option Z :=
  match l with
  | [] => Some acc
  | c :: l => if digit_value c <? base then in_base base (base * acc + digit_value c) l else None
  end.
(** 0x and hexadecimal digits, 0 and octal digits, or decimal digits *)
Definition number_of (l : list Z) : option Z :=
  match l with
  | 48 :: 120 :: [] => None
  | 48 :: 120 :: l => in_base 16 0 l
  | 48 :: l => in_base 8 0 l
  | l => in_base 10 0 l
  end.

(** Where the reader of words is: between words, in a name, in a number, in a string, after
    a backslash, after a backslash and octal digits; after a number sign the line is a comment *)
Inductive mode :=
  | Between | InName (n : list Z) | InNumber (n : list Z) | InString (b : list Z) | InEscape (b : list Z)
  | InOctal (b : list Z) (count : nat) (v : Z) | InComment.

(** The start of a word *)
Definition opens (c : Z) : option (list word * mode) :=
  if (c =? 32) || (c =? 9) then Some ([], Between)
  else if starts_name c then Some ([], InName [c])
  else if is_digit c then Some ([], InNumber [c])
  else if c =? 34 then Some ([], InString [])
  else if c =? 35 then Some ([], InComment)
  else if (c =? 44) || (c =? 43) || (c =? 45) || (c =? 58) then Some ([Mark c], Between)
  else None.
Definition number_word (n : list Z) : option (list word) := option_map (fun v => [Number v]) (number_of n).
Definition after (w : list word) (r : option (list word * mode)) : option (list word * mode) :=
  option_map (fun p => (w ++ fst p, snd p)) r.
(** A character in a string *)
Definition in_string (b : list Z) (c : Z) : option (list word * mode) :=
  if c =? 34 then Some ([Bytes b], Between) else if c =? 92 then Some ([], InEscape b) else Some ([], InString (b ++ [c])).
Definition is_octal (c : Z) : bool := within 48 55 c.

Definition next (m : mode) (c : Z) : option (list word * mode) :=
  match m with
  | Between => opens c
  | InName n => if in_name c then Some ([], InName (n ++ [c])) else after [Name n] (opens c)
  | InNumber n =>
    if in_name c then Some ([], InNumber (n ++ [c]))
    else match number_word n with Some w => after w (opens c) | None => None end
  | InString b => in_string b c
  | InEscape b =>
    if is_octal c then Some ([], InOctal b 1 (c - 48))
    else if c =? 98 then Some ([], InString (b ++ [8]))
    else if c =? 102 then Some ([], InString (b ++ [12]))
    else if c =? 110 then Some ([], InString (b ++ [10]))
    else if c =? 114 then Some ([], InString (b ++ [13]))
    else if c =? 116 then Some ([], InString (b ++ [9]))
    else if (c =? 34) || (c =? 92) then Some ([], InString (b ++ [c]))
    else None
  | InOctal b k v =>
    if is_octal c && (k <? 3)%nat then Some ([], InOctal b (S k) (8 * v + (c - 48)))
    else in_string (b ++ [v mod 256]) c
  | InComment => Some ([], InComment)
  end.
Definition ends (m : mode) : option (list word) :=
  match m with
  | Between | InComment => Some []
  | InName n => Some [Name n]
  | InNumber n => number_word n
  | InString _ | InEscape _ | InOctal _ _ _ => None
  end.
Fixpoint words (m : mode) (l : list Z) : option (list word) :=
  match l with
  | [] => ends m
  | c :: l =>
    match next m c with
    | Some (w, m) => option_map (app w) (words m l)
    | None => None
    end
  end.

(** ** Statements *)

(** A byte of a section: a constant, or byte [k] of the address of a symbol plus an offset *)
Inductive unit_ := Constant (b : Z) | Address (symbol : list Z) (off : Z) (k : nat).

Inductive value := Plain (v : Z) | Symbol (n : list Z) (off : Z).

(** The names that are operators of expressions, in any case *)
Definition operators : list (list Z) :=
  map text ["and"; "eq"; "ge"; "gt"; "le"; "lt"; "mod"; "ne"; "not"; "offset"; "or"; "shl"; "short"; "shr"; "xor"]%string.
Definition small (c : Z) : Z := if within 65 90 c then c + 32 else c.
Definition same (a b : list Z) : bool := if list_eq_dec Z.eq_dec a b then true else false.
Definition is_operator (n : list Z) : bool := existsb (same (map small n)) operators.

Definition plus (v : value) (k : Z) : value :=
  match v with Plain n => Plain (n + k) | Symbol n off => Symbol n (off + k) end.

(** Values separated by commas: a number or a symbol, then numbers added or subtracted *)
Fixpoint values_rest (v : value) (l : list word) : option (list value) :=
  match l with
  | [] => Some [v]
  | Mark 43 :: Number k :: l => values_rest (plus v k) l
  | Mark 45 :: Number k :: l => values_rest (plus v (- k)) l
  | Mark 44 :: Number k :: l => option_map (cons v) (values_rest (Plain k) l)
  | Mark 44 :: Mark 45 :: Number k :: l => option_map (cons v) (values_rest (Plain (- k)) l)
  | Mark 44 :: Name n :: l => if is_operator n then None else option_map (cons v) (values_rest (Symbol n 0) l)
  | _ => None
  end.
Definition values (l : list word) : option (list value) :=
  match l with
  | [] => Some []
  | Number k :: l => values_rest (Plain k) l
  | Mark 45 :: Number k :: l => values_rest (Plain (- k)) l
  | Name n :: l => if is_operator n then None else values_rest (Symbol n 0) l
  | _ => None
  end.

(** [n] bytes of a number, the low one first; an address takes eight *)
Definition little_endian (n : nat) (v : Z) : list unit_ :=
  map (fun k => Constant (v / 256 ^ Z.of_nat k mod 256)) (seq 0 n).
Definition address_of (s : list Z) (off : Z) : list unit_ := map (Address s off) (seq 0 8).
Definition value_units (n : nat) (v : value) : option (list unit_) :=
  match v with
  | Plain v => Some (little_endian n v)
  | Symbol s off => if (n =? 8)%nat then Some (address_of s off) else None
  end.
Fixpoint all_units (n : nat) (l : list value) : option (list unit_) :=
  match l with
  | [] => Some []
  | v :: l => match value_units n v, all_units n l with Some a, Some b => Some (a ++ b) | _, _ => None end
  end.
Definition none (n : Z) : list unit_ := repeat (Constant 0) (Z.to_nat n).

Inductive statement :=
  | Label (n : list Z) | Data (u : list unit_) | Align (n : Z) | Section_ (n : list Z) | Linkage (n : list Z).

(** The number of bytes of a value *)
Definition data_size (d : list Z) : option nat :=
  if same d (text ".byte") then Some 1%nat else if same d (text ".word") then Some 2%nat
  else if same d (text ".long") then Some 4%nat else if same d (text ".quad") then Some 8%nat else None.

Definition directive_meaning (d : list Z) (l : list word) : option statement :=
  match data_size d with
  | Some n => match values l with Some v => option_map Data (all_units n v) | None => None end
  | None =>
    if same d (text ".ascii") then match l with [Bytes b] => Some (Data (map Constant b)) | _ => None end
    else if same d (text ".zero") then
      match l with [Number n] => Some (Data (none n)) | _ => None end
    else if same d (text ".align") then match l with [Number n] => Some (Align n) | _ => None end
    else if same d (text ".section") then match l with [Name n] => Some (Section_ n) | _ => None end
    else if same d (text ".global") || same d (text ".extern") then match l with [Name n] => Some (Linkage n) | _ => None end
    else None
  end.
Fixpoint line_meaning (l : list word) : option (list statement) :=
  match l with
  | [] => Some []
  | Name n :: Mark 58 :: l => option_map (cons (Label n)) (line_meaning l)
  | Name d :: l => option_map (fun s => [s]) (directive_meaning d l)
  | _ => None
  end.

(** The lines of a text, ended or separated by a newline *)
Fixpoint lines (line : list Z) (l : list Z) : list (list Z) :=
  match l with
  | [] => [line]
  | 10 :: l => line :: lines [] l
  | c :: l => lines (line ++ [c]) l
  end.
Fixpoint meanings (l : list (list Z)) : option (list statement) :=
  match l with
  | [] => Some []
  | line :: l =>
    match words Between line with
    | Some w =>
      match line_meaning w, meanings l with Some a, Some b => Some (a ++ b) | _, _ => None end
    | None => None
    end
  end.
Definition meaning (t : list Z) : option (list statement) := meanings (lines [] t).

(** ** Placement *)

(** The contents of the sections, the alignment of their start, the place of each label and
    the section in use *)
Record image := {
  contents : list Z -> list unit_; alignment : list Z -> Z;
  labels : list (list Z * (list Z * Z)); current : list Z }.

Definition size (l : list unit_) : Z := Z.of_nat (length l).
Definition set {A} (f : list Z -> A) (k : list Z) (v : A) : list Z -> A := fun j => if same j k then v else f j.
Definition add_units (u : list unit_) (i : image) : image :=
  {| contents := set (contents i) (current i) (contents i (current i) ++ u);
     alignment := alignment i; labels := labels i; current := current i |}.
Definition here (i : image) : Z := size (contents i (current i)).
Fixpoint find (n : list Z) (l : list (list Z * (list Z * Z))) : option (list Z * Z) :=
  match l with [] => None | (m, p) :: l => if same m n then Some p else find n l end.

(** Sections that hold only zeros *)
Definition no_bits (s : list Z) : bool := same s (text ".bss") || same s (text ".tbss").
Definition is_zero (u : unit_) : bool := match u with Constant b => b =? 0 | Address _ _ _ => false end.

Definition place_one (s : statement) (i : image) : option image :=
  match s with
  | Label n =>
    match find n (labels i) with
    | Some _ => None
    | None =>
      Some {| contents := contents i; alignment := alignment i;
              labels := (n, (current i, here i)) :: labels i; current := current i |}
    end
  | Data u => if no_bits (current i) && negb (forallb is_zero u) then None else Some (add_units u i)
  | Align n =>
    if (1 <=? n) && (n =? 2 ^ Z.log2 n) then
      let i := add_units (none ((- here i) mod n)) i in
      Some {| contents := contents i; alignment := set (alignment i) (current i) (Z.lcm (alignment i (current i)) n);
              labels := labels i; current := current i |}
    else None
  | Section_ n => Some {| contents := contents i; alignment := alignment i; labels := labels i; current := n |}
  | Linkage _ => Some i
  end.
Fixpoint place (l : list statement) (i : image) : option image :=
  match l with [] => Some i | s :: l => match place_one s i with Some i => place l i | None => None end end.

(** What assembling a text adds to an image *)
Definition assemble (t : list Z) (i : image) : option image :=
  match meaning t with Some l => place l i | None => None end.

(** A label stands at data [u], at a multiple of [n] *)
Definition stands (i : image) (name section : list Z) (n : Z) (u : list unit_) : Prop :=
  exists before rest,
    find name (labels i) = Some (section, size before) /\
    contents i section = before ++ u ++ rest /\
    (n | size before) /\ (n | alignment i section).
