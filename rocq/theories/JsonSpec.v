(** JSON texts (RFC 8259): a reader of bytes in UTF-8.  A text is divided into tokens, and
    the tokens are one value.  Nothing here refers to the writer. *)

From Coq Require Import ZArith Bool List String.
From Verif Require Import LexModel.
Import ListNotations.
Open Scope Z_scope.
Local Notation length := List.length.

(** A number is mantissa times ten to the exponent; a string is a list of code points *)
Inductive json :=
  | JNull | JBool (b : bool) | JNumber (mantissa exponent : Z) | JString (s : list Z)
  | JArray (l : list json) | JObject (l : list (list Z * json)).

Inductive token := Mark (c : Z) | TString (s : list Z) | TNumber (mantissa exponent : Z) | TWord (j : json).

Definition within (a b c : Z) : bool := (a <=? c) && (c <=? b).
Definition is_digit (c : Z) : bool := within 48 57 c.

(** ** Numbers: an optional minus sign, digits without a leading zero, a fraction, an exponent *)
Fixpoint take_digits (l : list Z) : list Z * list Z :=
  match l with
  | c :: l' => if is_digit c then let (d, r) := take_digits l' in (c :: d, r) else ([], l)
  | [] => ([], [])
  end.
Fixpoint decimal (acc : Z) (l : list Z) : Z :=
  match l with [] => acc | c :: l => decimal (10 * acc + (c - 48)) l end.
Definition good_integer (d : list Z) : bool :=
  match d with [] => false | [_] => true | c :: _ => negb (c =? 48) end.
Definition nonempty (d : list Z) : bool := match d with [] => false | _ => true end.
Definition exponent_of (l : list Z) : option Z :=
  match l with
  | [] => Some 0
  | c :: l =>
    if (c =? 101) || (c =? 69) then
      let (s, l) := match l with
                    | c :: l' => if c =? 45 then (-1, l') else if c =? 43 then (1, l') else (1, l)
                    | [] => (1, l) end in
      let (d, r) := take_digits l in
      if nonempty d && negb (nonempty r) then Some (s * decimal 0 d) else None
    else None
  end.
Definition number_of (l : list Z) : option (Z * Z) :=
  let (s, l) := match l with c :: l' => if c =? 45 then (-1, l') else (1, l) | [] => (1, l) end in
  let (d, r) := take_digits l in
  if good_integer d then
    let (f, r) := match r with c :: r' => if c =? 46 then let (f, r) := take_digits r' in (Some f, r) else (None, r) | [] => (None, r) end in
    match f, exponent_of r with
    | Some [], _ => None
    | Some f, Some e => Some (s * decimal 0 (d ++ f), e - Z.of_nat (length f))
    | None, Some e => Some (s * decimal 0 d, e)
    | _, None => None
    end
  else None.

(** ** Tokens *)

Inductive mode :=
  | Between | InNumber (n : list Z) | InWord (n : list Z) | InString (s : list Z)
  | InEscape (s : list Z) | InUnicode (s : list Z) (count : nat) (v : Z)
  | InSequence (s : list Z) (more : nat) (v least : Z).

Definition number_char (c : Z) : bool := is_digit c || (c =? 43) || (c =? 45) || (c =? 46) || (c =? 101) || (c =? 69).
Definition letter (c : Z) : bool := within 97 122 c.
Definition same (a b : list Z) : bool := if list_eq_dec Z.eq_dec a b then true else false.
Definition word_of (n : list Z) : option json :=
  if same n (text "null") then Some JNull else if same n (text "true") then Some (JBool true)
  else if same n (text "false") then Some (JBool false) else None.

Definition opens (c : Z) : option (list token * mode) :=
  if (c =? 32) || (c =? 9) || (c =? 10) || (c =? 13) then Some ([], Between)
  else if is_digit c || (c =? 45) then Some ([], InNumber [c])
  else if letter c then Some ([], InWord [c])
  else if c =? 34 then Some ([], InString [])
  else if (c =? 44) || (c =? 58) || (c =? 91) || (c =? 93) || (c =? 123) || (c =? 125) then Some ([Mark c], Between)
  else None.
Definition after (t : option token) (r : option (list token * mode)) : option (list token * mode) :=
  match t, r with Some t, Some (l, m) => Some (t :: l, m) | _, _ => None end.
Definition number_token (n : list Z) : option token := option_map (fun p => TNumber (fst p) (snd p)) (number_of n).
Definition word_token (n : list Z) : option token := option_map TWord (word_of n).

(** Code points that are characters *)
Definition scalar_value (c : Z) : bool := within 0 55295 c || within 57344 1114111 c.
Definition hex_value (c : Z) : option Z :=
  if is_digit c then Some (c - 48) else if within 97 102 c then Some (c - 87) else if within 65 70 c then Some (c - 55) else None.

Definition next (m : mode) (c : Z) : option (list token * mode) :=
  match m with
  | Between => opens c
  | InNumber n => if number_char c then Some ([], InNumber (n ++ [c])) else after (number_token n) (opens c)
  | InWord n => if letter c then Some ([], InWord (n ++ [c])) else after (word_token n) (opens c)
  | InString s =>
    if c =? 34 then Some ([TString s], Between) else if c =? 92 then Some ([], InEscape s)
    else if within 32 127 c then Some ([], InString (s ++ [c]))
    else if within 194 223 c then Some ([], InSequence s 1 (c - 192) 128)
    else if within 224 239 c then Some ([], InSequence s 2 (c - 224) 2048)
    else if within 240 244 c then Some ([], InSequence s 3 (c - 240) 65536)
    else None
  | InEscape s =>
    if (c =? 34) || (c =? 92) || (c =? 47) then Some ([], InString (s ++ [c]))
    else if c =? 98 then Some ([], InString (s ++ [8]))
    else if c =? 102 then Some ([], InString (s ++ [12]))
    else if c =? 110 then Some ([], InString (s ++ [10]))
    else if c =? 114 then Some ([], InString (s ++ [13]))
    else if c =? 116 then Some ([], InString (s ++ [9]))
    else if c =? 117 then Some ([], InUnicode s 0 0)
    else None
  | InUnicode s k v =>
    match hex_value c with
    | Some h => if (k =? 3)%nat then Some ([], InString (s ++ [16 * v + h])) else Some ([], InUnicode s (S k) (16 * v + h))
    | None => None
    end
  | InSequence s k v least =>
    if within 128 191 c then
      let v := 64 * v + (c - 128) in
      match k with
      | 1%nat => if (least <=? v) && scalar_value v then Some ([], InString (s ++ [v])) else None
      | S k => Some ([], InSequence s k v least)
      | O => None
      end
    else None
  end.
Definition ends (m : mode) : option (list token) :=
  match m with
  | Between => Some []
  | InNumber n => option_map (fun t => [t]) (number_token n)
  | InWord n => option_map (fun t => [t]) (word_token n)
  | _ => None
  end.
Fixpoint tokens (m : mode) (l : list Z) : option (list token) :=
  match l with
  | [] => ends m
  | c :: l =>
    match next m c with
    | Some (t, m) => option_map (app t) (tokens m l)
    | None => None
    end
  end.

(** ** Values *)

Fixpoint value (fuel : nat) (l : list token) : option (json * list token) :=
  match fuel with
  | O => None
  | S fuel =>
    match l with
    | TWord j :: l => Some (j, l)
    | TNumber m e :: l => Some (JNumber m e, l)
    | TString s :: l => Some (JString s, l)
    | Mark 91 :: Mark 93 :: l => Some (JArray [], l)
    | Mark 91 :: l => match elements fuel l with Some (vs, l) => Some (JArray vs, l) | None => None end
    | Mark 123 :: Mark 125 :: l => Some (JObject [], l)
    | Mark 123 :: l => match members fuel l with Some (vs, l) => Some (JObject vs, l) | None => None end
    | _ => None
    end
  end
with elements (fuel : nat) (l : list token) : option (list json * list token) :=
  match fuel with
  | O => None
  | S fuel =>
    match value fuel l with
    | Some (v, Mark 93 :: l) => Some ([v], l)
    | Some (v, Mark 44 :: l) => match elements fuel l with Some (vs, l) => Some (v :: vs, l) | None => None end
    | _ => None
    end
  end
with members (fuel : nat) (l : list token) : option (list (list Z * json) * list token) :=
  match fuel with
  | O => None
  | S fuel =>
    match l with
    | TString k :: Mark 58 :: l =>
      match value fuel l with
      | Some (v, Mark 125 :: l) => Some ([(k, v)], l)
      | Some (v, Mark 44 :: l) => match members fuel l with Some (vs, l) => Some ((k, v) :: vs, l) | None => None end
      | _ => None
      end
    | _ => None
    end
  end.
(** The value of a text *)
Definition read (t : list Z) : option json :=
  match tokens Between t with
  | Some l => match value (2 * length l) l with Some (v, []) => Some v | _ => None end
  | None => None
  end.

(** UTF-8 *)
Definition utf8 (c : Z) : list Z :=
  if c <? 128 then [c]
  else if c <? 2048 then [192 + c / 64; 128 + c mod 64]
  else if c <? 65536 then [224 + c / 4096; 128 + c / 64 mod 64; 128 + c mod 64]
  else [240 + c / 262144; 128 + c / 4096 mod 64; 128 + c / 64 mod 64; 128 + c mod 64].
