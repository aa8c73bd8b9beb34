(** Model of the scanner of floating constants, source/lexer/tokens/floating_constant.c, and of the
    conversion of preprocessing numbers by it, source/preprocessor/convert.c:16-35.  The cursor is
    the list of characters that are left (line splices are the subject of C06); beyond the end it
    reads 0.  The values, computed by strtof, strtod and strtold from the text, are left out: a
    constant is its text and its type.  Allocation failures and NULL arguments are left out. *)

From Coq Require Import ZArith Bool List.
From Verif Require Import CTypes LexModel.
Import ListNotations.
Open Scope Z_scope.

Definition one_of (l : list Z) (c : Z) : bool := existsb (Z.eqb c) l.
(** kefir_isdigit32 and kefir_ishexdigit32, util/char32.c:48-65, 84-103 *)
Definition is_digit : Z -> bool := one_of [48; 49; 50; 51; 52; 53; 54; 55; 56; 57].
Definition is_hexdigit (c : Z) : bool := one_of [97; 65; 98; 66; 99; 67; 100; 68; 101; 69; 102; 70] c || is_digit c.
Definition is_e : Z -> bool := one_of [101; 69].
Definition is_p : Z -> bool := one_of [112; 80].

(** The loops over digits: the digits, inserted into the buffer, and the cursor behind them *)
Fixpoint digits (p : Z -> bool) (s : list Z) : list Z * list Z :=
  match s with
  | c :: r => if p c then let (d, r) := digits p r in (c :: d, r) else ([], s)
  | [] => ([], [])
  end.
Definition none (l : list Z) : bool := match l with [] => true | _ => false end.

(** match_fractional_part and match_hexadecimal_fractional_part, floating_constant.c:28-57, 152-180,
    which differ in the digits and the exponent letter: whether there is a match, the text in the
    buffer, and the cursor *)
Definition fractional_part (digit exp : Z -> bool) (s : list Z) : bool * list Z * list Z :=
  let (i, r) := digits digit s in
  match r with
  | c :: r1 =>
      if c =? 46 then let (f, r2) := digits digit r1 in (negb (none i && none f), i ++ 46 :: f, r2)
      else (negb (none i) && exp c, i, r)
  | [] => (false, i, [])
  end.

(** match_exponent and match_hexadecimal_exponent, floating_constant.c:59-81, 182-204; the digits
    are decimal in both.  No result is an error of the lexer. *)
Definition exponent_part (exp : Z -> bool) (s : list Z) : option (list Z * list Z) :=
  match s with
  | c :: r =>
      if exp c then
        let (sign, r1) := match r with x :: r1 => if one_of [43; 45] x then ([x], r1) else ([], r) | [] => ([], []) end in
        let (d, r2) := digits is_digit r1 in
        if none d then None else Some (c :: sign ++ d, r2)
      else Some ([], s)
  | [] => Some ([], [])
  end.

Inductive fp_type := Float | Double | LongDouble.
(** match_suffix, floating_constant.c:85-106 *)
Definition match_suffix (s : list Z) : fp_type * list Z :=
  match s with
  | c :: r => if one_of [108; 76] c then (LongDouble, r) else if one_of [102; 70] c then (Float, r) else (Double, s)
  | [] => (Double, [])
  end.

(** A token, with the cursor behind it; no match, with the cursor where the attempt stopped; error *)
Inductive outcome := Match (text : list Z) (ty : fp_type) (rest : list Z) | NoMatch (rest : list Z) | LexerError.

Definition constant (digit exp : Z -> bool) (s : list Z) : outcome :=
  let '(ok, text, r) := fractional_part digit exp s in
  if ok then
    match exponent_part exp r with
    | Some (e, r1) => let (ty, r2) := match_suffix r1 in Match (text ++ e) ty r2
    | None => LexerError
    end
  else NoMatch r.

(** match_decimal_impl, floating_constant.c:108-133 *)
Definition match_decimal : list Z -> outcome := constant is_digit is_e.
(** match_hexadecimal_impl, floating_constant.c:206-238 *)
Definition match_hexadecimal (s : list Z) : outcome :=
  match s with
  | c1 :: c2 :: r =>
      if (c1 =? 48) && one_of [120; 88] c2 then
        match constant is_hexdigit is_p r with
        | Match t ty r => Match (c1 :: c2 :: t) ty r
        | o => o
        end
      else NoMatch s
  | _ => NoMatch s
  end.
(** kefir_lexer_scan_floating_point_constant, floating_constant.c:258-268: the cursor is not
    restored between the attempts *)
Definition scan_floating (s : list Z) : outcome :=
  match match_hexadecimal s with
  | NoMatch r => match_decimal r
  | o => o
  end.

(** kefir_preprocessor_token_convert, convert.c:16-35; integers are scanned as in C08 *)
Inductive number := Floating (text : list Z) (ty : fp_type) | Integral (ty : ity) (value : Z).
Definition convert_number (s : list Z) : option number :=
  match scan_floating s with
  | Match t ty r => if none r then Some (Floating t ty) else None
  | NoMatch _ => match scan_integer s with
                 | IcOk ty v [] => Some (Integral ty v)
                 | _ => None
                 end
  | LexerError => None
  end.
