(** C17 6.4.4.2: the grammar of floating constants. *)
From Coq Require Import ZArith Bool List.
From Verif Require Import FloatLexModel.
Import ListNotations.
Open Scope Z_scope.

Definition digit (c : Z) : Prop := 48 <= c <= 57.
Definition hexdigit (c : Z) : Prop := digit c \/ 65 <= c <= 70 \/ 97 <= c <= 102.
Definition dot := 46.

(** digit-sequence and hexadecimal-digit-sequence *)
Definition sequence (D : Z -> Prop) (l : list Z) : Prop := l <> [] /\ Forall D l.
(** fractional-constant and hexadecimal-fractional-constant *)
Inductive fractional (D : Z -> Prop) : list Z -> Prop :=
| f_both i f : sequence D i -> sequence D f -> fractional D (i ++ dot :: f)
| f_fraction f : sequence D f -> fractional D (dot :: f)
| f_integer i : sequence D i -> fractional D (i ++ [dot]).
(** exponent-part (e, E) and binary-exponent-part (p, P) *)
Inductive exponent (letter upper : Z) : list Z -> Prop :=
| e_exp c sign d : c = letter \/ c = upper -> In sign [[]; [43]; [45]] -> sequence digit d -> exponent letter upper (c :: sign ++ d).
Inductive decimal : list Z -> Prop :=
| d_fraction t : fractional digit t -> decimal t
| d_fraction_exp t e : fractional digit t -> exponent 101 69 e -> decimal (t ++ e)
| d_integer_exp i e : sequence digit i -> exponent 101 69 e -> decimal (i ++ e).
Inductive hexadecimal : list Z -> Prop :=
| h_fraction x t e : In x [120; 88] -> fractional hexdigit t -> exponent 112 80 e -> hexadecimal (48 :: x :: t ++ e)
| h_integer x i e : In x [120; 88] -> sequence hexdigit i -> exponent 112 80 e -> hexadecimal (48 :: x :: i ++ e).
Inductive suffix : list Z -> fp_type -> Prop :=
| s_none : suffix [] Double
| s_float c : In c [102; 70] -> suffix [c] Float
| s_long c : In c [108; 76] -> suffix [c] LongDouble.

(** [s] is a floating constant of type [ty] with text [t] before the suffix *)
Definition floating_constant (s t : list Z) (ty : fp_type) : Prop :=
  exists u, s = t ++ u /\ (decimal t \/ hexadecimal t) /\ suffix u ty.

(** What the code takes for floating constants, and the standard does not: hexadecimal ones
    without exponent, and decimal ones that begin with a dot behind 0x and a dot *)
Definition no_exponent (s t : list Z) (ty : fp_type) : Prop :=
  exists x f u, s = t ++ u /\ t = 48 :: x :: f /\ In x [120; 88] /\ fractional hexdigit f /\ suffix u ty /\ ty <> Float.
Definition behind_prefix (s t : list Z) (ty : fp_type) : Prop :=
  exists x s' t', s = 48 :: x :: dot :: s' /\ In x [120; 88] /\ t = dot :: t' /\ exists u, s' = t ++ u /\ decimal t /\ suffix u ty.
