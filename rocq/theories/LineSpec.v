(** C17 6.10.4 on tokens and on text. *)
From Coq Require Import ZArith Bool List.
From Verif Require Import LexModel StrModel TokModel.
Import ListNotations.
Open Scope Z_scope.

(** p3: a digit sequence, read as a decimal integer *)
Definition decimal_digit (c : Z) : Prop := 48 <= c <= 57.
Inductive decimal : list Z -> Z -> Prop :=
  | decimal_one : forall c, decimal_digit c -> decimal [c] (c - 48)
  | decimal_more : forall s n c, decimal s n -> decimal_digit c -> decimal (s ++ [c]) (10 * n + (c - 48)).
(** p3: neither zero nor greater than 2147483647 *)
Definition line_number (s : list Z) (n : Z) : Prop := decimal s n /\ 1 <= n <= 2147483647.

Definition blanks (l : list ptok) : Prop := Forall (fun t => exists b, t = TkSpace b) l.

(** The string literal, with its null character at the end and no other one; the file name *)
Definition names_file (t : literal) (f : list Z) : Prop :=
  s_mode t = Multibyte /\ s_bytes t = f ++ [0] /\ ~ In 0 f.

(** p3, p4: the operands of the directive, with white space around them; the number and the file name *)
Inductive operands : list ptok -> Z -> option (list Z) -> Prop :=
  | op_number : forall w s n w', blanks w -> line_number s n -> blanks w' ->
      operands (w ++ TkNumber s :: w') n None
  | op_file : forall w s n w' t f w'', blanks w -> line_number s n -> blanks w' -> names_file t f -> blanks w'' ->
      operands (w ++ TkNumber s :: w' ++ TkString t :: w'') n (Some f).

(** The number of newlines in a text: how many lines further it ends *)
Definition newlines (s : list Z) : Z := Z.of_nat (count_occ Z.eq_dec s 10).

(** White space within a line *)
Definition blank (c : Z) : Prop := c = 32 \/ c = 9 \/ c = 11 \/ c = 12.
(** The text [s] begins with a comment *)
Definition comment (s : list Z) : Prop := exists r, s = 47 :: 42 :: r \/ s = 47 :: 47 :: r.
