(** The controlling expression of #if and #elif, C17 6.10.1: its grammar over preprocessing
    tokens and its value, computed in intmax_t and uintmax_t (64 bits here). *)

From Coq Require Import ZArith Bool List String Lia.
From Verif Require Import CTypes LexModel MacroModel PropIntConst.
Import ListNotations.
Open Scope Z_scope.

Inductive pun := NPlus | NMinus | NCompl | NNot.
Inductive pbin :=
| QMul | QDiv | QMod | QAdd | QSub | QShl | QShr | QLt | QGt | QLe | QGe | QEq | QNe | QAnd | QXor | QOr | QLand | QLor.

(** [PNum dec u n v]: the integer constant of value [v], decimal or not, with the suffixes
    [u] and [n] letters l.  [PLit t v]: a character constant of type [t]. *)
Inductive pexpr :=
| PNum (dec u : bool) (n : nat) (v : Z)
| PLit (t : ity) (v : Z)
| PUn (o : pun) (a : pexpr)
| PBin (o : pbin) (a b : pexpr)
| PCond (a b c : pexpr).

(** *** Grammar: 6.5 restricted to what may stand in the expression (6.6p3, p6, 6.10.1p1),
    numbered as in ParseSpec. *)
Definition pun_spelling (o : pun) : punct :=
  match o with NPlus => P_PLUS | NMinus => P_MINUS | NCompl => P_TILDE | NNot => P_EXCLAMATION_MARK end.
Definition pbin_spelling (o : pbin) : punct :=
  match o with
  | QMul => P_STAR | QDiv => P_SLASH | QMod => P_PERCENT | QAdd => P_PLUS | QSub => P_MINUS
  | QShl => P_LEFT_SHIFT | QShr => P_RIGHT_SHIFT
  | QLt => P_LESS_THAN | QGt => P_GREATER_THAN | QLe => P_LESS_OR_EQUAL | QGe => P_GREATER_OR_EQUAL
  | QEq => P_EQUAL | QNe => P_NOT_EQUAL | QAnd => P_AMPERSAND | QXor => P_CARET | QOr => P_VBAR
  | QLand => P_DOUBLE_AMPERSAND | QLor => P_DOUBLE_VBAR
  end.
Definition pbin_level (o : pbin) : nat :=
  match o with
  | QLor => 3 | QLand => 4 | QOr => 5 | QXor => 6 | QAnd => 7 | QEq | QNe => 8 | QLt | QGt | QLe | QGe => 9
  | QShl | QShr => 10 | QAdd | QSub => 11 | QMul | QDiv | QMod => 12
  end.

Section Spec.
Variable literal : nat -> option (ity * Z).

Inductive phrase : nat -> pexpr -> list tok -> Prop :=
| Ph_num : forall s w sfx dec u n v, text s = w ++ sfx -> constant dec w v -> suffix sfx u n ->
    phrase 16 (PNum dec u n v) [TNum s]
| Ph_lit : forall k t v, literal k = Some (t, v) -> phrase 16 (PLit t v) [TOther k]
| Ph_paren : forall e ts, phrase 2 e ts -> phrase 16 e (TPunct P_LEFT_PARENTHESE :: ts ++ [TPunct P_RIGHT_PARENTHESE])
| Ph_un : forall o e ts, phrase 13 e ts -> phrase 14 (PUn o e) (TPunct (pun_spelling o) :: ts)
| Ph_bin : forall o a b ta tb, phrase (pbin_level o) a ta -> phrase (S (pbin_level o)) b tb ->
    phrase (pbin_level o) (PBin o a b) (ta ++ TPunct (pbin_spelling o) :: tb)
| Ph_cond : forall a b c ta tb tc, phrase 3 a ta -> phrase 2 b tb -> phrase 2 c tc ->
    phrase 2 (PCond a b c) (ta ++ TPunct P_QUESTION_MARK :: tb ++ TPunct P_COLON :: tc)
| Ph_up : forall l e ts, (l < 16)%nat -> phrase (S l) e ts -> phrase l e ts.
End Spec.

(** *** Value *)

Definition fits_signed (v : Z) : bool := (- 2 ^ 63 <=? v) && (v <? 2 ^ 63).

(** 6.4.4.1p5 with int and its unsigned type 64 bits wide: whether the constant is unsigned. *)
Definition constant_unsigned (u : bool) (v : Z) : bool := u || negb (v <? 2 ^ 63).
(** Whether the expression has type uintmax_t (6.3.1.8, 6.5); truth values are intmax_t. *)
Fixpoint is_unsigned (e : pexpr) : bool :=
  match e with
  | PNum _ u _ v => constant_unsigned u v
  | PLit t _ => negb (isigned (c_promote t))
  | PUn NNot _ => false
  | PUn _ a => is_unsigned a
  | PBin (QShl | QShr) a _ => is_unsigned a
  | PBin (QLt | QGt | QLe | QGe | QEq | QNe | QLand | QLor) _ _ => false
  | PBin _ a b => is_unsigned a || is_unsigned b
  | PCond _ a b => is_unsigned a || is_unsigned b
  end.

(** Conversion to uintmax_t, or to intmax_t of a value of that type. *)
Definition to_type (u : bool) (v : Z) : Z := if u then v mod 2 ^ 64 else v.
(** The result of an operation: reduced, or undefined if it does not fit. *)
Definition result (u : bool) (v : Z) : option Z :=
  if u then Some (v mod 2 ^ 64) else if fits_signed v then Some v else None.
Definition truth (b : bool) : Z := if b then 1 else 0.

Definition un_value (o : pun) (u : bool) (x : Z) : option Z :=
  match o with
  | NPlus => Some x
  | NMinus => result u (- x)
  | NCompl => result u (- x - 1)
  | NNot => Some (truth (x =? 0))
  end.
(** [x] and [y] converted to the common type, unsigned if [u]. *)
Definition common_value (o : pbin) (u : bool) (x y : Z) : option Z :=
  match o with
  | QMul => result u (x * y)
  | QDiv => if y =? 0 then None else result u (Z.quot x y)
  | QMod => if y =? 0 then None else if fits_signed (Z.quot x y) || u then Some (Z.rem x y) else None
  | QAdd => result u (x + y)
  | QSub => result u (x - y)
  | QLt => Some (truth (x <? y)) | QGt => Some (truth (x >? y))
  | QLe => Some (truth (x <=? y)) | QGe => Some (truth (x >=? y))
  | QEq => Some (truth (x =? y)) | QNe => Some (truth (negb (x =? y)))
  | QAnd => Some (Z.land x y) | QXor => Some (Z.lxor x y) | QOr => Some (Z.lor x y)
  | QShl | QShr | QLand | QLor => None
  end.
(** 6.5.7; the value of a negative number shifted right is the implementation's: its sign is
    kept. *)
Definition shift_value (left u : bool) (x y : Z) : option Z :=
  if (0 <=? y) && (y <? 64) then
    if left then if u || (0 <=? x) then result u (x * 2 ^ y) else None
    else Some (x / 2 ^ y)
  else None.

(** 6.4.4p2: every constant has a type and is in its range, even where it is not evaluated. *)
Definition constant_valid (dec u : bool) (v : Z) : bool :=
  (0 <=? v) && (v <? 2 ^ 64) && (negb dec || u || (v <? 2 ^ 63)).
Fixpoint valid (e : pexpr) : bool :=
  match e with
  | PNum dec u _ v => constant_valid dec u v
  | PLit t v => in_rangeb t v
  | PUn _ a => valid a
  | PBin _ a b => valid a && valid b
  | PCond c a b => valid c && valid a && valid b
  end.

(** [None]: not defined. *)
Fixpoint pvalue (e : pexpr) : option Z :=
  match e with
  | PNum _ _ _ v => Some v
  | PLit _ v => Some v
  | PUn o a => match pvalue a with Some x => un_value o (is_unsigned a) x | None => None end
  | PBin QLand a b =>
    match pvalue a with
    | Some x => if x =? 0 then Some 0 else match pvalue b with Some y => Some (truth (negb (y =? 0))) | None => None end
    | None => None
    end
  | PBin QLor a b =>
    match pvalue a with
    | Some x => if x =? 0 then match pvalue b with Some y => Some (truth (negb (y =? 0))) | None => None end else Some 1
    | None => None
    end
  | PBin o a b =>
    match pvalue a, pvalue b with
    | Some x, Some y =>
      match o with
      | QShl => shift_value true (is_unsigned a) x y
      | QShr => shift_value false (is_unsigned a) x y
      | _ => let u := is_unsigned a || is_unsigned b in common_value o u (to_type u x) (to_type u y)
      end
    | _, _ => None
    end
  | PCond c a b =>
    match pvalue c with
    | Some x =>
      match pvalue (if x =? 0 then b else a) with
      | Some v => Some (to_type (is_unsigned a || is_unsigned b) v)
      | None => None
      end
    | None => None
    end
  end.

(** *** Where the types of phase 7 do no harm

    The type of the expression as it would be in the program after preprocessing (int, and
    the other types, of their usual widths). *)
Definition num_type (dec u : bool) (n : nat) (v : Z) : ity :=
  match constant_type u n dec v with Some t => t | None => IInt end.
Fixpoint phase7 (e : pexpr) : ity :=
  match e with
  | PNum dec u n v => num_type dec u n v
  | PLit t _ => t
  | PUn NNot _ => IInt
  | PUn _ a => c_promote (phase7 a)
  | PBin (QLt | QGt | QLe | QGe | QEq | QNe | QLand | QLor) _ _ => IInt
  | PBin (QShl | QShr) a _ => c_promote (phase7 a)
  | PBin _ a b => c_common (phase7 a) (phase7 b)
  | PCond _ a b => c_common (phase7 a) (phase7 b)
  end.
Definition signed_reading (v : Z) : Z := (v + 2 ^ 63) mod 2 ^ 64 - 2 ^ 63.
Definition low (v : Z) : bool := (0 <=? v) && (v <? 2 ^ 63).

(** For each operation that is evaluated: the common type of phase 7 is signed exactly if
    the common type is intmax_t, where that matters for its result; and unsigned results do
    not leave the range of int64_t on the way. *)
Definition op_agrees (o : pbin) (a b : pexpr) (x y : Z) : bool :=
  let u := is_unsigned a || is_unsigned b in
  let signed7 := isigned (c_common (phase7 a) (phase7 b)) in
  let sx := signed_reading x in let sy := signed_reading y in
  match o with
  | QAdd => negb u || fits_signed (sx + sy)
  | QSub => negb u || fits_signed (sx - sy)
  | QMul => negb u || fits_signed (sx * sy)
  | QDiv | QMod | QLt | QGt | QLe | QGe => Bool.eqb signed7 (negb u) || (low x && low y)
  | QShl => negb signed7 || negb (is_unsigned a) || (low x && fits_signed (x * 2 ^ y))
  | QShr => Bool.eqb signed7 (negb (is_unsigned a)) || low x
  | QEq | QNe | QAnd | QXor | QOr | QLand | QLor => true
  end.
Fixpoint agrees (e : pexpr) : bool :=
  match e with
  | PNum _ _ _ _ | PLit _ _ => true
  | PUn o a =>
    agrees a && match o, pvalue a with
                | NMinus, Some x => negb (is_unsigned a) || fits_signed (- signed_reading x)
                | _, _ => true
                end
  | PBin QLand a b =>
    agrees a && match pvalue a with Some x => (x =? 0) || agrees b | None => true end
  | PBin QLor a b =>
    agrees a && match pvalue a with Some x => negb (x =? 0) || agrees b | None => true end
  | PBin o a b =>
    agrees a && agrees b && match pvalue a, pvalue b with Some x, Some y => op_agrees o a b x y | _, _ => true end
  | PCond c a b => agrees c && match pvalue c with Some x => agrees (if x =? 0 then b else a) | None => true end
  end.

(** Expressions whose constants are all signed in phase 7 as well. *)
Fixpoint signed_constants (e : pexpr) : bool :=
  match e with
  | PNum dec u n v => isigned (num_type dec u n v)
  | PLit t _ => isigned t
  | PUn _ a => signed_constants a
  | PBin _ a b => signed_constants a && signed_constants b
  | PCond c a b => signed_constants c && signed_constants a && signed_constants b
  end.

Definition spaces_out (l : list tok) : list tok := filter (fun t => negb (is_ws t)) l.
