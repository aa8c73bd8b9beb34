(** Conditions of #if and #elif: evaluate_pp_tokens, source/preprocessor/preprocessor.c:327-379,
    and the conversion of preprocessing tokens, source/preprocessor/convert.c.

    Put together from models of the parts: macro replacement (MacroModel), the scanner of
    integer constants (LexModel), the expression parser (ParseModel), the analyzer's types
    and the evaluator of constant expressions (ConstEval).

    Simplifications.  Constants are handed to the parser model as one number that codes type
    and value.  Floating constants, string literals, casts, sizeof, comma expressions,
    assignments and what else is no operator on integers make an error here; the code
    evaluates some of them.  Of the identifiers that are left (names of function-like macros
    without arguments) it is not told which are keywords. *)

From Coq Require Import ZArith Bool List String Lia.
From Verif Require Import CTypes Bits LexModel MacroModel CSem ExprCompile ConstEval.
From Verif Require ParseModel.
Import ListNotations.
Open Scope Z_scope.

(** Coding of constants. *)
Definition ity_index (t : ity) : Z :=
  match t with
  | IBool => 0 | IChar => 1 | ISChar => 2 | IUChar => 3 | IShort => 4 | IUShort => 5 | IInt => 6 | IUInt => 7
  | ILong => 8 | IULong => 9 | ILLong => 10 | IULLong => 11
  end.
Definition ity_of_index (z : Z) : ity :=
  nth (Z.to_nat z) [IBool; IChar; ISChar; IUChar; IShort; IUShort; IInt; IUInt; ILong; IULong; ILLong; IULLong] IInt.
Definition code (t : ity) (v : Z) : Z := v * 16 + ity_index t.
Definition code_type (c : Z) : ity := ity_of_index (c mod 16).
Definition code_value (c : Z) : Z := c / 16.

(** The punctuators by the names they have in ParseModel, where digraphs are what they stand
    for. *)
Definition pp_punct (p : punct) : option ParseModel.punct :=
  match p with
  | P_LEFT_PARENTHESE => Some ParseModel.PLParen | P_RIGHT_PARENTHESE => Some ParseModel.PRParen
  | P_LEFT_BRACKET | P_DIGRAPH_LEFT_BRACKET => Some ParseModel.PLBracket
  | P_RIGHT_BRACKET | P_DIGRAPH_RIGHT_BRACKET => Some ParseModel.PRBracket
  | P_LEFT_BRACE | P_DIGRAPH_LEFT_BRACE => Some ParseModel.PLBrace
  | P_RIGHT_BRACE | P_DIGRAPH_RIGHT_BRACE => Some ParseModel.PRBrace
  | P_DOT => Some ParseModel.PDot | P_RIGHT_ARROW => Some ParseModel.PArrow
  | P_DOUBLE_PLUS => Some ParseModel.PInc | P_DOUBLE_MINUS => Some ParseModel.PDec
  | P_AMPERSAND => Some ParseModel.PAmp | P_STAR => Some ParseModel.PStar
  | P_PLUS => Some ParseModel.PPlus | P_MINUS => Some ParseModel.PMinus
  | P_TILDE => Some ParseModel.PTilde | P_EXCLAMATION_MARK => Some ParseModel.PNot
  | P_SLASH => Some ParseModel.PSlash | P_PERCENT => Some ParseModel.PPercent
  | P_LEFT_SHIFT => Some ParseModel.PShl | P_RIGHT_SHIFT => Some ParseModel.PShr
  | P_LESS_THAN => Some ParseModel.PLt | P_GREATER_THAN => Some ParseModel.PGt
  | P_LESS_OR_EQUAL => Some ParseModel.PLe | P_GREATER_OR_EQUAL => Some ParseModel.PGe
  | P_EQUAL => Some ParseModel.PEq | P_NOT_EQUAL => Some ParseModel.PNe
  | P_CARET => Some ParseModel.PCaret | P_VBAR => Some ParseModel.PBar
  | P_DOUBLE_AMPERSAND => Some ParseModel.PAndAnd | P_DOUBLE_VBAR => Some ParseModel.POrOr
  | P_QUESTION_MARK => Some ParseModel.PQuestion | P_COLON => Some ParseModel.PColon
  | P_COMMA => Some ParseModel.PComma | P_ASSIGN => Some ParseModel.PAssign
  | P_ASSIGN_MULTIPLY => Some ParseModel.PAssignMul | P_ASSIGN_DIVIDE => Some ParseModel.PAssignDiv
  | P_ASSIGN_MODULO => Some ParseModel.PAssignMod | P_ASSIGN_ADD => Some ParseModel.PAssignAdd
  | P_ASSIGN_SUBTRACT => Some ParseModel.PAssignSub | P_ASSIGN_SHIFT_LEFT => Some ParseModel.PAssignShl
  | P_ASSIGN_SHIFT_RIGHT => Some ParseModel.PAssignShr | P_ASSIGN_AND => Some ParseModel.PAssignAnd
  | P_ASSIGN_XOR => Some ParseModel.PAssignXor | P_ASSIGN_OR => Some ParseModel.PAssignOr
  | P_SEMICOLON | P_ELLIPSIS | P_HASH | P_DOUBLE_HASH | P_DIGRAPH_HASH | P_DIGRAPH_DOUBLE_HASH => None
  end.

Section Condition.
(** Type and value of the literals that are tokens already (character constants; scanned by
    the tokenizer, parser/rules/constant.c:75-105). *)
Variable literal : nat -> option (ity * Z).

(** kefir_preprocessor_token_convert, convert.c:8-67.  A number is an integer constant up
    to its last character: a text that begins like one is no floating constant
    (floating_constant.c:28-57, 258-267). *)
Definition convert (t : tok) : option ParseModel.tok :=
  match t with
  | TNum s =>
    match scan_integer (text s) with
    | IcOk ty v [] => Some (ParseModel.TConst (code ty v))
    | _ => None
    end
  | TId _ _ => Some (ParseModel.TName 0)
  | TPunct p => Some match pp_punct p with Some q => ParseModel.TP q | None => ParseModel.TOther 1 end
  | TStr _ => Some (ParseModel.TStr 0)
  | TOther n => match literal n with Some (ty, v) => Some (ParseModel.TConst (code ty v)) | None => None end
  | TWs _ | TPlace => None
  | TSentinel => Some (ParseModel.TOther 0)
  end.

(** kefir_preprocessor_token_convert_buffer, convert.c:220-272: whitespace is left out. *)
Fixpoint convert_buffer (l : list tok) : option (list ParseModel.tok) :=
  match l with
  | [] => Some []
  | TWs _ :: r => convert_buffer r
  | t :: r =>
    match convert t, convert_buffer r with
    | Some x, Some xs => Some (x :: xs)
    | _, _ => None
    end
  end.

(** The expressions whose constant value is modelled in ConstEval. *)
Definition bin_of (o : ParseModel.binop) : option binop :=
  match o with
  | ParseModel.OMul => Some BMul | ParseModel.ODiv => Some BDiv | ParseModel.OMod => Some BMod
  | ParseModel.OAdd => Some BAdd | ParseModel.OSub => Some BSub
  | ParseModel.OShl => Some BShl | ParseModel.OShr => Some BShr
  | ParseModel.OLt => Some BLt | ParseModel.OGt => Some BGt | ParseModel.OLe => Some BLe | ParseModel.OGe => Some BGe
  | ParseModel.OEq => Some BEq | ParseModel.ONe => Some BNe
  | ParseModel.OAnd => Some BAnd | ParseModel.OXor => Some BXor | ParseModel.OOr => Some BOr
  | ParseModel.OLand | ParseModel.OLor => None
  end.
Definition un_of (o : ParseModel.unop) : option unop :=
  match o with
  | ParseModel.OPlus => Some UPlus | ParseModel.ONeg => Some UMinus
  | ParseModel.OInvert => Some UNot | ParseModel.ONot => Some ULNot
  | _ => None
  end.
Fixpoint to_expr {ty ini : Type} (a : ParseModel.ast ty ini) : option expr :=
  match a with
  | ParseModel.EConst c => Some (EConst (code_type c) (code_value c))
  | ParseModel.EUn o a =>
    match un_of o, to_expr a with Some o, Some a => Some (EUn o a) | _, _ => None end
  | ParseModel.EBin o a b =>
    match to_expr a, to_expr b with
    | Some a, Some b =>
      match o with
      | ParseModel.OLand => Some (ELAnd a b)
      | ParseModel.OLor => Some (ELOr a b)
      | _ => match bin_of o with Some o => Some (EBin o a b) | None => None end
      end
    | _, _ => None
    end
  | ParseModel.ECond a (Some b) c =>
    match to_expr a, to_expr b, to_expr c with
    | Some a, Some b, Some c => Some (ECond a b c)
    | _, _, _ => None
    end
  | _ => None
  end.

Variable fmt : list tok -> string.
Context {ty ini : Type} (type_name : ParseModel.parser ty) (initializer_list : ParseModel.parser ini) (cfg : ParseModel.config).
Variable E : senv.

(** evaluate_pp_tokens, preprocessor.c:327-379.  [CUndef]: the compiler itself has
    undefined behaviour while it evaluates. *)
Inductive cond_result := CTrue | CFalse | CError | CUndef | CFuel.
Definition of_bool (b : bool) : cond_result := if b then CTrue else CFalse.

Definition evaluate_tokens (l : list tok) : cond_result :=
  match convert_buffer l with
  | None => CError
  | Some ts =>
    match fst (ParseModel.expression type_name initializer_list cfg ts) with
    | ParseModel.Ok a =>
      match to_expr a with
      | None => CError
      | Some e =>
        match ktype_of E e with
        | None => CError
        | Some _ =>
          match keval E e with
          | OVal z => of_bool (negb (z =? 0))
          | OErr => CError
          | OUB => CUndef
          end
        end
      end
    | _ => CError
    end
  end.

Definition condition (defs : list (string * macro)) (fuel : nat) (l : list tok) : cond_result :=
  match run_substitutions fmt defs fuel true l with
  | Ok l => evaluate_tokens l
  | Err => CError
  | Fuel => CFuel
  end.
End Condition.
