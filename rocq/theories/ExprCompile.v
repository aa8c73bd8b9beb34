(** Model of the analyzer's expression types and of the translation of
    expressions to IR: source/ast/analyzer/nodes/*.c and
    source/ast-translator/{value,lvalue,typeconv,misc}.c,
    source/ast-translator/nodes/*.c.

    Modelled: integer and pointer expressions of the language of CSem.v.  Not
    modelled here: floating types, bit-field operands (see BitfieldModel.v), void
    and structure values, function calls, sizeof, compound literals, the GNU
    two-operand conditional.  The builder's instruction list is a Coq list; a
    BRANCH or JMP whose target the C code patches after emitting its body
    (KEFIR_IRBUILDER_BLOCK_INSTR_AT(..)->arg.i64 = ..) gets that target directly;
    [pos] is KEFIR_IRBUILDER_BLOCK_CURRENT_INDEX when the node is entered. *)

From Coq Require Import ZArith Lia Bool List.
From Verif Require Import Bits CTypes TypeConvModel Memory CSem IRMachine.
Import ListNotations.
Open Scope Z_scope.

(** ** Types assigned by the analyzer *)
Section Analyzer.
Variable S : senv.

Definition omap {A B : Type} (f : A -> B) (o : option A) : option B :=
  match o with Some a => Some (f a) | None => None end.

(** source/ast/analyzer/nodes/unary_operation.c:29-110 (unary +, -, ~, !). *)
Definition kun_type (op : unop) (t : cty) : option cty :=
  match op, t with
  | ULNot, (TInt _ | TPtr _) => Some (TInt IInt)
  | (UPlus | UMinus | UNot), TInt i => omap TInt (k_int_promotion i None)
  | _, _ => None
  end.

(** source/ast/analyzer/nodes/binary_operation.c: modulo 28, multiplication and
    division 43, addition 60, subtraction 95, shift 134, relational 150,
    equality 168, bitwise 199.  Pointer operands: only pointers to the same type
    (the analyzer also admits compatible types, void and null pointers). *)
Definition kbin_type (op : binop) (a b : cty) : option cty :=
  match a, b with
  | TInt x, TInt y =>
    match class_of op with
    | CArith | CBits => omap TInt (k_common_int x None y None)
    | CShift => omap TInt (k_int_promotion x None)
    | CRel => Some (TInt IInt)
    end
  | TPtr t, TInt _ => match op with BAdd | BSub => Some (TPtr t) | _ => None end
  | TInt _, TPtr t => match op with BAdd => Some (TPtr t) | _ => None end
  | TPtr t, TPtr t' =>
    if cty_eqb t t' then
      match op with
      | BSub => Some (TInt ILong)
      | BLt | BGt | BLe | BGe | BEq | BNe => Some (TInt IInt)
      | _ => None
      end
    else None
  | _, _ => None
  end.

(** source/ast/analyzer/nodes/conditional_operator.c:28-110. *)
Definition kcond_type (a b : cty) : option cty :=
  match a, b with
  | TInt x, TInt y => omap TInt (k_common_int x None y None)
  | TPtr t, TPtr t' => if cty_eqb t t' then Some (TPtr t) else None
  | _, _ => None
  end.

(** properties.type after kefir_ast_analyze_node: constant.c:25, identifier.c:26,
    unary_operation.c:29, binary_operation.c:227, conditional_operator.c:28,
    comma_operator.c:28, cast_operator.c:29, array_subscript.c:28,
    struct_member.c:30, assignment_operator.c:28-97. *)
Fixpoint ktype_of (e : expr) : option cty :=
  match e with
  | EConst i v => Some (TInt i)
  | ELocal _ t => Some t
  | EGlobal _ _ t => Some t
  | EUn op e =>
    match ktype_of e with Some t => kun_type op (decay t) | None => None end
  | EBin op a b =>
    match ktype_of a, ktype_of b with
    | Some ta, Some tb => kbin_type op (decay ta) (decay tb)
    | _, _ => None
    end
  | ELAnd a b | ELOr a b =>
    match ktype_of a, ktype_of b with
    | Some ta, Some tb =>
      if scalar (decay ta) && scalar (decay tb) then Some (TInt IInt) else None
    | _, _ => None
    end
  | ECond c a b =>
    match ktype_of c, ktype_of a, ktype_of b with
    | Some tc, Some ta, Some tb =>
      if scalar (decay tc) then kcond_type (decay ta) (decay tb) else None
    | _, _, _ => None
    end
  | EComma a b =>
    match ktype_of a, ktype_of b with
    | Some ta, Some tb =>
      if scalar (decay ta) && scalar (decay tb) then Some (decay tb) else None
    | _, _ => None
    end
  | ECast t e =>
    match ktype_of e with
    | Some te => if scalar t && scalar (decay te) then Some t else None
    | None => None
    end
  | EDeref e =>
    match ktype_of e with
    | Some te => match decay te with TPtr t => Some t | _ => None end
    | None => None
    end
  | EAddr e =>
    match ktype_of e with
    | Some t => if is_lv e then Some (TPtr t) else None
    | None => None
    end
  | EIndex a i =>
    match ktype_of a, ktype_of i with
    | Some ta, Some ti =>
      match decay ta, decay ti with
      | TPtr t, TInt _ => Some t
      | TInt _, TPtr t => Some t
      | _, _ => None
      end
    | _, _ => None
    end
  | EMember e f =>
    match ktype_of e with
    | Some (TStruct id) =>
      match sfield S id f with Some (_, t) => Some t | None => None end
    | _ => None
    end
  | EAssign l r =>
    match ktype_of l, ktype_of r with
    | Some tl, Some tr =>
      if is_lv l && scalar tl && assignable tl (decay tr) then Some tl else None
    | _, _ => None
    end
  | EOpAssign op l r =>
    match ktype_of l, ktype_of r with
    | Some tl, Some tr =>
      if is_lv l then
        match tl, decay tr with
        | TInt _, TInt _ => match class_of op with CRel => None | _ => Some tl end
        | TPtr _, TInt _ => match op with BAdd | BSub => Some tl | _ => None end
        | _, _ => None
        end
      else None
    | _, _ => None
    end
  | EIncDec _ _ e =>
    match ktype_of e with
    | Some t => if is_lv e && scalar t then Some t else None
    | None => None
    end
  end.

(** The annotated type and its lvalue/array conversion
    (KEFIR_AST_TYPE_CONV_EXPRESSION_ALL).  The default is never used for an
    expression accepted by the analyzer. *)
Definition ty (e : expr) : cty := match ktype_of e with Some t => t | None => TInt IInt end.
Definition rt (e : expr) : cty := decay (ty e).

(** Member offset from the layout. *)
Definition field_off (t : cty) (f : nat) : Z :=
  match t with
  | TStruct id => match sfield S id f with Some (o, _) => o | None => 0 end
  | _ => 0
  end.

End Analyzer.

(** ** Conversions *)

(** cast_to_integer, source/ast-translator/typeconv.c:92-159; also
    kefir_ast_translate_typeconv_normalize, :161-185. *)
Definition knorm (i : ity) : list instr :=
  match i with
  | IBool => [OTrunc1]
  | IChar | ISChar => [OExt 8]
  | IUChar => [OPush 255; OAnd]
  | IUShort => [OPush 65535; OAnd]
  | IUInt => [OPush 4294967295; OAnd]
  | IShort => [OExt 16]
  | IInt => [OExt 32]
  | ILong | IULong | ILLong | IULLong => []
  end.

Definition knorm_ty (t : cty) : list instr := match t with TInt i => knorm i | _ => [] end.

(** kefir_ast_translate_typeconv, source/ast-translator/typeconv.c:187-238. *)
Definition kconv (from to : cty) : list instr :=
  if cty_eqb from to then [] else knorm_ty to.

(** ** Memory access *)

(** kefir_ast_translator_load_value, source/ast-translator/value.c:318-395. *)
Definition load_code (t : cty) : list instr :=
  match t with
  | TInt (IBool | IUChar) => [OLoadU 1]
  | TInt (IChar | ISChar) => [OLoadS 1]
  | TInt IUShort => [OLoadU 2]
  | TInt IShort => [OLoadS 2]
  | TInt IUInt => [OLoadU 4]
  | TInt IInt => [OLoadS 4]
  | TInt (ILong | IULong | ILLong | IULLong) => [OLoadU 8]
  | TPtr _ => [OLoadU 8]
  | TArr _ _ | TStruct _ => []
  end.

(** kefir_ast_translator_store_value, source/ast-translator/value.c. *)
Definition store_code (t : cty) : list instr :=
  match t with
  | TInt i => [OStore (Z.to_nat (isize i))]
  | TPtr _ => [OStore 8]
  | TArr _ _ | TStruct _ => []
  end.

(** Relative offsets, source/ast-translator/misc.c:114-128: OFFSETPTR is emitted
    only for a nonzero offset.  Simplified: one total offset. *)
Definition off_code (off : Z) : list instr := if off =? 0 then [] else [OOffsetPtr off].

(** ** Operators *)

(** translate_multiplication 213, division 241, modulo 276, bitwise 294 and the
    integer cases of addition 68 and subtraction 132 in
    nodes/binary_operation.c; the same opcodes in nodes/assignment_operator.c.
    [sg] is the signedness the code consults. *)
Definition op_code (op : binop) (sg : bool) : list instr :=
  match op with
  | BAdd => [OAdd] | BSub => [OSub] | BMul => [OMul]
  | BDiv => [if sg then ODiv else OUDiv]
  | BMod => [if sg then OMod else OUMod]
  | BAnd => [OAnd] | BOr => [OOr] | BXor => [OXor]
  | BShl => [OShl]
  | BShr => [if sg then OSar else OShr]
  | _ => []
  end.

(** translate_relational_equals 336, not_equals 358, less 381, greater 415 and
    the switch of translate_relational_equality 484-575 in
    nodes/binary_operation.c. *)
Definition rel_code (op : binop) (sg : bool) : list instr :=
  let lt := if sg then OLt else OBelow in
  let gt := if sg then OGt else OAbove in
  match op with
  | BEq => [OEq]
  | BNe => [OEq; OBNot]
  | BLt => [lt]
  | BGt => [gt]
  | BLe => [OPick 1; OPick 1; lt; OXchg 2; OEq; OBOr]
  | BGe => [OPick 1; OPick 1; gt; OXchg 2; OEq; OBOr]
  | _ => []
  end.

Definition kcommon (a b : ity) : ity :=
  match k_common_int a None b None with Some t => t | None => IInt end.
Definition kpromote (a : ity) : ity :=
  match k_int_promotion a None with Some t => t | None => IInt end.

(** Code around the operands of a binary operator: conversion of the first
    operand, of the second one, and the operator with its normalization.
    [None]: operands evaluated in source order. binary_prologue 30,
    binary_epilogue 57, translate_relational_equality 449. *)
Definition bin_shape (S : senv) (op : binop) (a b : cty) : bool * list instr * list instr * list instr :=
  match a, b with
  | TInt x, TInt y =>
    match class_of op with
    | CArith | CBits =>
      let t := kcommon x y in
      (false, kconv a (TInt t), kconv b (TInt t), op_code op (k_is_signed t) ++ knorm t)
    | CShift =>
      let t := kpromote x in
      (false, kconv a (TInt t), kconv b (TInt t), op_code op (k_is_signed x) ++ knorm t)
    | CRel =>
      let t := kcommon x y in
      (false, kconv a (TInt t), kconv b (TInt t), rel_code op (k_is_signed t))
    end
  | TPtr t, TInt _ =>
    (* translate_addition 100-128, translate_subtraction 160-190 *)
    (false, [], [],
     match op with
     | BSub => [ONeg; OElementPtr (csize S t)]
     | _ => [OElementPtr (csize S t)]
     end)
  | TInt _, TPtr t => (true, [], [], [OElementPtr (csize S t)])
  | TPtr t, _ =>
    (false, [], [],
     match op with
     | BSub => [OSub; OPush (csize S t); ODiv]
     | _ => rel_code op false
     end)
  | _, _ => (false, [], [], [])
  end.

(** translate_arithmetic_unary 45, inversion 115, logical not 124 in
    nodes/unary_operation.c. *)
Definition un_code (op : unop) (t : cty) : list instr :=
  match op, t with
  | UPlus, TInt i => knorm (kpromote i)
  | UMinus, TInt i => ONeg :: knorm (kpromote i)
  | UNot, TInt i => ONot :: knorm (kpromote i)
  | _, _ => [OBNot]
  end.

(** store_value, nodes/assignment_operator.c:32-60 (no bit-field). *)
Definition assign_tail (t : cty) : list instr := [OXchg 1; OPick 1] ++ store_code t.

(** Compound assignment after the value, the lvalue and the current value have
    been pushed: conversion of the value, conversion of the current value, and
    the operator with the conversion back to the target type.
    nodes/assignment_operator.c:115-470.  The division asks the signedness of the
    common type (:203), modulo and right shift that of the value type (:257,
    :271). *)
Definition compound_shape (S : senv) (op : binop) (tl tr : cty) : list instr * list instr * list instr :=
  match tl, tr with
  | TInt x, TInt y =>
    let t := kcommon x y in
    let sg := match op with BMod | BShr => k_is_signed y | _ => k_is_signed t end in
    (kconv tr (TInt t), kconv tl (TInt t), [OXchg 1; OXchg 2] ++ op_code op sg ++ kconv (TInt t) tl)
  | TPtr t, _ =>
    (match op with BSub => [ONeg] | _ => [] end, [], [OXchg 1; OXchg 2; OElementPtr (csize S t)])
  | _, _ => ([], [], [])
  end.

(** incdec_impl, nodes/unary_operation.c:175-227. *)
Definition incdec_code (S : senv) (t : cty) (inc : bool) : list instr :=
  let d := if inc then 1 else -1 in
  match t with
  | TPtr t => [OPush d; OElementPtr (csize S t)]
  | _ => OAdd1 d :: knorm_ty t
  end.

(** ** Expressions *)

(** kefir_ast_translate_expression and kefir_ast_translate_lvalue
    (source/ast-translator/lvalue.c:34 ff). *)
Section Compile.
Variable S : senv.

Fixpoint compile (md : mode) (pos : nat) (e : expr) : list instr :=
  let ld := match md with RV => load_code (ty S e) | LV => [] end in
  match e with
  | EConst _ v => [OPush v]                                  (* nodes/constant.c:26 *)
  | ELocal off t => OGetLocals :: off_code off ++ ld         (* lvalue.c:34, nodes/identifier.c:66 *)
  | EGlobal id off t => OGetGlobal id :: off_code off ++ ld  (* nodes/identifier.c:32 *)
  | EUn op a => compile RV pos a ++ un_code op (rt S a)
  | EBin op a b =>
    let '(swap, conv1, conv2, code) := bin_shape S op (rt S a) (rt S b) in
    let (x, y) := if swap then (compile RV pos b, conv2) else (compile RV pos a, conv1) in
    let p := (pos + length (x ++ y))%nat in
    let (z, w) := if swap then (compile RV p a, conv1) else (compile RV p b, conv2) in
    (x ++ y) ++ (z ++ w) ++ code
  | ELAnd a b =>                                             (* nodes/binary_operation.c:591-606 *)
    let ca := compile RV pos a ++ [OTrunc1; OPick 0; OBNot] in
    let p := (pos + length ca + 1)%nat in
    let cb := compile RV p b ++ [OTrunc1; OBAnd] in
    ca ++ OBranch (p + length cb)%nat :: cb
  | ELOr a b =>                                              (* nodes/binary_operation.c:608-622 *)
    let ca := compile RV pos a ++ [OTrunc1; OPick 0] in
    let p := (pos + length ca + 1)%nat in
    let cb := compile RV p b ++ [OTrunc1; OBOr] in
    ca ++ OBranch (p + length cb)%nat :: cb
  | ECond c a b =>                                           (* nodes/conditional_operator.c:26-75 *)
    let cc := compile RV pos c in
    let p2 := (pos + length cc + 1)%nat in
    let cb := compile RV p2 b in
    let p1 := (p2 + length cb + 1)%nat in
    let ca := compile RV p1 a in
    cc ++ OBranch p1 :: cb ++ OJmp (p1 + length ca)%nat :: ca
  | EComma a b =>                                            (* nodes/comma_operator.c:27-50 *)
    let ca := compile RV pos a ++ [OPop] in
    ca ++ compile RV (pos + length ca)%nat b
  | ECast t e => compile RV pos e ++ kconv (rt S e) t        (* nodes/cast_operator.c:29 *)
  | EDeref a => compile RV pos a ++ ld                       (* nodes/unary_operation.c:162 *)
  | EAddr a => compile LV pos a                              (* nodes/unary_operation.c:305 *)
  | EIndex a i =>                                            (* lvalue.c, nodes/array_subscript.c:29 *)
    let first := match rt S a with TPtr _ => true | _ => false end in
    let x := if first then compile RV pos a else compile RV pos i in
    let p := (pos + length x)%nat in
    let y := if first then compile RV p i else compile RV p a in
    x ++ y ++ OElementPtr (csize S (ty S e)) :: ld
  | EMember a f =>                                           (* lvalue.c, nodes/struct_member.c:29 *)
    compile RV pos a ++ off_code (field_off S (ty S a) f) ++ ld
  | EAssign l r =>                                           (* nodes/assignment_operator.c:62-93 *)
    let cr := compile RV pos r ++ kconv (rt S r) (ty S l) in
    cr ++ compile LV (pos + length cr)%nat l ++ [OXchg 1] ++ assign_tail (ty S l)
  | EOpAssign op l r =>
    let '(conv_r, conv_l, code) := compound_shape S op (ty S l) (rt S r) in
    let cr := compile RV pos r ++ conv_r in
    cr ++ compile LV (pos + length cr)%nat l
       ++ OPick 0 :: load_code (ty S l) ++ conv_l ++ code ++ assign_tail (ty S l)
  | EIncDec pre inc a =>                                     (* nodes/unary_operation.c:229, :253 *)
    let t := ty S a in
    compile LV pos a ++ OPick 0 :: load_code t ++
    (if pre then incdec_code S t inc ++ [OXchg 1; OPick 1] ++ store_code t
     else [OXchg 1; OPick 1] ++ incdec_code S t inc ++ store_code t)
  end.

(** An expression statement or initializer is translated only if analysis
    succeeded. *)
Definition translate (pos : nat) (e : expr) : option (list instr) :=
  match ktype_of S e with Some _ => Some (compile RV pos e) | None => None end.

End Compile.
