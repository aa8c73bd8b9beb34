(** Analysis of expressions: acceptance, type, lvalue. *)
(* Modelled: source/ast/analyzer/nodes/identifier.c 26-82, constant.c 25-92, string_literal.c 28-68,
   array_subscript.c 28-71, function_call.c 54-125, struct_member.c 30-90, unary_operation.c 29-188,
   cast_operator.c 29-66, binary_operation.c 28-310, conditional_operator.c 28-133, assignment_operator.c 28-140,
   comma_operator.c 28-55; source/ast/analyzer/assignable.c 27-95, lvalue_constant_reference.c 30-150,
   analyzer.c 155-198 (null pointer constants); source/ast/type_conv.c 151-200 (conversion of operands),
   source/ast/type_completion.c 59-160, source/ast/type/struct.c 442-469 (lookup of members),
   headers/kefir/ast/type.h 110-118 and type/basic.h 51-78 (classes of types).

   Simplified: the extensions are off (source/ast/context.c 5-12); scopes are finite maps given with the context; the
   value of a constant expression is given with the context, except for casts to pointers; the lists of the
   temporaries made for calls are left out; compound literals, generic selections, labels and the built-in functions
   are left out, so is an omitted second operand of the conditional operator. The outcome [Bad] stands for undefined
   behaviour in the comparison of types (CompatModel, CompositeModel) and for an access through a NULL type. *)
From Coq Require Import ZArith List Bool String.
From Verif Require Import CTypes TypeConvModel CompatModel CompositeModel.
Import ListNotations.
Open Scope Z_scope.

(** ** Expressions *)

(** constant.c 36-88 *)
Inductive ckind := KInt | KUInt | KLong | KULong | KLLong | KULLong | KChar | KWide | KU16 | KU32 | KFloat | KDouble | KLDouble.
(** kefir_ast_string_literal_type_t *)
Inductive skind := SMultibyte | SU8 | SU16 | SU32 | SWide.
Inductive unop := UPlus | UMinus | UInv | UNot | UPreInc | UPreDec | UPostInc | UPostDec | UAddr | UDeref.
Inductive binop :=
| BMul | BDiv | BMod | BAdd | BSub | BShl | BShr | BLt | BLe | BGt | BGe | BEq | BNe | BAnd | BOr | BXor | BLand | BLor.
Inductive assignop := ASimple | AMul | ADiv | AMod | AAdd | ASub | AShl | AShr | AAnd | AOr | AXor.

Inductive expr :=
| EId (x : string)
| EConst (k : ckind) (z : Z)
| EStr (k : skind) (n : Z)
| ESub (a i : expr)
| ECall (f : expr) (args : list expr)
| EMember (s : expr) (m : string)
| EArrow (s : expr) (m : string)
| EUn (o : unop) (e : expr)
| ESizeof (e : expr)
| ESizeofT (t : ty)
| EAlignofT (t : ty)
| ECast (t : ty) (e : expr)
| EBin (o : binop) (a b : expr)
| ECond (c a b : expr)
| EAssign (o : assignop) (a b : expr)
| EComma (es : list expr).

(** ** Context *)

Inductive storage := SAuto | SRegister | SStatic | SExtern | SOther.
(** Ordinary identifiers; an enumeration constant has the type signed int (declarator.c 258-260, type.c 166). *)
Inductive ident := IObject (t : ty) (s : storage) | IFunction (t : ty) | IEnumerator (z : Z).
(** Result of kefir_ast_constant_expression_value_evaluate *)
Inductive cval := VInt (z : Z) | VAddr (base offset : Z) | VOther | VNot | VErr.

Record ctx := {
  c_ids : string -> option ident;
  (* tags that denote complete structures and unions in the current scope, type_completion.c 30-42 *)
  c_tags : string -> option ty;
  c_eval : expr -> cval }.

(** ** Classes of types: headers/kefir/ast/type/basic.h 51-78 *)

Definition ity_of (b : basic) : option ity :=
  match b with
  | BBool => Some IBool | BChar => Some IChar | BUChar => Some IUChar | BSChar => Some ISChar
  | BUShort => Some IUShort | BSShort => Some IShort | BUInt => Some IUInt | BSInt => Some IInt
  | BULong => Some IULong | BSLong => Some ILong | BULLong => Some IULLong | BSLLong => Some ILLong
  | _ => None
  end.
Definition basic_of (t : ity) : basic :=
  match t with
  | IBool => BBool | IChar => BChar | IUChar => BUChar | ISChar => BSChar | IUShort => BUShort | IShort => BSShort
  | IUInt => BUInt | IInt => BSInt | IULong => BULong | ILong => BSLong | IULLong => BULLong | ILLong => BSLLong
  end.
Definition is_some {A} (o : option A) : bool := match o with Some _ => true | None => false end.

(** KEFIR_AST_TYPE_IS_INTEGRAL_TYPE *)
Definition integral (t : ty) : bool :=
  match t with TBasic b => is_some (ity_of b) | TEnum _ _ _ _ => true | _ => false end.
(** KEFIR_AST_TYPE_IS_FLOATING_POINT *)
Definition floating (t : ty) : bool :=
  match t with TBasic (BFloat | BDouble | BLDouble) => true | _ => false end.
(** KEFIR_AST_TYPE_IS_ARITHMETIC_TYPE and KEFIR_AST_TYPE_IS_REAL_TYPE *)
Definition arithmetic (t : ty) : bool := integral t || floating t.
Definition pointer (t : ty) : bool := match t with TPtr _ => true | _ => false end.
(** KEFIR_AST_TYPE_IS_SCALAR_TYPE *)
Definition scalar (t : ty) : bool := arithmetic t || pointer t.
Definition record (t : ty) : bool := match t with TStruct _ _ _ | TUnion _ _ _ => true | _ => false end.
Definition is_void (t : ty) : bool := match t with TBasic BVoid => true | _ => false end.
Definition is_function (t : ty) : bool := match t with TFun _ _ _ _ => true | _ => false end.
Definition is_array (t : ty) : bool := match t with TArr _ _ _ => true | _ => false end.

(** KEFIR_AST_TYPE_IS_INCOMPLETE, headers/kefir/ast/type.h 110-115 *)
Definition incomplete (t : ty) : bool :=
  match unqualified t with
  | TBasic BVoid => true
  | TArr Unbounded _ _ => true
  | TStruct c _ _ | TUnion c _ _ => negb c
  | _ => false
  end.
(** KEFIR_AST_TYPE_IS_VL_ARRAY *)
Definition vl_array (t : ty) : bool := match t with TArr (Vla _ | VlaStatic _) _ _ => true | _ => false end.

(** kefir_ast_type_retrieve_qualifications and kefir_ast_type_merge_qualifications, qualified.c 128-159 *)
Definition n_quals (t : ty) : qual := match t with TQual q _ => q | _ => Q false false false end.
Definition merge (a b : qual) : qual :=
  Q (q_const a || q_const b) (q_restrict a || q_restrict b) (q_volatile a || q_volatile b).

(** KEFIR_AST_TYPE_CONV_EXPRESSION_ALL, type_conv.c 181-200 *)
Definition conv (t : ty) : ty :=
  match unqualified t with
  | TArr _ _ e => TPtr e
  | TFun _ _ _ _ as f => TPtr f
  | TBasic BVaList => TPtr (TBasic BVaList)
  | u => u
  end.

(** kefir_ast_type_completion, type_completion.c 59-160 *)
Fixpoint completion (G : ctx) (t : ty) : ty :=
  match t with
  | TPtr a => TPtr (completion G a)
  | TArr b q a => TArr b q (completion G a)
  | TQual q a => qualify q (completion G a)
  | TStruct false (Some x) _ | TUnion false (Some x) _ => match c_tags G x with Some t' => t' | None => t end
  | _ => t
  end.

(** ** Arithmetic conversions, type_conv.c 24-126 (TypeConvModel) *)

Definition aty_of (t : ty) : option aty :=
  match t with
  | TBasic BFloat => Some AFloat | TBasic BDouble => Some ADouble | TBasic BLDouble => Some ALDouble
  | TBasic b => option_map AInt (ity_of b)
  | TEnum _ _ _ u => option_map AEnum (ity_of u)
  | _ => None
  end.
Definition of_aty (a : aty) : ty :=
  match a with
  | AInt t | AEnum t => TBasic (basic_of t)
  | AFloat => TBasic BFloat | ADouble => TBasic BDouble | ALDouble => TBasic BLDouble
  end.
Definition int_promotion (t : ty) (bits : option Z) : option ty :=
  match aty_of t with
  | Some (AInt i | AEnum i) => option_map (fun i => TBasic (basic_of i)) (k_int_promotion i bits)
  | _ => None
  end.
Definition common_arithmetic (t1 : ty) (b1 : option Z) (t2 : ty) (b2 : option Z) : option ty :=
  match aty_of t1, aty_of t2 with
  | Some a1, Some a2 => option_map of_aty (k_common_arithmetic a1 b1 a2 b2)
  | _, _ => None
  end.

(** ** Results *)

(** struct kefir_ast_node_properties; [n_ref] is what kefir_ast_node_is_lvalue_reference_constant says of the node. *)
Record props := P { n_type : ty; n_lvalue : bool; n_addr : bool; n_bits : option Z; n_const : bool; n_ref : bool }.

Inductive out (A : Type) := Ok (a : A) | Err | Bad.
Arguments Ok {A}. Arguments Err {A}. Arguments Bad {A}.
Definition bind {A B} (o : out A) (f : A -> out B) : out B := match o with Ok a => f a | Err => Err | Bad => Bad end.
(** REQUIRE *)
Definition req {A} (b : bool) (k : out A) : out A := if b then k else Err.
(** REQUIRE of a comparison of types *)
Definition reqr {A} (r : res) (k : out A) : out A := match r with Yes => k | No => Err | _ => Bad end.
Definition of_type (o : option ty) (k : ty -> out props) : out props := match o with Some t => k t | None => Bad end.

Definition value (t : ty) (const : bool) : props := P t false false None const false.
Definition int_t : ty := TBasic BSInt.

(** ** Members: kefir_ast_struct_type_resolve_field, struct.c 442-469 *)
Inductive lookup := Found (f : field) | Missing | Fault.
Fixpoint resolve_field (t : ty) (m : string) {struct t} : lookup :=
  match t with
  | TStruct c _ fs | TUnion c _ fs =>
    if c then
      match field_at fs m with
      | Some f => Found f
      | None =>
        (fix loop (fs : list field) : lookup :=
           match fs with
           | [] => Missing
           | Field None t' _ _ :: r =>
             match t' with
             | TStruct _ _ _ | TUnion _ _ _ =>
               match resolve_field t' m with Missing => loop r | x => x end
             | _ => loop r
             end
           | _ :: r => loop r
           end) fs
      end
    else Fault
  | _ => Fault
  end.

(** ** Constants *)

Definition const_type (k : ckind) : ty :=
  TBasic match k with
  | KInt | KChar => BSInt | KUInt => BUInt | KLong => BSLong | KULong => BULong | KLLong => BSLLong | KULLong => BULLong
  | KWide => BSInt | KU16 => BUShort | KU32 => BUInt   (* type.c 172-178 *)
  | KFloat => BFloat | KDouble => BDouble | KLDouble => BLDouble
  end.
Definition string_element (k : skind) : ty :=
  TBasic match k with SMultibyte | SU8 => BChar | SU16 => BUShort | SU32 => BUInt | SWide => BSInt end.

(** Constant evaluation; a cast of an integer to a pointer gives an address without symbol,
    source/ast/constant_expression/cast_operator.c 143-172. *)
Fixpoint fold (G : ctx) (e : expr) : cval :=
  match e with
  | ECast t a =>
    match unqualified t with
    | TPtr _ => match fold G a with VInt z => VAddr z 0 | v => v end
    | _ => c_eval G e
    end
  | _ => c_eval G e
  end.

(** kefir_ast_is_null_pointer_constant, analyzer.c 155-198 *)
Definition is_null (G : ctx) (e : expr) (p : props) : out bool :=
  if n_const p && (integral (n_type p) || match n_type p with TPtr t => is_void t | _ => false end) then
    match fold G e with
    | VInt z => Ok (z =? 0)
    | VAddr b o => Ok ((b =? 0) && (o =? 0))
    | VOther | VNot => Ok false
    | VErr => Err
    end
  else Ok false.

(** ** Assignment: kefir_ast_type_assignable, assignable.c 27-79 *)

(** default_pointer_type_fits, type.c 104-141 *)
Definition pointer_fits (t : ty) : bool :=
  match t with TBasic (BULong | BSLong | BULLong | BSLLong) => true | _ => false end.

Definition qualifiers_kept (qv qt : qual) : bool :=
  (negb (q_const qv) || q_const qt) && (negb (q_restrict qv) || q_restrict qt) && (negb (q_volatile qv) || q_volatile qt).

Definition type_assignable (value_type : ty) (const : bool) (target : ty) : out unit :=
  if (match target with TBasic BBool => true | _ => false end) && pointer value_type then Ok tt
  else if arithmetic target then req (arithmetic value_type) (Ok tt)
  else if record target then reqr (compatible target value_type) (Ok tt)
  else
    match target, value_type with
    | TPtr t, TPtr v =>
      let tu := unqualified t in
      let vu := unqualified v in
      let quals_ok := req (qualifiers_kept (n_quals v) (n_quals t)) (Ok tt) in
      if negb (is_void tu) && negb (is_void vu) then reqr (compatible tu vu) quals_ok else quals_ok
    | TBasic BVaList, _ => req (match value_type with TBasic BVaList => true | _ => false end) (Ok tt)
    | TPtr _, _ =>
      req (integral value_type)
        (match value_type with
         | TEnum _ _ _ _ => if const then Ok tt else Err   (* pointer_type_fits fails on an enumeration *)
         | _ => req (const || pointer_fits value_type) (Ok tt)
         end)
    | _, _ => Err
    end.

(** kefir_ast_node_assignable, assignable.c 81-95 *)
Definition assignable (p : props) (target : ty) : out unit := type_assignable (conv (n_type p)) (n_const p) target.

(** ** Nodes *)

(** identifier.c 35-58, lvalue_constant_reference.c 42-69 *)
Definition an_id (G : ctx) (x : string) : out props :=
  match c_ids G x with
  | None => Err
  | Some (IObject t s) =>
    let static := match s with SStatic | SExtern => true | _ => false end in
    Ok (P t (negb (is_array t)) (match s with SRegister => false | _ => true end) None (is_array t && static) static)
  | Some (IFunction t) => Ok (P t false true None true true)
  | Some (IEnumerator _) => Ok (value int_t true)
  end.

(** array_subscript.c 48-70, lvalue_constant_reference.c 83-105 *)
Definition an_sub (pa pi : props) : out props :=
  let ta := conv (n_type pa) in
  let ti := conv (n_type pi) in
  let both := n_const pa && n_const pi in
  let ref :=
    match unqualified (n_type pa) with
    | TArr _ _ _ => n_ref pa && n_const pi
    | TPtr _ => both
    | _ => match unqualified (n_type pi) with TArr _ _ _ => n_ref pi && n_const pa | _ => both end
    end in
  match ta, ti with
  | TPtr t, _ => req (integral ti) (Ok (P t true true None false ref))
  | _, TPtr t => req (integral ta) (Ok (P t true true None false ref))
  | _, _ => Err
  end.

(** function_call.c 86-99 *)
Fixpoint check_args (ps : list param) (args : list props) : out (list param * list props) :=
  match ps, args with
  | p :: ps', a :: args' =>
    match p_type p with
    | Some x => bind (assignable a (unqualified (adjusted x))) (fun _ => check_args ps' args')
    | None => Bad
    end
  | _, _ => Ok (ps, args)
  end.

(** function_call.c 76-124 *)
Definition an_call (pf : props) (args : list props) : out props :=
  match conv (n_type pf) with
  | TPtr (TFun r m ps ell) =>
    bind
      match m with
      | ModeParameters =>
        bind (check_args ps args) (fun rest =>
        match rest with
        | (p :: _, _) =>
          match p_type p with
          | Some x => req (is_void (adjusted x) && Nat.eqb (List.length ps) 1) (Ok tt)
          | None => Bad
          end
        | ([], _ :: _) => req ell (Ok tt)
        | ([], []) => Ok tt
        end)
      | _ => Ok tt
      end (fun _ =>
    req (negb (is_array (unqualified r))) (Ok (value (unqualified r) false)))
  | _ => Err
  end.

(** struct_member.c 44-89; lvalue_constant_reference.c 71-81 and 107-117 *)
Definition an_member (G : ctx) (t : ty) (m : string) (ref : bool) : out props :=
  let q := match t with TQual q _ => Some q | _ => None end in
  req (record (unqualified t))
    (let s := completion G (unqualified t) in
     req (record s && negb (incomplete s))
       match resolve_field s m with
       | Found f =>
         let ft := completion G (f_type f) in
         let ft := match q with Some q => qualify q ft | None => ft end in
         Ok (P ft true (negb (is_some (f_width f))) (f_width f) false ref)
       | _ => Err
       end).

Definition an_arrow (G : ctx) (ps : props) (m : string) : out props :=
  match conv (n_type ps) with TPtr t => an_member G t m (n_const ps) | _ => Err end.

(** unary_operation.c 39-142 *)
Definition an_unary (o : unop) (p : props) : out props :=
  let t := conv (n_type p) in
  match o with
  | UPlus | UMinus =>
    req (arithmetic t)
      (if integral t then of_type (int_promotion t (n_bits p)) (fun t' => Ok (value t' (n_const p))) else Ok (value t (n_const p)))
  | UInv => req (integral t) (of_type (int_promotion t (n_bits p)) (fun t' => Ok (value t' (n_const p))))
  | UNot => req (scalar t) (Ok (value int_t (n_const p)))
  | UPreInc | UPreDec | UPostInc | UPostDec =>
    req (n_lvalue p) (req (negb (q_const (n_quals (n_type p)))) (req (scalar (unqualified (n_type p)))
      (Ok (value (unqualified (n_type p)) false))))
  | UAddr => req (n_addr p) (Ok (value (TPtr (n_type p)) (n_ref p)))
  | UDeref =>
    match t with
    | TPtr a => Ok (P a (negb (is_function a)) true None false false)
    | _ => Err
    end
  end.

(** unary_operation.c 144-168 *)
Definition an_sizeof (G : ctx) (t : ty) (bits : option Z) : out props :=
  req (negb (is_some bits)) (req (negb (is_function t))
    (let t := completion G t in req (negb (incomplete t)) (Ok (value int_t (negb (vl_array t)))))).
(** unary_operation.c 170-185 *)
Definition an_alignof (G : ctx) (t : ty) : out props :=
  req (negb (is_function t)) (req (negb (incomplete (completion G t))) (Ok (value int_t true))).

(** cast_operator.c 43-65 *)
Definition an_cast (t : ty) (p : props) : out props :=
  let et := conv (n_type p) in
  let ct := unqualified t in
  req ((scalar et && scalar ct) || is_void t)
    (req (negb (floating ct && pointer et)) (req (negb (floating et && pointer ct)) (Ok (value ct (n_const p))))).

(** binary_operation.c 28-225 *)
Definition an_common (t1 : ty) (b1 : option Z) (t2 : ty) (b2 : option Z) (const : bool) : out props :=
  of_type (common_arithmetic t1 b1 t2 b2) (fun t => Ok (value t const)).
Definition an_integral (t1 : ty) b1 (t2 : ty) b2 const : out props :=
  req (integral t1) (req (integral t2) (an_common t1 b1 t2 b2 const)).
Definition an_arithmetic (t1 : ty) b1 (t2 : ty) b2 const : out props :=
  req (arithmetic t1) (req (arithmetic t2) (an_common t1 b1 t2 b2 const)).
Definition complete_pointer (t : ty) : bool := match t with TPtr a => negb (incomplete a) | _ => false end.
Definition an_add (t1 : ty) b1 (t2 : ty) b2 const : out props :=
  if complete_pointer t1 then req (integral t2) (Ok (value t1 const))
  else if complete_pointer t2 then req (integral t1) (Ok (value t2 const))
  else an_arithmetic t1 b1 t2 b2 const.
Definition an_subtract (t1 : ty) b1 (t2 : ty) b2 const : out props :=
  match t1, t2 with
  | TPtr a, TPtr b =>
    let a := unqualified a in
    let b := unqualified b in
    req (negb (incomplete a)) (req (negb (incomplete b)) (reqr (compatible a b) (Ok (value (TBasic BSLong) const))))
  | _, _ =>
    if complete_pointer t1 then req (integral t2) (Ok (value t1 const))
    else an_arithmetic t1 b1 t2 b2 const
  end.
Definition an_relational (t1 t2 : ty) const : out props :=
  match t1, t2 with
  | TPtr a, TPtr b => reqr (compatible (unqualified a) (unqualified b)) (Ok (value int_t const))
  | _, _ => req (arithmetic t1 && arithmetic t2) (Ok (value int_t const))
  end.
Definition an_equality (t1 : ty) (c1 : bool) (t2 : ty) (c2 : bool) : out props :=
  let r := Ok (value int_t (c1 && c2)) in
  if arithmetic t1 && arithmetic t2 then r
  else
    match t1, t2 with
    | TPtr a, TPtr b =>
      let a := unqualified a in
      let b := unqualified b in
      match compatible a b with
      | Yes => r
      | No => req (is_void a || is_void b) r
      | _ => Bad
      end
    | TPtr _, _ => req (integral t2 && c2) r
    | _, _ => req (integral t1 && c1) (req (pointer t2) r)
    end.

(** binary_operation.c 227-310 *)
Definition an_binary (o : binop) (p1 p2 : props) : out props :=
  let t1 := conv (n_type p1) in
  let t2 := conv (n_type p2) in
  let b1 := n_bits p1 in
  let b2 := n_bits p2 in
  let const := n_const p1 && n_const p2 in
  match o with
  | BMod | BAnd | BOr | BXor => an_integral t1 b1 t2 b2 const
  | BMul | BDiv => an_arithmetic t1 b1 t2 b2 const
  | BAdd => an_add t1 b1 t2 b2 const
  | BSub => an_subtract t1 b1 t2 b2 const
  | BShl | BShr => req (integral t1) (req (integral t2) (of_type (int_promotion t1 b1) (fun t => Ok (value t const))))
  | BLt | BLe | BGt | BGe => an_relational t1 t2 const
  | BEq | BNe => an_equality t1 (n_const p1) t2 (n_const p2)
  | BLand | BLor => req (scalar t1) (req (scalar t2) (Ok (value int_t const)))
  end.

(** conditional_operator.c 70-131 *)
Definition qualified_pointer (q : qual) (t : ty) : ty := TPtr (if zero_qual q then t else qualify q t).
Definition an_cond_pointers (t1 t2 : ty) (const : bool) : out props :=
  match t1, t2 with
  | TPtr a, TPtr b =>
    let q := merge (n_quals a) (n_quals b) in
    let a := unqualified a in
    let b := unqualified b in
    if is_void a || is_void b then Ok (value (qualified_pointer q (TBasic BVoid)) const)
    else
      reqr (compatible a b)
        match composite a b with
        | Comp c => Ok (value (qualified_pointer q c) const)
        | _ => Bad
        end
  | _, _ => Err
  end.
Definition an_cond (G : ctx) (pc : props) (e1 : expr) (p1 : props) (e2 : expr) (p2 : props) : out props :=
  let t1 := conv (n_type p1) in
  let t2 := conv (n_type p2) in
  let const := n_const pc && n_const p1 && n_const p2 in
  let other :=
    if is_void t1 && is_void t2 then Ok (value (TBasic BVoid) const)
    else
      bind (is_null G e1 p1) (fun n1 =>
      bind (is_null G e2 p2) (fun n2 =>
        if pointer t1 && n2 then Ok (value t1 const)
        else if n1 && pointer t2 then Ok (value t2 const)
        else if n1 && n2 then Ok (value t1 const)
        else an_cond_pointers t1 t2 const)) in
  req (scalar (conv (n_type pc)))
    (if arithmetic t1 && arithmetic t2 then of_type (common_arithmetic t1 (n_bits p1) t2 (n_bits p2)) (fun t => Ok (value t const))
     else if record t1 && record t2 then
       match same t1 t2 with
       | Yes => Ok (value t1 const)
       | No => other
       | _ => Bad
       end
     else other).

(** assignment_operator.c 28-140 *)
Definition an_compound (o : assignop) (tt' tv : ty) : out unit :=
  match o with
  | AMul | ADiv => req (arithmetic tt') (req (arithmetic tv) (Ok tt))
  | AMod | AShl | AShr | AAnd | AOr | AXor => req (integral tt') (req (integral tv) (Ok tt))
  | AAdd | ASub =>
    match tt' with
    | TPtr a => req (negb (incomplete (unqualified a))) (req (integral tv) (Ok tt))
    | _ => req (arithmetic tt') (req (arithmetic tv) (Ok tt))
    end
  | ASimple => Err
  end.
Definition an_assign (o : assignop) (p1 p2 : props) : out props :=
  req (n_lvalue p1) (req (negb (q_const (n_quals (n_type p1))))
    (bind match o with
          | ASimple => assignable p2 (conv (n_type p1))
          | _ => an_compound o (conv (n_type p1)) (conv (n_type p2))
          end (fun _ => Ok (value (conv (n_type p1)) false)))).

(** ** kefir_ast_analyze_node *)
Fixpoint analyze (G : ctx) (e : expr) {struct e} : out props :=
  match e with
  | EId x => an_id G x
  | EConst k _ => Ok (value (const_type k) true)
  | EStr k n => Ok (value (TArr (Bounded n) (Q false false false) (string_element k)) true)
  | ESub a i => bind (analyze G a) (fun pa => bind (analyze G i) (fun pi => an_sub pa pi))
  | ECall f args =>
    bind (analyze G f) (fun pf =>
    bind ((fix loop (l : list expr) : out (list props) :=
             match l with
             | [] => Ok []
             | a :: r => bind (analyze G a) (fun p => bind (loop r) (fun ps => Ok (p :: ps)))
             end) args) (fun pargs => an_call pf pargs))
  | EMember s m => bind (analyze G s) (fun ps => an_member G (n_type ps) m (n_ref ps))
  | EArrow s m => bind (analyze G s) (fun ps => an_arrow G ps m)
  | EUn o a => bind (analyze G a) (an_unary o)
  | ESizeof a => bind (analyze G a) (fun p => an_sizeof G (n_type p) (n_bits p))
  | ESizeofT t => an_sizeof G t None
  | EAlignofT t => an_alignof G t
  | ECast t a => bind (analyze G a) (an_cast t)
  | EBin o a b => bind (analyze G a) (fun pa => bind (analyze G b) (fun pb => an_binary o pa pb))
  | ECond c a b =>
    bind (analyze G c) (fun pc => bind (analyze G a) (fun pa => bind (analyze G b) (fun pb => an_cond G pc a pa b pb)))
  | EAssign o a b => bind (analyze G a) (fun pa => bind (analyze G b) (fun pb => an_assign o pa pb))
  | EComma es =>
    (* comma_operator.c 41-53 *)
    (fix loop (acc : out props) (l : list expr) : out props :=
       match l with
       | [] => acc
       | a :: r => bind (analyze G a) (fun p => loop (Ok (value (conv (n_type p)) false)) r)
       end) Err es
  end.
