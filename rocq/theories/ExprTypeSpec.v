(** C53: types and constraints of expressions, C17 6.5 and 6.3.2. *)
(* Specification.  From the model of the analyzer only the syntax of expressions and the context are taken. *)
From Coq Require Import ZArith List Bool String.
From Verif Require Import CTypes CompatModel PropCompatSpec.
From Verif Require PropComposite ExprTypeModel.
From Verif Require Export ExprTypeModel.
Import ListNotations.
Open Scope Z_scope.

(** ** Types *)

(** 6.2.5: an integer type, or the integer type an enumeration is compatible with *)
Definition integer_of (b : basic) : option ity :=
  match b with
  | BBool => Some IBool | BChar => Some IChar | BUChar => Some IUChar | BSChar => Some ISChar
  | BUShort => Some IUShort | BSShort => Some IShort | BUInt => Some IUInt | BSInt => Some IInt
  | BULong => Some IULong | BSLong => Some ILong | BULLong => Some IULLong | BSLLong => Some ILLong
  | BVoid | BFloat | BDouble | BLDouble | BVaList => None
  end.
Definition arith_of (t : ty) : option aty :=
  match t with
  | TBasic BFloat => Some AFloat
  | TBasic BDouble => Some ADouble
  | TBasic BLDouble => Some ALDouble
  | TBasic b => match integer_of b with Some i => Some (AInt i) | None => None end
  | TEnum _ _ _ b => match integer_of b with Some i => Some (AInt i) | None => None end
  | _ => None
  end.
Definition is_integer (t : ty) : Prop := exists i, arith_of t = Some (AInt i).
Definition is_floating (t : ty) : Prop := t = TBasic BFloat \/ t = TBasic BDouble \/ t = TBasic BLDouble.
Definition is_arithmetic (t : ty) : Prop := arith_of t <> None.
Definition is_pointer (t : ty) : Prop := exists a, t = TPtr a.
Definition is_scalar (t : ty) : Prop := is_arithmetic t \/ is_pointer t.
Definition is_record (t : ty) : Prop := match t with TStruct _ _ _ | TUnion _ _ _ => True | _ => False end.

Definition strip (t : ty) : ty := match t with TQual _ a => a | _ => t end.
Definition quals (t : ty) : qual := match t with TQual q _ => q | _ => unq end.
Definition void : ty := TBasic BVoid.
Definition function (t : ty) : Prop := match strip t with TFun _ _ _ _ => True | _ => False end.
Definition array (t : ty) : Prop := match strip t with TArr _ _ _ => True | _ => False end.

(** The type denoted at this point of the program: a structure or union declared by its tag alone is the one
    defined by now. *)
Fixpoint current (G : ctx) (t : ty) : ty :=
  match t with
  | TPtr a => TPtr (current G a)
  | TArr b q a => TArr b q (current G a)
  | TQual q a => add_qual q (current G a)
  | TStruct false (Some x) _ | TUnion false (Some x) _ => match c_tags G x with Some t' => t' | None => t end
  | _ => t
  end.

(** 6.2.5p1: complete object types *)
Definition complete (G : ctx) (t : ty) : Prop :=
  match strip t with
  | TBasic BVoid => False
  | TArr Unbounded _ _ => False
  | TFun _ _ _ _ => False
  | TStruct false None _ | TUnion false None _ => False
  | TStruct false (Some x) _ | TUnion false (Some x) _ => c_tags G x <> None
  | _ => True
  end.

(** 6.3.2.1p2-4: lvalue conversion, arrays and functions become pointers *)
Definition value_type (t : ty) : ty :=
  match t with
  | TArr _ _ e => TPtr e
  | TQual q (TArr _ _ e) => TPtr (add_qual q e)
  | TFun _ _ _ _ | TBasic BVaList => TPtr t
  | TQual _ a => a
  | _ => t
  end.

(** 6.7.3p9: qualifying an array qualifies its elements *)
Fixpoint so_qualified (q : qual) (t : ty) : ty :=
  match t with TArr b z e => TArr b z (so_qualified q e) | _ => if zero_qual q then t else add_qual q t end.

(** ** Arithmetic *)

(** 6.3.1.1p2; a bit-field holds the values of its width *)
Definition promote (i : ity) (bits : option Z) : ity :=
  match bits with
  | None => c_promote i
  | Some w => if irank i <=? irank IInt then if isigned i || (w <? 32) then IInt else IUInt else i
  end.
Definition basic_ty (i : ity) : ty :=
  TBasic match i with
  | IBool => BBool | IChar => BChar | IUChar => BUChar | ISChar => BSChar | IUShort => BUShort | IShort => BSShort
  | IUInt => BUInt | IInt => BSInt | IULong => BULong | ILong => BSLong | IULLong => BULLong | ILLong => BSLLong
  end.
Definition promoted_to (t : ty) (bits : option Z) (t' : ty) : Prop :=
  exists i, arith_of t = Some (AInt i) /\ t' = basic_ty (promote i bits).
(** 6.3.1.8 *)
Definition common_type (t1 : ty) (b1 : option Z) (t2 : ty) (b2 : option Z) (t : ty) : Prop :=
  match arith_of t1, arith_of t2 with
  | Some (AInt i), Some (AInt j) => t = basic_ty (c_common (promote i b1) (promote j b2))
  | Some a, Some b =>
    if (match a with ALDouble => true | _ => false end) || (match b with ALDouble => true | _ => false end) then t = TBasic BLDouble
    else if (match a with ADouble => true | _ => false end) || (match b with ADouble => true | _ => false end) then t = TBasic BDouble
    else t = TBasic BFloat
  | _, _ => False
  end.

(** ** Constants *)

(** 6.6p6; sizeof of a variable length array is no constant *)
Fixpoint ice (G : ctx) (e : expr) : Prop :=
  match e with
  | EConst (KFloat | KDouble | KLDouble) _ => False
  | EConst _ _ => True
  | EId x => exists z, c_ids G x = Some (IEnumerator z)
  | ESizeof _ | EAlignofT _ => True
  | ESizeofT t => match strip t with TArr (Vla _ | VlaStatic _) _ _ => False | _ => True end
  | ECast t a => is_integer (strip t) /\ (ice G a \/ exists k z, a = EConst k z)
  | EUn (UPlus | UMinus | UInv | UNot) a => ice G a
  | EBin _ a b => ice G a /\ ice G b
  | ECond c a b => ice G c /\ ice G a /\ ice G b
  | _ => False
  end.
(** 6.3.2.3p3: null pointer constants *)
Definition npc (G : ctx) (e : expr) : Prop :=
  (ice G e /\ c_eval G e = VInt 0) \/
  exists t a, e = ECast t a /\ strip t = TPtr void /\ ice G a /\ c_eval G a = VInt 0.

(** ** Categories of expressions *)

(** Is it an lvalue, does it designate an object declared with register, the width of the bit-field *)
Record cat := K { k_lvalue : bool; k_register : bool; k_bits : option Z }.
Definition rvalue : cat := K false false None.

(** 6.3.2.1p1: no const qualifier on the type or, recursively, on a member *)
Fixpoint const_free (t : ty) : Prop :=
  match t with
  | TQual q a => q_const q = false /\ const_free a
  | TArr _ _ a => const_free a
  | TStruct _ _ fs | TUnion _ _ fs => (fix all fs := match fs with [] => True | Field _ a _ _ :: r => const_free a /\ all r end) fs
  | _ => True
  end.
Definition modifiable (G : ctx) (t : ty) (k : cat) : Prop :=
  k_lvalue k = true /\ ~ array t /\ complete G t /\ const_free (current G t).

(** ** Assignment: 6.5.16.1p1 *)

Definition all_quals_of (a b : qual) : Prop :=
  (q_const b = true -> q_const a = true) /\ (q_restrict b = true -> q_restrict a = true) /\ (q_volatile b = true -> q_volatile a = true).
(** an object of the unqualified type t takes the value of e, which has the type v after conversion *)
Definition assigns (G : ctx) (t : ty) (e : expr) (v : ty) : Prop :=
  (is_arithmetic t /\ is_arithmetic v) \/
  (is_record t /\ is_record v /\ conforms t v) \/
  (exists a b, t = TPtr a /\ v = TPtr b /\ conforms (strip a) (strip b) /\ all_quals_of (quals a) (quals b)) \/
  (exists a b, t = TPtr a /\ v = TPtr b /\ (strip a = void \/ strip b = void) /\ ~ function a /\ ~ function b /\
     all_quals_of (quals a) (quals b)) \/
  (is_pointer t /\ npc G e) \/
  (t = TBasic BBool /\ is_pointer v).

(** ** Rules *)

Section Rules.
(** The type of sizeof and _Alignof *)
Variable size_type : ty.
Variable G : ctx.

Definition rule_id (x : string) (t : ty) (k : cat) : Prop :=
  match c_ids G x with
  | Some (IObject t' s) => t = t' /\ k = K true (match s with SRegister => true | _ => false end) None
  | Some (IFunction t') => t = t' /\ k = rvalue
  | Some (IEnumerator _) => t = TBasic BSInt /\ k = rvalue
  | None => False
  end.

(** 6.4.4; char16_t is unsigned short, char32_t unsigned int, wchar_t int *)
Definition rule_const (c : ckind) : ty :=
  match c with
  | KInt | KChar | KWide => TBasic BSInt | KUInt | KU32 => TBasic BUInt | KU16 => TBasic BUShort
  | KLong => TBasic BSLong | KULong => TBasic BULong | KLLong => TBasic BSLLong | KULLong => TBasic BULLong
  | KFloat => TBasic BFloat | KDouble => TBasic BDouble | KLDouble => TBasic BLDouble
  end.
(** 6.4.5p6 *)
Definition rule_str (s : skind) (n : Z) : ty :=
  TArr (Bounded n) unq match s with SMultibyte | SU8 => TBasic BChar | SU16 => TBasic BUShort | SU32 => TBasic BUInt | SWide => TBasic BSInt end.

(** 6.5.2.1 *)
Definition rule_sub (t1 t2 t : ty) : Prop :=
  (value_type t1 = TPtr t /\ complete G t /\ is_integer (value_type t2)) \/
  (value_type t2 = TPtr t /\ complete G t /\ is_integer (value_type t1)).

(** 6.5.2.2p1, p2, p4; a parameter list of void alone stands for no parameters (6.7.6.3p10) *)
Fixpoint passed (xs : list ty) (ellipsis : bool) (args : list (expr * ty)) : Prop :=
  match xs, args with
  | [], [] => True
  | [], _ :: _ => ellipsis = true
  | x :: xs', (e, t) :: args' => assigns G (parameter x) e (value_type t) /\ passed xs' ellipsis args'
  | _ :: _, [] => False
  end.
Definition parameters (ps : list param) (xs : list ty) : Prop :=
  match ps with
  | [Param (Some (TBasic BVoid)) _] => xs = []
  | _ => map p_type ps = map Some xs
  end.
Definition rule_call (tf : ty) (args : list (expr * ty)) (t : ty) : Prop :=
  exists r m ps ellipsis, value_type tf = TPtr (TFun r m ps ellipsis) /\
    (strip r = void \/ (complete G r /\ ~ array r)) /\
    Forall (fun a => complete G (value_type (snd a))) args /\
    (m = ModeParameters -> exists xs, parameters ps xs /\ passed xs ellipsis args) /\
    t = strip r.

(** 6.7.2.1p13, 6.5.2.3: the members of anonymous structures and unions are members of the containing one *)
Inductive has_member : list field -> string -> ty -> option Z -> Prop :=
| HMDirect : forall fs m t a w, In (Field (Some m) t a w) fs -> has_member fs m t w
| HMAnonymous : forall fs t a w m t' w' c i gs, In (Field None t a w) fs ->
    (strip t = TStruct c i gs \/ strip t = TUnion c i gs) -> has_member gs m t' w' -> has_member fs m (so_qualified (quals t) t') w'.
Definition rule_member (s : ty) (m : string) (t : ty) (w : option Z) : Prop :=
  exists i fs t', (current G (strip s) = TStruct true i fs \/ current G (strip s) = TUnion true i fs) /\
    is_record (strip s) /\ has_member fs m t' w /\ t = so_qualified (quals s) (current G t').

(** 6.5.3.2p1 *)
Definition may_take_address (e : expr) (t : ty) (k : cat) : Prop :=
  function t \/ (exists a i, e = ESub a i) \/ (exists a, e = EUn UDeref a) \/
  (k_lvalue k = true /\ k_register k = false /\ k_bits k = None).

(** 6.5.2.4, 6.5.3 *)
Definition rule_unary (o : unop) (e : expr) (t1 : ty) (k1 : cat) (t : ty) (k : cat) : Prop :=
  match o with
  | UPlus | UMinus =>
    k = rvalue /\ ((is_floating (value_type t1) /\ t = value_type t1) \/ promoted_to (value_type t1) (k_bits k1) t)
  | UInv => k = rvalue /\ promoted_to (value_type t1) (k_bits k1) t
  | UNot => k = rvalue /\ is_scalar (value_type t1) /\ t = TBasic BSInt
  | UPreInc | UPreDec | UPostInc | UPostDec =>
    k = rvalue /\ modifiable G t1 k1 /\ t = strip t1 /\ (is_arithmetic t \/ exists a, t = TPtr a /\ complete G a)
  | UAddr => k = rvalue /\ may_take_address e t1 k1 /\ t = TPtr t1
  | UDeref =>
    value_type t1 = TPtr t /\
    (* a designator of an object, of a function or an expression of type void *)
    k_register k = false /\ k_bits k = None /\ (k_lvalue k = true <-> ~ function t /\ strip t <> void)
  end.

(** 6.5.4 *)
Definition rule_cast (t : ty) (v : ty) : Prop :=
  strip t = void \/
  (is_scalar (strip t) /\ is_scalar v /\ ~ (is_floating (strip t) /\ is_pointer v) /\ ~ (is_pointer (strip t) /\ is_floating v)).

(** 6.5.5 - 6.5.14 *)
Definition pointer_to_object (v : ty) : Prop := exists a, v = TPtr a /\ complete G a.
Definition rule_binary (o : binop) (e1 : expr) (t1 : ty) (b1 : option Z) (e2 : expr) (t2 : ty) (b2 : option Z) (t : ty) : Prop :=
  let v1 := value_type t1 in
  let v2 := value_type t2 in
  match o with
  | BMul | BDiv => common_type v1 b1 v2 b2 t
  | BMod | BAnd | BOr | BXor => is_integer v1 /\ is_integer v2 /\ common_type v1 b1 v2 b2 t
  | BAdd => common_type v1 b1 v2 b2 t \/ (pointer_to_object v1 /\ is_integer v2 /\ t = v1) \/ (is_integer v1 /\ pointer_to_object v2 /\ t = v2)
  | BSub =>
    common_type v1 b1 v2 b2 t \/ (pointer_to_object v1 /\ is_integer v2 /\ t = v1) \/
    (exists a b, v1 = TPtr a /\ v2 = TPtr b /\ complete G a /\ complete G b /\ conforms (strip a) (strip b) /\ t = TBasic BSLong)
  | BShl | BShr => is_integer v2 /\ promoted_to v1 b1 t
  | BLt | BLe | BGt | BGe =>
    t = TBasic BSInt /\
    ((is_arithmetic v1 /\ is_arithmetic v2) \/
     exists a b, v1 = TPtr a /\ v2 = TPtr b /\ ~ function a /\ ~ function b /\ conforms (strip a) (strip b))
  | BEq | BNe =>
    t = TBasic BSInt /\
    ((is_arithmetic v1 /\ is_arithmetic v2) \/
     (exists a b, v1 = TPtr a /\ v2 = TPtr b /\
        (conforms (strip a) (strip b) \/ ((strip a = void \/ strip b = void) /\ ~ function a /\ ~ function b))) \/
     (is_pointer v1 /\ npc G e2) \/ (npc G e1 /\ is_pointer v2))
  | BLand | BLor => t = TBasic BSInt /\ is_scalar v1 /\ is_scalar v2
  end.

(** 6.5.15; the qualifiers of both pointed-to types *)
Definition pointer_to (q : qual) (a : ty) : ty := TPtr (so_qualified q a).
Definition composite_of (a b c : ty) : Prop := (a = b /\ c = a) \/ PropComposite.joint a b c.
Definition rule_cond (vc : ty) (e1 : expr) (t1 : ty) (b1 : option Z) (e2 : expr) (t2 : ty) (b2 : option Z) (t : ty) : Prop :=
  let v1 := value_type t1 in
  let v2 := value_type t2 in
  is_scalar vc /\
  (common_type v1 b1 v2 b2 t \/
   (is_record v1 /\ is_record v2 /\ current G v1 = current G v2 /\ t = v1) \/
   (v1 = void /\ v2 = void /\ t = void) \/
   (is_pointer v1 /\ npc G e2 /\ t = v1) \/
   (npc G e1 /\ is_pointer v2 /\ t = v2) \/
   (~ npc G e1 /\ ~ npc G e2 /\ exists a b, v1 = TPtr a /\ v2 = TPtr b /\
      ((strip a <> void /\ strip b <> void /\ conforms (strip a) (strip b) /\
        exists c, composite_of (strip a) (strip b) c /\ t = pointer_to (or_qual (quals a) (quals b)) c) \/
       ((strip a = void \/ strip b = void) /\ ~ function a /\ ~ function b /\ t = pointer_to (or_qual (quals a) (quals b)) void)))).

(** 6.5.16.2 *)
Definition rule_compound (o : assignop) (t1 v2 : ty) : Prop :=
  match o with
  | ASimple => False
  | AMul | ADiv => is_arithmetic t1 /\ is_arithmetic v2
  | AMod | AShl | AShr | AAnd | AOr | AXor => is_integer t1 /\ is_integer v2
  | AAdd | ASub => (is_arithmetic t1 /\ is_arithmetic v2) \/ (pointer_to_object t1 /\ is_integer v2)
  end.
Definition rule_assign (o : assignop) (t1 : ty) (k1 : cat) (e2 : expr) (t2 : ty) (t : ty) : Prop :=
  modifiable G t1 k1 /\ t = strip t1 /\
  match o with ASimple => assigns G (strip t1) e2 (value_type t2) | _ => rule_compound o (strip t1) (value_type t2) end.

(** [typed e t k]: the expression satisfies the constraints, has the type t and the category k. *)
Fixpoint typed (e : expr) (t : ty) (k : cat) {struct e} : Prop :=
  match e with
  | EId x => rule_id x t k
  | EConst c _ => t = rule_const c /\ k = rvalue
  | EStr s n => t = rule_str s n /\ k = K true false None
  | ESub a i => exists t1 k1 t2 k2, typed a t1 k1 /\ typed i t2 k2 /\ rule_sub t1 t2 t /\ k = K true false None
  | ECall f args =>
    exists tf kf ts, typed f tf kf /\
      (fix each (l : list expr) (ts : list ty) {struct l} : Prop :=
         match l, ts with
         | [], [] => True
         | a :: l', t' :: ts' => (exists k', typed a t' k') /\ each l' ts'
         | _, _ => False
         end) args ts /\
      rule_call tf (combine args ts) t /\ k = rvalue
  | EMember s m =>
    exists t1 k1 w, typed s t1 k1 /\ rule_member t1 m t w /\ k = K (k_lvalue k1) (k_register k1) w
  | EArrow s m =>
    exists t1 k1 a w, typed s t1 k1 /\ value_type t1 = TPtr a /\ rule_member a m t w /\ k = K true false w
  | EUn o a => exists t1 k1, typed a t1 k1 /\ rule_unary o a t1 k1 t k
  | ESizeof a => exists t1 k1, typed a t1 k1 /\ complete G t1 /\ k_bits k1 = None /\ t = size_type /\ k = rvalue
  | ESizeofT t1 | EAlignofT t1 => complete G t1 /\ t = size_type /\ k = rvalue
  | ECast t1 a => exists t2 k2, typed a t2 k2 /\ rule_cast t1 (value_type t2) /\ t = strip t1 /\ k = rvalue
  | EBin o a b =>
    exists t1 k1 t2 k2, typed a t1 k1 /\ typed b t2 k2 /\ rule_binary o a t1 (k_bits k1) b t2 (k_bits k2) t /\ k = rvalue
  | ECond c a b =>
    exists tc kc t1 k1 t2 k2, typed c tc kc /\ typed a t1 k1 /\ typed b t2 k2 /\
      rule_cond (value_type tc) a t1 (k_bits k1) b t2 (k_bits k2) t /\ k = rvalue
  | EAssign o a b => exists t1 k1 t2 k2, typed a t1 k1 /\ typed b t2 k2 /\ rule_assign o t1 k1 b t2 t /\ k = rvalue
  | EComma es =>
    k = rvalue /\
    (fix last (l : list expr) {struct l} : Prop :=
       match l with
       | [] => False
       | [a] => exists t' k', typed a t' k' /\ t = value_type t'
       | a :: l' => (exists t' k', typed a t' k') /\ last l'
       end) es
  end.
End Rules.
