(** Declaration specifiers: source/ast/analyzer/declarator.c:311-702 and 949-1013. *)

From Coq Require Import ZArith Bool List.
From Verif Require Import PropFunSpec.
Import ListNotations.
Open Scope Z_scope.

(** The types a list of type specifiers can denote.  [TStruct] stands for structures and
    unions; [TOther] for pointers, arrays, functions and qualified types, which only a
    typedef name can denote. *)
Inductive ty :=
  | TVoid | TBool | TChar | TSChar | TUChar | TShort | TUShort | TInt | TUInt | TLong | TULong | TLLong | TULLong
  | TFloat | TDouble | TLDouble | TStruct (n : nat) | TEnum (n : nat) | TVaList | TOther (n : nat).

(** kefir_ast_type_specifier_type_t, headers/kefir/ast/declarator_specifier.h.  A structure,
    enumeration or typedef specifier carries the type that resolve_struct_type,
    resolve_enum_type or resolve_typedef finds. *)
Inductive tspec :=
  | SVoid | SChar | SShort | SInt | SLong | SFloat | SDouble | SSigned | SUnsigned | SBool | SComplex | SAtomic
  | SStruct (n : nat) | SEnum (n : nat) | STypedef (t : ty) | SVaList.
Inductive qual := QConst | QRestrict | QVolatile | QAtomic.
Inductive stor := CTypedef | CExtern | CStatic | CThreadLocal | CAuto | CRegister.
(** kefir_ast_declarator_specifier_t.  An alignment specifier carries what it evaluates to:
    the alignment of the type, or the value of the expression (declarator.c:721-737) as
    kefir_size_t. *)
Inductive spec :=
  | PType (t : tspec) | PQual (q : qual) | PStorage (c : stor) | PFunction (f : fspec) | PAlign (n : Z).

(** enum signedness, declarator.c:33; enum type_specifier_sequence_state :311-315 *)
Inductive sign := NoSign | Signed | Unsigned.
Inductive seqst := Empty | Typedef | Specifiers.

(** resolve_type, declarator.c:317-487: signedness, seq_state and base_type. *)
Definition tstate : Type := sign * seqst * option ty.
Definition typedef_seen (q : seqst) : bool := match q with Typedef => true | _ => false end.
Definition resolve_type (st : tstate) (s : tspec) : option tstate :=
  let '(sg, q, b) := st in
  match s with
  | SVoid => match b with None => Some (sg, Specifiers, Some TVoid) | _ => None end
  | SChar => match b with None => Some (sg, Specifiers, Some TChar) | _ => None end
  | SShort =>
    match b with
    | None | Some TInt => if typedef_seen q then None else Some (sg, q, Some TShort)
    | _ => None
    end
  | SInt =>
    if typedef_seen q then None else
    match b with
    | None => Some (sg, Specifiers, Some TInt)
    | Some TShort | Some TLong | Some TLLong => Some (sg, Specifiers, b)
    | _ => None
    end
  | SLong =>
    if typedef_seen q then None else
    match b with
    | Some TLong => Some (sg, Specifiers, Some TLLong)
    | None | Some TInt => Some (sg, Specifiers, Some TLong)
    | _ => None
    end
  | SFloat => match b with None => if typedef_seen q then None else Some (sg, Specifiers, Some TFloat) | _ => None end
  | SDouble =>
    if typedef_seen q then None else
    match b with
    | None => Some (sg, Specifiers, Some TDouble)
    | Some TLong => Some (sg, Specifiers, Some TLDouble)
    | _ => None
    end
  | SSigned => if typedef_seen q then None else match sg with NoSign => Some (Signed, Specifiers, b) | _ => None end
  | SUnsigned => if typedef_seen q then None else match sg with NoSign => Some (Unsigned, Specifiers, b) | _ => None end
  | SBool => if typedef_seen q then None else match b with None => Some (sg, Specifiers, Some TBool) | _ => None end
  | SComplex | SAtomic => None
  | SStruct n => match q with Empty => Some (sg, Specifiers, Some (TStruct n)) | _ => None end
  | SEnum n => match q with Empty => Some (sg, Specifiers, Some (TEnum n)) | _ => None end
  | STypedef t => match q with Empty => Some (sg, Typedef, Some t) | _ => None end
  | SVaList => match q, b with Empty, None => Some (sg, Specifiers, Some TVaList) | _, _ => None end
  end.

(** apply_type_signedness, declarator.c:489-592 *)
Definition apply_signedness (sg : sign) (b : option ty) : option ty :=
  match sg with
  | NoSign => match b with None => Some TInt | _ => b end
  | Signed =>
    match b with
    | None => Some TInt
    | Some TChar => Some TSChar
    | Some TShort | Some TInt | Some TLong | Some TLLong => b
    | _ => None
    end
  | Unsigned =>
    match b with
    | None => Some TUInt
    | Some TChar => Some TUChar
    | Some TShort => Some TUShort
    | Some TInt => Some TUInt
    | Some TLong => Some TULong
    | Some TLLong => Some TULLong
    | _ => None
    end
  end.

(** resolve_qualification, declarator.c:594-616: constant, restricted, volatile_type *)
Definition quals : Type := bool * bool * bool.
Definition resolve_qualification (s : quals) (q : qual) : option quals :=
  let '(c, r, v) := s in
  match q with
  | QConst => Some (true, r, v)
  | QRestrict => Some (c, true, v)
  | QVolatile => Some (c, r, true)
  | QAtomic => None
  end.

(** resolve_storage_class, declarator.c:618-683 *)
Inductive storage := Unknown | StTypedef | StExtern | StStatic | StThread | StExternThread | StStaticThread | StAuto | StRegister.
Definition resolve_storage_class (s : storage) (c : stor) : option storage :=
  match c with
  | CTypedef => match s with Unknown => Some StTypedef | _ => None end
  | CExtern => match s with Unknown => Some StExtern | StThread => Some StExternThread | _ => None end
  | CStatic => match s with Unknown => Some StStatic | StThread => Some StStaticThread | _ => None end
  | CThreadLocal =>
    match s with StExtern => Some StExternThread | StStatic => Some StStaticThread | Unknown => Some StThread | _ => None end
  | CAuto => match s with Unknown => Some StAuto | _ => None end
  | CRegister => match s with Unknown => Some StRegister | _ => None end
  end.

(** The state of analyze_declaration_specifiers_impl, declarator.c:954-960.
    resolve_function_specifier is :685-702, evaluate_alignment :721-737. *)
Record dstate := mk_dstate { d_type : tstate; d_quals : quals; d_storage : storage; d_function : fspec; d_align : Z }.
Definition start : dstate := mk_dstate (NoSign, Empty, None) (false, false, false) Unknown FNone 0.
Definition step (d : dstate) (s : spec) : option dstate :=
  let '(mk_dstate t q c f a) := d in
  match s with
  | PType x => option_map (fun t => mk_dstate t q c f a) (resolve_type t x)
  | PQual x => option_map (fun q => mk_dstate t q c f a) (resolve_qualification q x)
  | PStorage x => option_map (fun c => mk_dstate t q c f a) (resolve_storage_class c x)
  | PFunction x => Some (mk_dstate t q c (merge f x) a)
  | PAlign n => Some (mk_dstate t q c f (Z.max a n))
  end.
Fixpoint steps (d : dstate) (l : list spec) : option dstate :=
  match l with
  | [] => Some d
  | s :: l => match step d s with Some d => steps d l | None => None end
  end.

(** The result, declarator.c:987-1011: type, qualifiers, storage class, function specifier,
    alignment (0: none).  [natural] is the alignment of the unqualified type. *)
Definition result : Type := ty * quals * storage * fspec * Z.
Definition analyze_specifiers (natural : ty -> Z) (l : list spec) : option result :=
  match steps start l with
  | None => None
  | Some (mk_dstate (sg, _, b) q c f a) =>
    match apply_signedness sg b with
    | None => None
    | Some t =>
      if 0 <? a then if natural t <=? a then Some (t, q, c, f, a) else None
      else Some (t, q, c, f, 0)
    end
  end.
