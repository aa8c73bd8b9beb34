(** Model of alignment specifiers: what _Alignas in the declarations of an object does to the
    alignment of the object.  The specifiers are evaluated in source/ast/analyzer/declarator.c,
    restricted where identifiers and members are defined, merged over redeclarations in
    source/ast/context_impl.c and kept in the IR type from which the layout is computed.
    Types are only what their alignment depends on; the analysis of expressions, compatibility of
    types and everything else in declarations is left out, and so are arrays of variable length. *)

From Coq Require Import ZArith Bool List.
Import ListNotations.
Open Scope Z_scope.

(** Types: a scalar, structure, union or enumeration with its alignment ([Base 0] is void, whose
    layout has alignment 0, ast-translator/layout.c:194-201), pointers, arrays and functions *)
Inductive ty := Base (a : Z) | Pointer (t : ty) | Array (t : ty) | Function (t : ty).

(** The operand of _Alignas: a type name or the value of a constant expression (kefir_int64_t) *)
Inductive alignas := AType (t : ty) | AExpr (z : Z).

(** What is declared.  A parameter may have no name. *)
Inductive kind := Object | Register | Typedef | Param (named : bool) | Member | BitField.
Inductive derivation := ToPointer | ToArray | ToFunction.
Record declaration := { d_alignas : list alignas; d_base : ty; d_declarator : list derivation; d_kind : kind }.

Definition derive (t : ty) (d : derivation) : ty :=
  match d with ToPointer => Pointer t | ToArray => Array t | ToFunction => Function t end.
(** kefir_ast_analyze_declaration_declarator, declarator.c:904-935: derivations from the outside *)
Definition declared_type (d : declaration) : ty := fold_left derive (d_declarator d) (d_base d).

(** type_alignment, declarator.c:704-719, by the layout of the type,
    codegen/amd64/system-v/abi/data_layout.c:29-72, 116-221; functions have no layout *)
Fixpoint type_alignment (t : ty) : option Z :=
  match t with
  | Base a => Some a
  | Pointer _ => Some 8
  | Array t => type_alignment t
  | Function _ => None
  end.

(** evaluate_alignment, declarator.c:721-738: the value is converted to kefir_size_t *)
Definition evaluate_alignment (x : alignas) (alignment : Z) : option Z :=
  match x with
  | AType t => match type_alignment t with Some n => Some (Z.max alignment n) | None => None end
  | AExpr z => Some (Z.max alignment (z mod 2 ^ 64))
  end.
Fixpoint evaluate_alignments (l : list alignas) (alignment : Z) : option Z :=
  match l with
  | [] => Some alignment
  | x :: l => match evaluate_alignment x alignment with Some a => evaluate_alignments l a | None => None end
  end.

(** analyze_declaration_specifiers_impl, declarator.c:960, 983-986, 999-1011: the alignment of the
    type that the specifiers denote, before the declarator, is what counts *)
Definition specifier_alignment (d : declaration) : option Z :=
  match evaluate_alignments (d_alignas d) 0 with
  | None => None
  | Some a =>
      if 0 <? a then
        match type_alignment (d_base d) with
        | Some natural => if natural <=? a then Some a else None
        | None => None
        end
      else Some 0
  end.

Definition is_function (t : ty) : bool := match t with Function _ => true | _ => false end.

(** The alignment that the declaration gives to what it declares, 0 for none: identifiers by
    init_declarator.c:57-73 and the contexts (global_context.c:123-128, 175-178;
    local_context.c:175-180, 217-221, 258-261; function_declaration_context.c:254-256, to which
    unnamed parameters do not get), members by declarator.c:73-160 and analyzer/type.c:125-127 *)
Definition declare (d : declaration) : option Z :=
  match specifier_alignment d with
  | None => None
  | Some a =>
      if a =? 0 then Some 0
      else match d_kind d with
           | Object | Register => if is_function (declared_type d) then None else Some a
           | Typedef => None
           | Param true => None
           | Param false => Some a
           | Member => Some a
           | BitField => None
           end
  end.

(** kefir_ast_context_merge_alignment, context_impl.c:215-230; the first declaration makes the
    object with the alignment it is given or the default 0, context_impl.c:78-86, alignment.c:26-34 *)
Definition merge_alignment (original alignment : Z) : Z :=
  if alignment =? 0 then original else if original <? alignment then alignment else original.
Fixpoint declare_all (alignment : Z) (ds : list declaration) : option Z :=
  match ds with
  | [] => Some alignment
  | d :: ds => match declare d with Some a => declare_all (merge_alignment alignment a) ds | None => None end
  end.

(** The entry of the IR type has 8 bits for the alignment, headers/kefir/ir/type.h:58-62; it is set
    by type_translate.c:28-31, 110-136, 279-289 and used unless it is 0, data_layout.c:94-100 *)
Definition entry_alignment (alignment : Z) : Z := alignment mod 2 ^ 8.
Definition laid_out (t : ty) (alignment : Z) : option Z :=
  match type_alignment t with
  | Some natural => Some (if entry_alignment alignment =? 0 then natural else entry_alignment alignment)
  | None => None
  end.

(** The alignment of an object of type [t] with these declarations *)
Definition object_alignment (ds : list declaration) (t : ty) : option Z :=
  match declare_all 0 ds with Some a => laid_out t a | None => None end.
