(** Composite types. *)
(* Modelled: headers/kefir/ast/type.h 107-108 (KEFIR_AST_TYPE_COMPOSITE calls the operation of the first type) and
   the "composite" operation of every kind of type: source/ast/type/basic.c 44-59, enum.c 111-122, pointer.c 40-53,
   array.c 68-130, qualified.c 57-106, function.c 177-219, struct.c 84-132 and 210-279.

   Simplified: as in CompatModel; in particular the length expression of a variable length array is only present or
   absent. An access to a member of the type that does not belong to its tag is the outcome [Wrong]. *)
From Coq Require Import ZArith List Bool String Lia.
From Verif Require Import CompatModel.
Import ListNotations.
Open Scope Z_scope.

(** Result: a type, NULL, undefined behaviour; [Exhausted] stands for lack of fuel. *)
Inductive cres (A : Type) := Comp (t : A) | Null | Wrong | Exhausted.
Arguments Comp {A}. Arguments Null {A}. Arguments Wrong {A}. Arguments Exhausted {A}.
Definition bindc {A B} (a : cres A) (f : A -> cres B) : cres B :=
  match a with Comp t => f t | Null => Null | Wrong => Wrong | Exhausted => Exhausted end.

(** kefir_ast_type_qualified, qualified.c 75-106 *)
Definition qualify (q : qual) (t : ty) : ty :=
  match t with
  | TQual q' a => TQual (Q (q_const q || q_const q') (q_restrict q || q_restrict q') (q_volatile q || q_volatile q')) a
  | _ => TQual q t
  end.

(** array.c 76-129 *)
Definition bound_composite (b1 b2 : bound) : bound :=
  match b1, b2 with
  | (BoundedStatic n | Bounded n), _ => Bounded n
  | _, (BoundedStatic n | Bounded n) => Bounded n
  | (VlaStatic l | Vla l), _ => Vla l
  | _, (VlaStatic l | Vla l) => Vla l
  | _, _ => Unbounded
  end.

(** function.c 194-207: the loop over the parameters of the first type *)
Section Params.
Variable comp : ty -> ty -> cres ty.
Fixpoint comp_params (ps1 ps2 : list param) {struct ps1} : cres (list param) :=
  match ps1 with
  | [] => Comp []
  | p1 :: r1 =>
    match ps2 with
    | [] => Null
    | p2 :: r2 =>
      match p_type p1, p_type p2 with
      | Some x1, Some x2 =>
        bindc (comp (unqualified (adjusted x1)) (unqualified (adjusted x2))) (fun c =>
        bindc (comp_params r1 r2) (fun r => Comp (Param (Some c) None :: r)))
      | _, _ => Wrong
      end
    end
  end.

(** struct.c 107-126 *)
Fixpoint comp_fields (fs1 fs2 : list field) {struct fs1} : cres (list field) :=
  match fs1, fs2 with
  | f1 :: r1, f2 :: r2 =>
    bindc (comp (f_type f1) (f_type f2)) (fun c =>
    bindc (comp_fields r1 r2) (fun r => Comp (Field (f_name f1) c (f_align f1) (f_width f1) :: r)))
  | _, _ => Comp []
  end.

(** struct.c 237-247: the first unnamed member that matches *)
Fixpoint unnamed_match (f1 : field) (fs2 : list field) : cres field :=
  match fs2 with
  | [] => Null
  | f2 :: r =>
    match f_name f2 with
    | Some _ => unnamed_match f1 r
    | None =>
      match andr (widths (f_width f1) (f_width f2)) (compatible (f_type f1) (f_type f2)) with
      | Yes => Comp f2
      | No => unnamed_match f1 r
      | Ub => Wrong
      | NoFuel => Exhausted
      end
    end
  end.

(** struct.c 228-272; the lookup of a named member is in the index of the first type *)
Fixpoint comp_members (all fs1 fs2 : list field) {struct fs1} : cres (list field) :=
  match fs1 with
  | [] => Comp []
  | f1 :: r1 =>
    bindc (match f_name f1 with
           | Some n => match field_at all n with Some f => Comp f | None => Null end
           | None => unnamed_match f1 fs2
           end) (fun f2 =>
    bindc (comp (f_type f1) (f_type f2)) (fun c =>
    bindc (comp_members all r1 fs2) (fun r => Comp (Field (f_name f1) c (f_align f1) (f_width f1) :: r))))
  end.
End Params.

(** One call of the composite operation of the first type *)
Definition comp_step (comp : ty -> ty -> cres ty) (t1 t2 : ty) : cres ty :=
  match compatible t1 t2 with
  | No => Null
  | Ub => Wrong
  | NoFuel => Exhausted
  | Yes =>
    match t1, t2 with
    | TBasic _, TEnum _ _ _ _ => Comp t2                                           (* basic.c 54-58 *)
    | TBasic _, _ => Comp t1
    | TEnum _ _ _ _, _ => Comp t1                                                  (* enum.c 111-122 *)
    | TPtr a, TPtr b => bindc (comp a b) (fun c => Comp (TPtr c))                  (* pointer.c 40-53 *)
    | TPtr _, _ => Wrong
    | TArr b1 _ e1, TArr b2 _ e2 =>                                                (* array.c 68-130 *)
      bindc (comp e1 e2) (fun c => Comp (TArr (bound_composite b1 b2) (Q false false false) c))
    | TArr _ _ _, _ => Wrong
    | TQual q a, _ =>                                                              (* qualified.c 57-73 *)
      bindc (comp a (unqualified t2)) (fun c => Comp (if zero_qual q then c else qualify q c))
    | TFun r1 m1 ps1 e1, TFun r2 m2 ps2 e2 =>                                      (* function.c 177-219 *)
      match m1, m2 with
      | ModeParameters, ModeParameters =>
        bindc (comp r1 r2) (fun r =>
        bindc (comp_params comp ps1 ps2) (fun ps =>
          Comp (TFun r (match ps with [] => ModeEmpty | _ => ModeParameters end) ps e1)))
      | ModeParameters, _ => Comp t1
      | _, ModeParameters => Comp t2
      | ModeIdentifiers, _ => Comp t1
      | _, _ => Comp t2
      end
    | TFun _ _ _ _, _ => Wrong
    | TStruct c1 i1 fs1, TStruct c2 _ fs2 =>                                       (* struct.c 84-132 *)
      if c1 && c2 then bindc (comp_fields comp fs1 fs2) (fun fs => Comp (TStruct true i1 fs))
      else Comp (TStruct false i1 [])
    | TStruct _ _ _, _ => Wrong
    | TUnion c1 i1 fs1, TUnion c2 _ fs2 =>                                         (* struct.c 210-279 *)
      if c1 && c2 then bindc (comp_members comp fs1 fs1 fs2) (fun fs => Comp (TUnion true i1 fs))
      else Comp (TUnion false i1 [])
    | TUnion _ _ _, _ => Wrong
    end
  end.

Fixpoint comp (fuel : nat) : ty -> ty -> cres ty :=
  match fuel with
  | O => fun _ _ => Exhausted
  | S n => comp_step (comp n)
  end.

(** KEFIR_AST_TYPE_COMPOSITE; the first type becomes smaller with each call *)
Definition composite (t1 t2 : ty) : cres ty := comp (S (size t1)) t1 t2.
