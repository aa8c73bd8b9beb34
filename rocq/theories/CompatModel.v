(** Type compatibility. *)
(* Modelled: headers/kefir/ast/type.h 103-106 (KEFIR_AST_TYPE_SAME, KEFIR_AST_TYPE_COMPATIBLE) and the
   "same" and "compatible" operations of every kind of type:
   source/ast/type/basic.c 25-43, pointer.c 25-39, array.c 26-66, qualified.c 32-56 and 108-127,
   function.c 98-178, enum.c 39-104, struct.c 26-79 and 130-212;
   source/ast/type_conv.c 125-134 (default argument promotion) and 202-230 (adjusted parameter types).

   Simplified: a bit-width is present exactly if the field is a bit-field and is an integer, an
   enumerator has an integer value or none; the hash table of the members of a union (field_index) is
   the list of its named members, visited in declaration order. A comparison of a NULL string with
   strcmp or an access through a NULL pointer is the outcome [Ub]. Types are trees: a reference to a tag
   whose definition is not finished makes a new incomplete type (source/ast/analyzer/declarator.c 188-213),
   so no type refers to itself. *)
From Coq Require Import ZArith List Bool String Lia.
Import ListNotations.
Open Scope Z_scope.

(** headers/kefir/ast/type/base.h 30-55, the types handled by basic.c *)
Inductive basic :=
| BVoid | BBool | BChar | BUChar | BSChar | BUShort | BSShort | BUInt | BSInt | BULong | BSLong
| BULLong | BSLLong | BFloat | BDouble | BLDouble | BVaList.
Definition basic_eq_dec : forall a b : basic, {a = b} + {a <> b}.
Proof. decide equality. Defined.
Definition basic_eqb (a b : basic) : bool := if basic_eq_dec a b then true else false.

(** struct kefir_ast_type_qualification *)
Record qual := Q { q_const : bool; q_restrict : bool; q_volatile : bool }.
Definition qual_eqb (a b : qual) : bool :=
  Bool.eqb (q_const a) (q_const b) && Bool.eqb (q_restrict a) (q_restrict b) && Bool.eqb (q_volatile a) (q_volatile b).
(** KEFIR_AST_TYPE_IS_ZERO_QUALIFICATION *)
Definition zero_qual (q : qual) : bool := negb (q_const q) && negb (q_restrict q) && negb (q_volatile q).

(** kefir_ast_array_type_boundary; [len] says whether vla_length is non-NULL *)
Inductive bound := Unbounded | Bounded (n : Z) | BoundedStatic (n : Z) | Vla (len : bool) | VlaStatic (len : bool).

(** kefir_ast_function_type_mode *)
Inductive fmode := ModeParameters | ModeIdentifiers | ModeEmpty.
Definition fmode_eqb (a b : fmode) : bool :=
  match a, b with
  | ModeParameters, ModeParameters | ModeIdentifiers, ModeIdentifiers | ModeEmpty, ModeEmpty => true
  | _, _ => false
  end.

(** struct kefir_ast_type *)
Inductive ty :=
| TBasic (b : basic)
| TPtr (t : ty)
| TArr (b : bound) (q : qual) (t : ty)
| TQual (q : qual) (t : ty)
| TFun (ret : ty) (m : fmode) (ps : list param) (ellipsis : bool)
| TEnum (complete : bool) (id : option string) (es : list (string * option Z)) (under : basic)
| TStruct (complete : bool) (id : option string) (fs : list field)
| TUnion (complete : bool) (id : option string) (fs : list field)
with param := Param (t : option ty) (storage : option Z)
with field := Field (name : option string) (t : ty) (align : Z) (width : option Z).

Definition f_name (f : field) := let (n, _, _, _) := f in n.
Definition f_type (f : field) := let (_, t, _, _) := f in t.
Definition f_align (f : field) := let (_, _, a, _) := f in a.
Definition f_width (f : field) := let (_, _, _, w) := f in w.
Definition p_type (p : param) := let (t, _) := p in t.
Definition p_storage (p : param) := let (_, s) := p in s.

(** Outcome of a comparison *)
Inductive res := Yes | No | Ub | NoFuel.
Definition of_bool (b : bool) : res := if b then Yes else No.
Definition andr (a b : res) : res := match a with Yes => b | _ => a end.
Definition orr (a b : res) : res := match a with No => b | _ => a end.

(** strcmp on possibly NULL arguments, after the check of enum.c 44-46 and 80-82 *)
Definition enum_ids (a b : option string) : res :=
  match a, b with
  | None, None => Yes
  | Some x, Some y => of_bool (String.eqb x y)
  | _, _ => Ub
  end.

(** struct.c 26-32 *)
Definition strings_same (a b : option string) : bool :=
  match a, b with
  | None, None => true
  | Some x, Some y => String.eqb x y
  | _, _ => false
  end.

(** (!field1->bitfield && !field2->bitfield) || field1->bitwidth->... == field2->bitwidth->... *)
Definition widths (a b : option Z) : res :=
  match a, b with
  | None, None => Yes
  | Some x, Some y => of_bool (x =? y)
  | _, _ => Ub
  end.

(** Loop over two lists of the same length: the first check that does not succeed is the result. *)
Section Both.
Context {A : Type} (f : A -> A -> res).
Fixpoint both (l1 l2 : list A) {struct l1} : res :=
  match l1, l2 with
  | a :: r1, b :: r2 => andr (f a b) (both r1 r2)
  | _, _ => Yes
  end.
End Both.

(** Loop over one list *)
Section Each.
Context {A : Type} (f : A -> res).
Fixpoint each (l : list A) : res := match l with [] => Yes | a :: r => andr (f a) (each r) end.
End Each.

(** enum.c 53-68 *)
Definition enumerator_same (a b : string * option Z) : res :=
  andr (of_bool (String.eqb (fst a) (fst b)))
    match snd a, snd b with
    | Some x, Some y => of_bool (x =? y)
    | None, None => Yes
    | _, _ => No
    end.

Definition same_length {A} (l1 l2 : list A) : res := of_bool (Nat.eqb (List.length l1) (List.length l2)).

(** array.c 26-50 *)
Definition bound_same (a b : bound) : res :=
  match a, b with
  | Unbounded, Unbounded => Yes
  | Bounded x, Bounded y | BoundedStatic x, BoundedStatic y => of_bool (x =? y)
  | Vla x, Vla y | VlaStatic x, VlaStatic y => of_bool (Bool.eqb x y)
  | _, _ => No
  end.

Definition storage_same (a b : option Z) : bool :=
  match a, b with None, None => true | Some x, Some y => x =? y | _, _ => false end.

(** hashtree lookup in field_index *)
Fixpoint field_at (fs : list field) (n : string) : option field :=
  match fs with
  | [] => None
  | f :: r => match f_name f with
              | Some x => if String.eqb x n then Some f else field_at r n
              | None => field_at r n
              end
  end.

Definition named (fs : list field) : list string :=
  flat_map (fun f => match f_name f with Some n => [n] | None => [] end) fs.

(** KEFIR_AST_TYPE_SAME *)
Fixpoint same (t1 t2 : ty) {struct t1} : res :=
  match t1, t2 with
  | TBasic a, TBasic b => of_bool (basic_eqb a b)                                   (* basic.c 25-29 *)
  | TPtr a, TPtr b => same a b                                                      (* pointer.c 25-30 *)
  | TArr b1 _ e1, TArr b2 _ e2 => andr (bound_same b1 b2) (same e1 e2)              (* array.c 26-50 *)
  | TQual q1 a, TQual q2 b => andr (of_bool (qual_eqb q1 q2)) (same a b)            (* qualified.c 32-40 *)
  | TFun r1 m1 ps1 e1, TFun r2 m2 ps2 e2 =>                                         (* function.c 98-124 *)
    andr (same r1 r2) (andr (of_bool (fmode_eqb m1 m2)) (andr (same_length ps1 ps2) (andr
      (both (fun p1 p2 =>
               andr (match p1, p2 with
                     | Param None _, Param None _ => Yes
                     | Param (Some x1) _, Param (Some x2) _ => same x1 x2
                     | _, _ => No
                     end)
                    (of_bool (storage_same (p_storage p1) (p_storage p2)))) ps1 ps2)
      (of_bool (Bool.eqb e1 e2)))))
  | TEnum c1 i1 es1 _, TEnum c2 i2 es2 _ =>                                         (* enum.c 39-70 *)
    andr (of_bool (Bool.eqb c1 c2)) (andr (enum_ids i1 i2)
      (if c1 then andr (same_length es1 es2) (both enumerator_same es1 es2) else Yes))
  | TStruct c1 i1 fs1, TStruct c2 i2 fs2 =>                                         (* struct.c 34-56 *)
    andr (of_bool (Bool.eqb c1 c2)) (andr (of_bool (strings_same i1 i2))
      (if c1 then andr (same_length fs1 fs2)
        (both (fun f1 f2 =>
                 match f1 with Field n1 x1 a1 w1 =>
                   andr (of_bool (strings_same n1 (f_name f2))) (andr (of_bool (a1 =? f_align f2))
                  (andr (widths w1 (f_width f2)) (same x1 (f_type f2))))
                 end) fs1 fs2)
       else Yes))
  | TUnion c1 i1 fs1, TUnion c2 i2 fs2 =>                                           (* struct.c 130-159 *)
    andr (of_bool (Bool.eqb c1 c2)) (andr (of_bool (strings_same i1 i2))
      (if c1 then andr
        (each (fun f1 =>
                 match f1 with
                 | Field None _ _ _ => Yes
                 | Field (Some n) x1 _ w1 =>
                   match field_at fs2 n with
                   | None => No
                   | Some f2 => andr (widths w1 (f_width f2)) (same x1 (f_type f2))
                   end
                 end) fs1)
        (of_bool (Nat.eqb (List.length (named fs1)) (List.length (named fs2))))
       else Yes))
  | _, _ => No
  end.

(** kefir_ast_unqualified_type, qualified.c 108-117 *)
Definition unqualified (t : ty) : ty := match t with TQual _ a => a | _ => t end.
(** kefir_ast_zero_unqualified_type, qualified.c 119-127 *)
Definition zero_unqualified (t : ty) : ty :=
  match t with TQual q a => if zero_qual q then a else t | _ => t end.

(** kefir_ast_type_conv_adjust_function_parameter, type_conv.c 202-230 *)
Definition adjusted (t : ty) : ty :=
  match t with
  | TFun _ _ _ _ => TPtr t
  | TArr _ q e => if zero_qual q then TPtr e else TQual q (TPtr e)
  | TBasic BVaList => TPtr t
  | _ => t
  end.

(** kefir_ast_type_function_default_argument_promotion, type_conv.c 125-134 *)
Definition promoted (t : ty) : ty :=
  match t with
  | TBasic (BBool | BChar | BUChar | BSChar | BUShort | BSShort) => TBasic BSInt
  | TBasic BFloat => TBasic BDouble
  | _ => t
  end.

(** array.c 58-64 *)
Definition bound_compatible (a b : bound) : res :=
  match a, b with
  | (Bounded x | BoundedStatic x), (Bounded y | BoundedStatic y) => of_bool (x =? y)
  | _, _ => Yes
  end.

(** struct.c 189-202: some unnamed member of the other union matches *)
Fixpoint some_match (f : field -> res) (l : list field) : res :=
  match l with
  | [] => No
  | x :: r => match f_name x with Some _ => some_match f r | None => orr (f x) (some_match f r) end
  end.

(** KEFIR_AST_TYPE_COMPATIBLE and, inside, the compatible operations *)
Definition compat_step (compat : ty -> ty -> res) (t1 t : ty) : res :=
    let t2 := zero_unqualified t in
    orr (same t1 t2)
    match t1, t2 with
    | TBasic a, TEnum _ _ _ u => of_bool (basic_eqb a u)                            (* basic.c 31-43 *)
    | TBasic a, TBasic b => of_bool (basic_eqb a b)
    | TPtr a, TPtr b => compat a b                                                (* pointer.c 32-38 *)
    | TArr b1 _ e1, TArr b2 _ e2 => andr (compat e1 e2) (bound_compatible b1 b2)  (* array.c 52-66 *)
    | TQual q1 a, TQual q2 b => andr (of_bool (qual_eqb q1 q2)) (compat a b)      (* qualified.c 42-56 *)
    | TQual q1 a, _ => andr (of_bool (zero_qual q1)) (compat a t2)
    | TFun r1 m1 ps1 e1, TFun r2 m2 ps2 e2 =>                                       (* function.c 139-178 *)
      let param_pair p1 p2 :=
        match p_type p1, p_type p2 with
        | Some x1, Some x2 => compat (unqualified (adjusted x1)) (unqualified (adjusted x2))
        | _, _ => Ub
        end in
      let unaffected ps :=                                                          (* function.c 126-137 *)
        each (fun p => match p_type p with
                       | Some x => let u := unqualified (adjusted x) in compat u (promoted u)
                       | None => Ub
                       end) ps in
      andr (compat (unqualified r1) (unqualified r2))
        match m1, m2 with
        | ModeParameters, ModeParameters =>
          andr (same_length ps1 ps2) (andr (of_bool (Bool.eqb e1 e2)) (both param_pair ps1 ps2))
        | ModeParameters, _ => andr (of_bool (negb e1)) (unaffected ps1)
        | _, ModeParameters => andr (of_bool (negb e1)) (unaffected ps2)
        | _, _ => Yes
        end
    | TEnum c1 i1 es1 u1, TEnum c2 i2 es2 u2 =>                                     (* enum.c 72-104 *)
      andr (enum_ids i1 i2)
        (if c1 && c2 then andr (same_length es1 es2) (both enumerator_same es1 es2) else Yes)
    | TEnum _ _ _ u1, TBasic b => of_bool (basic_eqb u1 b)
    | TStruct c1 i1 fs1, TStruct c2 i2 fs2 =>                                       (* struct.c 58-79 *)
      andr (of_bool (strings_same i1 i2))
        (if c1 && c2 then andr (same_length fs1 fs2)
          (both (fun f1 f2 =>
                   andr (of_bool (strings_same (f_name f1) (f_name f2)))
                  (andr (of_bool (f_align f1 =? f_align f2))
                  (andr (widths (f_width f1) (f_width f2)) (compat (f_type f1) (f_type f2))))) fs1 fs2)
         else Yes)
    | TUnion c1 i1 fs1, TUnion c2 i2 fs2 =>                                         (* struct.c 161-212 *)
      let member f1 f2 := andr (widths (f_width f1) (f_width f2)) (compat (f_type f1) (f_type f2)) in
      andr (of_bool (strings_same i1 i2))
        (if c1 && c2 then andr
          (each (fun f1 =>
                   match f_name f1 with
                   | Some x =>
                     (* the lookup of struct.c 174-175 is in the index of type1 *)
                     match field_at fs1 x with None => No | Some f2 => member f1 f2 end
                   | None => some_match (member f1) fs2
                   end) fs1)
          (same_length fs1 fs2)
         else Yes)
    | _, _ => No
    end.

Fixpoint compat (fuel : nat) : ty -> ty -> res :=
  match fuel with
  | O => fun _ _ => NoFuel
  | S n => compat_step (compat n)
  end.

(** Sizes, for the fuel *)
Fixpoint size (t : ty) : nat :=
  match t with
  | TBasic _ | TEnum _ _ _ _ => 1
  | TPtr a => S (size a)
  | TArr _ _ a => S (S (size a))
  | TQual _ a => S (size a)
  | TFun r _ ps _ => S (size r + list_sum (map (fun p => match p with Param (Some a) _ => S (S (size a)) | _ => 1 end) ps))
  | TStruct _ _ fs | TUnion _ _ fs => S (list_sum (map (fun f => match f with Field _ a _ _ => S (size a) end) fs))
  end%nat.

Definition compatible (t1 t2 : ty) : res := compat (S (size t1 + size t2)) t1 t2.
