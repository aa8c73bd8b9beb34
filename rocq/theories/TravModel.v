(** Model of the traversal of aggregates by initializers:
    source/ast/analyzer/type_traversal.c and the loop over the elements of an initializer
    list in source/ast/initializer_traversal.c.

    Simplified: a layer's iterator is the position of the field in the list (the length of
    the list stands for NULL); a layer's parent is the layer below it on the stack, which is
    what every caller of push_layer passes; scalar types are told apart by a number; memory
    allocation succeeds; the events (layer_begin etc.) are left out; variable-length arrays
    are left out.  The traversal of a list yields the calls of the visitor's functions. *)

From Coq Require Import Bool List String Arith Lia.
Import ListNotations.
Open Scope list_scope.

Inductive ty :=
  | Scalar (n : nat)
  | Struct (fs : list field)
  | Union (fs : list field)
  | Array (len : option nat) (e : ty)          (* None: KEFIR_AST_ARRAY_UNBOUNDED *)
  | Qualified (t : ty)
with field := Field (name : option string) (bitfield : bool) (t : ty).
Definition fname (f : field) : option string := let '(Field n _ _) := f in n.
Definition fbit (f : field) : bool := let '(Field _ b _) := f in b.
Definition ftype (f : field) : ty := let '(Field _ _ t) := f in t.

(** headers/kefir/ast/analyzer/type_traversal.h:31-57: a layer is its object's type, whether
    it has just begun, and the position.  The stack has its top first. *)
Record layer := { lobj : ty; linit : bool; lpos : nat }.
Definition stack := list layer.

(** A NULL dereference is [Crash]; [Fuel] is recursion without end. *)
Inductive res (A : Type) := Done (a : A) | NotFound | Fail | Crash | Fuel.
Arguments Done {A} a. Arguments NotFound {A}. Arguments Fail {A}. Arguments Crash {A}. Arguments Fuel {A}.
Definition bind {A B} (x : res A) (f : A -> res B) : res B :=
  match x with Done a => f a | NotFound => NotFound | Fail => Fail | Crash => Crash | Fuel => Fuel end.

(** type_traversal.c:27-31 is_array_finished. *)
Definition is_array_finished (n : option nat) (i : nat) : bool :=
  match n with Some n => (n <=? i) && (0 <? n) | None => false end.

(** type_traversal.c:44-91 push_layer: nothing is pushed for a structure or union without
    fields; a qualified type is taken for a scalar. *)
Definition push_layer (t : ty) (s : stack) : stack :=
  match t with
  | Struct [] | Union [] => s
  | _ => {| lobj := t; linit := true; lpos := 0 |} :: s
  end.

(** type_traversal.c:130-140 skip_unnamed_bitfields; the argument is the list from the
    iterator on.  The loop reads the next entry without checking that there is one. *)
Definition unnamed (f : field) : bool := match fname f with None => fbit f | Some _ => false end.
Inductive skipped := SNull | SAt (pos : nat) (f : field) | SCrash.
Fixpoint skip_loop (l : list field) (pos : nat) : skipped :=
  match l with
  | [] => SCrash
  | f :: r => if unnamed f then skip_loop r (S pos) else SAt pos f
  end.
Definition skip_unnamed (fs : list field) (pos : nat) : skipped :=
  match skipn pos fs with [] => SNull | l => skip_loop l pos end.

Definition advance (l : layer) : nat := if linit l then lpos l else S (lpos l).
Definition at_ (l : layer) (pos : nat) : layer := {| lobj := lobj l; linit := false; lpos := pos |}.

(** type_traversal.c:142-214 kefir_ast_type_traversal_next: the type, None at the end; the
    layer is the top of the stack. *)
Fixpoint next (s : stack) : res (option ty * stack) :=
  match s with
  | [] => Done (None, [])
  | l :: below =>
    match lobj l with
    | Struct fs =>
      match skip_unnamed fs (advance l) with
      | SNull => next below
      | SAt pos f => Done (Some (ftype f), at_ l pos :: below)
      | SCrash => Crash
      end
    | Union fs =>
      match skip_unnamed fs (lpos l) with
      | SNull => next below
      | SAt pos f => if linit l then Done (Some (ftype f), at_ l pos :: below) else next below
      | SCrash => Crash
      end
    | Array n e => if is_array_finished n (advance l) then next below else Done (Some e, at_ l (advance l) :: below)
    | _ => if linit l then Done (Some (lobj l), at_ l (lpos l) :: below) else next below
    end
  end.

Definition is_aggregate (t : ty) : bool :=
  match t with Struct _ | Union _ | Array _ _ => true | _ => false end.

(** type_traversal.c:223-257 kefir_ast_type_traversal_next_recursive2. *)
Fixpoint next_recursive (fuel : nat) (stop : ty -> bool) (s : stack) : res (option ty * stack) :=
  match fuel with
  | 0 => Fuel
  | S fuel =>
    bind (next s) (fun x => match x with
    | (Some t, s') => if is_aggregate t && negb (stop t) then next_recursive fuel stop (push_layer t s') else Done (Some t, s')
    | (None, s') => Done (None, s')
    end)
  end.

(** type_traversal.c:259-284 kefir_ast_type_traversal_step. *)
Definition step (s : stack) : res stack :=
  match s with
  | [] => Fail
  | l :: _ =>
    match lobj l with
    | Struct fs | Union fs => match nth_error fs (lpos l) with Some f => Done (push_layer (ftype f) s) | None => Crash end
    | Array _ e => Done (push_layer e s)
    | _ => Fail
    end
  end.

(** headers/kefir/ast/type/basic.h:75-76 KEFIR_AST_TYPE_IS_SCALAR_TYPE. *)
Definition is_scalar (t : ty) : bool := match t with Scalar _ => true | _ => false end.

(** type_traversal.c:286-361 navigate_member: the loops over the fields of a structure
    (lines 292-322) and of a union (324-352); [rec] is the recursive call for an unnamed
    field.  A member found inside of an unnamed field leaves the layer as it is. *)
Fixpoint struct_loop (rec : ty -> res stack) (l : layer) (below : stack) (member : string) (push : bool)
    (fs : list field) (i : nat) : res stack :=
  match fs with
  | [] => NotFound
  | f :: r =>
    match fname f with
    | Some n =>
      if String.eqb member n then
        if push then Done (push_layer (ftype f) (at_ l i :: below))
        else match i with
             | 0 => Done ({| lobj := lobj l; linit := true; lpos := 0 |} :: below)
             | S j => Done (at_ l j :: below)
             end
      else struct_loop rec l below member push r (S i)
    | None =>
      if is_scalar (ftype f) then struct_loop rec l below member push r (S i)
      else match rec (ftype f) with
           | NotFound => struct_loop rec l below member push r (S i)
           | x => x
           end
    end
  end.
Fixpoint union_loop (rec : ty -> res stack) (l : layer) (below : stack) (member : string) (push : bool)
    (fs : list field) (i : nat) : res stack :=
  match fs with
  | [] => NotFound
  | f :: r =>
    match fname f with
    | Some n =>
      if String.eqb member n then
        if push then Done (push_layer (ftype f) (at_ l i :: below))
        else Done ({| lobj := lobj l; linit := true; lpos := i |} :: below)
      else union_loop rec l below member push r (S i)
    | None =>
      match rec (ftype f) with
      | NotFound => union_loop rec l below member push r (S i)
      | x => x
      end
    end
  end.
Fixpoint navigate_member (fuel : nat) (s : stack) (member : string) (push : bool) : res stack :=
  match fuel with
  | 0 => Fuel
  | S fuel =>
    match s with
    | [] => Crash
    | l :: below =>
      let rec t := navigate_member fuel (push_layer t s) member push in
      match lobj l with
      | Struct fs => struct_loop rec l below member push fs 0
      | Union fs => union_loop rec l below member push fs 0
      | _ => Fail
      end
    end
  end.

(** type_traversal.c:363-396 navigate_index. *)
Definition navigate_index (s : stack) (i : nat) (push : bool) : res stack :=
  match s with
  | [] => Crash
  | l :: below =>
    match lobj l with
    | Array n e =>
      if match n with Some n => n <=? i | None => false end then Fail
      else if push then Done (push_layer e (at_ l i :: below))
      else match i with
           | 0 => Done ({| lobj := lobj l; linit := true; lpos := 0 |} :: below)
           | S j => Done (at_ l j :: below)
           end
    | _ => Fail
    end
  end.

(** A designator list; as in the code (designator->next) the innermost comes first. *)
Inductive designator := DMember (s : string) | DIndex (i : nat).

(** type_traversal.c:398-413 navigate_impl. *)
Fixpoint navigate_impl (fuel : nat) (s : stack) (d : list designator) (push : bool) : res stack :=
  match d with
  | [] => Done s
  | x :: outer =>
    bind (navigate_impl fuel s outer true) (fun s =>
      match x with
      | DMember m => navigate_member fuel s m push
      | DIndex i => navigate_index s i push
      end)
  end.
(** type_traversal.c:415-425 kefir_ast_type_traversal_navigate. *)
Definition navigate (fuel : nat) (t : ty) (d : list designator) : res stack := navigate_impl fuel (push_layer t []) d false.

(** type_traversal.c:427-456 kefir_ast_type_traversal_empty. *)
Definition layer_empty (l : layer) : bool :=
  match lobj l with
  | Struct fs => (List.length fs <=? lpos l) || (negb (linit l) && (List.length fs <=? S (lpos l)))
  | Union fs => (List.length fs <=? lpos l) || negb (linit l)
  | Array n _ => is_array_finished n (lpos l) || (negb (linit l) && is_array_finished n (S (lpos l)))
  | _ => negb (linit l)
  end.
Definition empty (s : stack) : bool := forallb layer_empty s.

(** type_traversal.c:458-483 kefir_ast_type_traversal_layer_designator; [] is NULL.
    designator.c:26-45 kefir_ast_new_member_designator returns NULL for a field without a
    name, and the designator of the layers below is lost. *)
Fixpoint layer_designator (s : stack) : list designator :=
  match s with
  | [] => []
  | l :: below =>
    match lobj l with
    | Struct fs | Union fs =>
      match nth_error fs (lpos l) with
      | Some f => match fname f with Some n => DMember n :: layer_designator below | None => [] end
      | None => []
      end
    | Array _ _ => DIndex (lpos l) :: layer_designator below
    | _ => []
    end
  end.

(** ** Initializer lists *)

(** The element of a list: its designator, and a nested list, a string literal, an
    expression of scalar type or one of a structure or union type.  The numbers stand for
    the expressions, the predicates for the arrays that the literal initializes and the
    types that the expression can be assigned to. *)
Inductive entry := Entry (d : option (list designator)) (v : value)
with value :=
  | VList (l : list entry)
  | VString (n : nat) (stop : ty -> bool)
  | VScalar (n : nat)
  | VAggregate (n : nat) (fits : ty -> bool).

Fixpoint unqualified (t : ty) : ty := match t with Qualified t => unqualified t | _ => t end.

(** initializer_traversal.c:103-116 layer_designator: the element's own designator, or the
    one of the layer. *)
Definition entry_designator (d : option (list designator)) (s : stack) : res (list designator) :=
  match d with
  | Some d => Done d
  | None => match layer_designator s with [] => Fail | d => Done d end
  end.

(** initializer_traversal.c:158-242 traverse_aggregate_union, 118-156 assign_string: the
    type that the traversal finds for an element.  A NULL type is dereferenced by stop_fn
    and kefir_ast_node_assignable, a NULL layer in the case of a nested list;
    layer_designator of a NULL layer fails.  Lines 213-224: an expression of structure type
    enters at most one aggregate. *)
Definition found (fuel : nat) (v : value) (s : stack) : res (ty * stack) :=
  match v with
  | VList _ => bind (next s) (fun x => match x with (Some u, s') => Done (u, s') | _ => Crash end)
  | VString _ stop => bind (next_recursive fuel stop s) (fun x => match x with (Some u, s') => Done (u, s') | _ => Crash end)
  | VScalar _ => bind (next_recursive fuel (fun _ => false) s) (fun x => match x with (Some u, s') => Done (u, s') | _ => Fail end)
  | VAggregate _ fits =>
    bind (next s) (fun x => match x with
    | (Some u, s') =>
      if fits (unqualified u) then Done (u, s')
      else bind (step s') (fun s' => bind (next s') (fun x => match x with
        | (Some u, s') => if fits (unqualified u) then Done (u, s') else Fail
        | _ => Crash
        end))
    | _ => Crash
    end)
  end.

(** Lines 180-192: a nested list for an unnamed structure or union member. *)
Definition anonymous_list (v : value) (s : stack) : option (list entry) :=
  match v, s with
  | VList l, top :: _ =>
    match lobj top with
    | Struct fs | Union fs =>
      match nth_error fs (lpos top) with
      | Some f => match fname f, unqualified (ftype f) with None, Struct _ | None, Union _ => Some l | _, _ => None end
      | None => None
      end
    | _ => None
    end
  | _, _ => None
  end.

(** The loop over the elements (lines 163-241).  The result is the stack and the calls of the
    visitor: designator, type found by the traversal, value. *)
Fixpoint traverse (fuel : nat) (t : ty) (s : stack) (l : list entry) : res (stack * list (list designator * ty * value)) :=
  match fuel with
  | 0 => Fuel
  | S fuel =>
    match l with
    | [] => Done (s, [])
    | Entry d v :: rest =>
      let go s :=
        bind (found fuel v s) (fun x => let '(u, s') := x in
          match anonymous_list v s' with
          | Some l =>
            bind (step s') (fun s' => bind (traverse fuel t s' l) (fun r =>
              bind (traverse fuel t (fst r) rest) (fun r' => Done (fst r', snd r ++ snd r'))))
          | None =>
            bind (entry_designator d s') (fun d => bind (traverse fuel t s' rest) (fun r => Done (fst r, (d, u, v) :: snd r)))
          end) in
      match d with
      | Some d => bind (navigate fuel t d) go
      | None => if empty s then traverse fuel t s rest else go s
      end
    end
  end.

(** initializer_traversal.c:244-298 traverse_struct_union, traverse_array, for a list. *)
Definition traverse_list (fuel : nat) (t : ty) (l : list entry) : res (list (list designator * ty * value)) :=
  bind (traverse fuel t (push_layer t []) l) (fun r => Done (snd r)).
