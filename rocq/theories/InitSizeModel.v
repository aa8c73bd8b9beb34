(** The size of an array of unknown size that is completed by its initializer:
    source/ast/analyzer/initializer.c 113-259 with the events of source/ast/analyzer/type_traversal.c 72-128, 142-257.

    Built on TravModel (types, layers, next, step, navigate).  Left out because they only reject: the analysis of the
    expressions and of nested lists and the check that a scalar is assignable.  The events are modelled for arrays of
    unknown size, whose layer no call of [next] removes; for other arrays the length is not used (initializer.c
    249-256).  Lengths are kept in kefir_size_t: [W] is 2^64, a parameter here.  The index of a layer (TravModel) does not
    wrap when it advances. *)
From Coq Require Import Bool List String Arith ZArith Lia.
From Verif Require Import TravModel.
Import ListNotations.
Open Scope list_scope.
Open Scope nat_scope.

Section Size.
Variable W : nat.

(** initializer.c 192-204 array_layer_next, called at type_traversal.c 210-212: only the layer without a parent (the
    only one on the stack) counts. *)
Definition event (s : stack) (n : nat) : nat := match s with [l] => Nat.max n ((lpos l + 1) mod W) | _ => n end.

(** type_traversal.c 142-214 with the event *)
Definition next_event (s : stack) (n : nat) : res (option ty * stack * nat) :=
  bind (next s) (fun x => Done (fst x, snd x, match fst x with Some _ => event (snd x) n | None => n end)).

(** type_traversal.c 223-257 *)
Fixpoint next_recursive_event (fuel : nat) (stop : ty -> bool) (s : stack) (n : nat) : res (option ty * stack * nat) :=
  match fuel with
  | 0 => Fuel
  | S fuel =>
    bind (next_event s n) (fun x => match x with
    | (Some t, s', n') =>
      if is_aggregate t && negb (stop t) then next_recursive_event fuel stop (push_layer t s') n' else Done (Some t, s', n')
    | (None, s', n') => Done (None, s', n')
    end)
  end.

(** initializer.c 153-161: aggregates are entered until the expression fits. *)
Fixpoint fit (fuel : nat) (fits : ty -> bool) (s : stack) (n : nat) : res (stack * nat) :=
  match fuel with
  | 0 => Fuel
  | S fuel =>
    bind (next_event s n) (fun x => match x with
    | (Some u, s', n') => if fits (unqualified u) then Done (s', n') else bind (step s') (fun s'' => fit fuel fits s'' n')
    | _ => Crash
    end)
  end.

(** initializer.c 136-168: one element of the list *)
Definition place (fuel : nat) (v : value) (s : stack) (n : nat) : res (stack * nat) :=
  match v with
  | VList _ => bind (next_event s n) (fun x => match x with (Some _, s', n') => Done (s', n') | _ => Crash end)
  | VString _ stop =>
    bind (next_recursive_event fuel stop s n) (fun x => match x with (Some _, s', n') => Done (s', n') | _ => Crash end)
  | VScalar _ =>
    bind (next_recursive_event fuel (fun _ => false) s n) (fun x => match x with (Some _, s', n') => Done (s', n') | _ => Crash end)
  | VAggregate _ fits => fit fuel fits s n
  end.

(** The index in the outermost layer: the element of the array that is being initialized *)
Definition root (s : stack) : nat := match rev s with l :: _ => lpos l | [] => 0 end.

(** initializer.c 123-172 traverse_aggregate_union.  The list in the result is not in the code: it records the element
    of the array in which each element of the list was placed. *)
Fixpoint analyze (fuel : nat) (t : ty) (l : list entry) (s : stack) (n : nat) : res (stack * nat * list nat) :=
  match l with
  | [] => Done (s, n, [])
  | Entry d v :: rest =>
    let go s :=
      bind (place fuel v s n) (fun x => let '(s', n') := x in
        bind (analyze fuel t rest s' n') (fun y => let '(s2, n2, il) := y in Done (s2, n2, root s' :: il))) in
    match d with
    | Some d => bind (navigate fuel t d) go       (* type_traversal.c 415-425: the layers are dropped without an event *)
    | None => if empty s then analyze fuel t rest s n else go s
    end
  end.

(** initializer.c 206-219 array_layer_end, when the traversal is freed (type_traversal.c 120-128) *)
Definition end_event (s : stack) (n : nat) : nat :=
  match rev s with l :: _ => Nat.max n ((lpos l + (if linit l then 0 else 1)) mod W) | [] => n end.

(** ast/initializer.c 271-281 kefir_ast_initializer_head *)
Fixpoint head (v : value) : option value :=
  match v with
  | VList [] => None
  | VList (Entry _ v' :: _) => head v'
  | _ => Some v
  end.

(** initializer.c 221-259 analyze_array for an array of unknown size with elements [e]; [len] gives the length of a
    string literal, its terminator included. *)
Definition complete (fuel : nat) (len : nat -> nat) (e : ty) (v : value) : res nat :=
  let list_case :=
    match v with
    | VList l => bind (analyze fuel (Array None e) l (push_layer (Array None e) []) 0)
                   (fun y => let '(s, n, _) := y in Done (end_event s n))
    | _ => Fail
    end in
  match head v with
  | Some (VString k stop) => if stop (Array None e) then Done (len k) else list_case
  | _ => list_case
  end.
End Size.

(** ast/initializer.c 147-172 with kefir_ast_new_index_designator: the value of the constant is converted to
    kefir_size_t; its sign is not checked. *)
Definition index_of (W : nat) (z : Z) : nat := Z.to_nat (z mod Z.of_nat W).
