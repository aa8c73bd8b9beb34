(** Lists of values with names for the positions: what programs may rely on.  A position is a
    number other than 0; no pointers between positions here. *)

From Coq Require Import ZArith Bool List.
From Verif Require Import ListModel.
Import ListNotations.
Open Scope Z_scope.
Local Notation length := List.length.

Definition items := list (Z * Z).

Fixpoint insert_at (iter : Z) (x : Z * Z) (l : items) : items :=
  match l with
  | [] => []
  | y :: l => if fst y =? iter then y :: x :: l else y :: insert_at iter x l
  end.
Definition insert (iter : Z) (x : Z * Z) (l : items) : items := if iter =? 0 then x :: l else insert_at iter x l.
Definition remove (iter : Z) (l : items) : items := filter (fun y => negb (fst y =? iter)) l.
Fixpoint value_at (iter : Z) (l : items) : Z :=
  match l with [] => 0 | y :: l => if fst y =? iter then snd y else value_at iter l end.
Definition first (l : items) : Z := match l with [] => 0 | y :: _ => fst y end.
Fixpoint following (iter : Z) (l : items) : Z :=
  match l with [] => 0 | y :: l => if fst y =? iter then first l else following iter l end.
Definition final (l : items) : Z * Z := last l (0, 0).

(** The lists of a program, the callbacks, and the calls of callbacks so far *)
Record world := { w_items : nat -> option items; w_callback : nat -> option (Z -> bool); w_called : list (nat * Z) }.

Definition agrees (f : option (Z -> bool)) (v : Z) : bool := match f with Some f => f v | None => true end.
Definition notes (f : option (Z -> bool)) (v : Z) : list Z := match f with Some _ => [v] | None => [] end.
(** Entries are removed from the front until the callback refuses one *)
Fixpoint cleared (f : option (Z -> bool)) (l : items) : bool * items * list Z :=
  match l with
  | [] => (true, [], [])
  | y :: l' =>
    if agrees f (snd y) then let '(ok, r, c) := cleared f l' in (ok, r, notes f (snd y) ++ c)
    else (false, l, notes f (snd y))
  end.

Definition set_items (i : nat) (l : option items) (called : list Z) (w : world) : world :=
  {| w_items := fun k => if (k =? i)%nat then l else w_items w k; w_callback := w_callback w;
     w_called := w_called w ++ map (pair i) called |}.
Definition set_callback (i : nat) (f : option (Z -> bool)) (w : world) : world :=
  {| w_items := w_items w; w_callback := fun k => if (k =? i)%nat then f else w_callback w k; w_called := w_called w |}.
Definition list_of (i : nat) (w : world) : items := match w_items w i with Some l => l | None => [] end.

(** [p] is a position of list [i] *)
Definition in_list (p : Z) (i : nat) (w : world) : Prop := exists l, w_items w i = Some l /\ In p (map fst l).
Definition live (i : nat) (w : world) : Prop := w_items w i <> None.

Section Foreign.
(** What else lives in the heap *)
Variable foreign : heap.
(** malloc answers NULL or a place where nothing lives *)
Definition vacant (a : Z) (w : world) : Prop := a = 0 \/ (foreign a = None /\ forall i, ~ in_list a i w).

(** When a program may call what *)
Definition allowed (o : op) (w : world) : Prop :=
  match o with
  | OInit i => ~ live i w
  | OOnRemove i _ | OClear i | OLength i | OHead i | OTail i | OAt i _ | OStackPop i | OPeek i => live i w
  | OInsert i iter _ a => live i w /\ (iter = 0 \/ in_list iter i w) /\ vacant a w
  | OPush i _ a => live i w /\ vacant a w
  | OPop i iter => in_list iter i w
  | OFree i => live i w /\ forallb (fun y => agrees (w_callback w i) (snd y)) (list_of i w) = true
  | ONext e => e = 0 \/ exists i, in_list e i w
  | OMove i j => live i w /\ live j w
  end.
End Foreign.

(** What it answers and does *)
Inductive does : op -> world -> answer -> world -> Prop :=
  | does_init : forall i w, does (OInit i) w AOk (set_callback i None (set_items i (Some []) [] w))
  | does_on_remove : forall i f w, does (OOnRemove i f) w AOk (set_callback i f w)
  | does_insert : forall i iter v a w, a <> 0 -> does (OInsert i iter v a) w AOk (set_items i (Some (insert iter (a, v) (list_of i w))) [] w)
  | does_insert_fails : forall i iter v w, does (OInsert i iter v 0) w AError w
  | does_push : forall i v a w, a <> 0 -> does (OPush i v a) w AOk (set_items i (Some (list_of i w ++ [(a, v)])) [] w)
  | does_push_fails : forall i v w, does (OPush i v 0) w AError w
  | does_pop : forall i iter w, let v := value_at iter (list_of i w) in agrees (w_callback w i) v = true ->
      does (OPop i iter) w AOk (set_items i (Some (remove iter (list_of i w))) (notes (w_callback w i) v) w)
  | does_pop_refused : forall i iter w, let v := value_at iter (list_of i w) in agrees (w_callback w i) v = false ->
      does (OPop i iter) w AError (set_items i (w_items w i) (notes (w_callback w i) v) w)
  | does_clear : forall i w ok l c, cleared (w_callback w i) (list_of i w) = (ok, l, c) ->
      does (OClear i) w (result ok) (set_items i (Some l) c w)
  | does_free : forall i w ok l c, cleared (w_callback w i) (list_of i w) = (ok, l, c) ->
      does (OFree i) w AOk (set_items i None c w)
  | does_length : forall i w, does (OLength i) w (ANumber (Z.of_nat (length (list_of i w)))) w
  | does_head : forall i w, does (OHead i) w (APointer (first (list_of i w))) w
  | does_tail : forall i w, does (OTail i) w (APointer (fst (final (list_of i w)))) w
  | does_at : forall i k w, does (OAt i k) w (APointer (nth k (map fst (list_of i w)) 0)) w
  | does_next_end : forall w, does (ONext 0) w (AStep 0 0) w
  | does_next : forall e i w, in_list e i w -> does (ONext e) w (AStep (value_at e (list_of i w)) (following e (list_of i w))) w
  | does_move : forall i j w, i <> j -> does (OMove i j) w AOk (set_items i (Some (list_of i w ++ list_of j w)) [] (set_items j (Some []) [] w))
  | does_move_self : forall i w, does (OMove i i) w AOk w
  | does_stack_pop_empty : forall i w, list_of i w = [] -> does (OStackPop i) w (AValue 0) w
  | does_stack_pop : forall i w l p v, list_of i w = l ++ [(p, v)] -> agrees (w_callback w i) v = true ->
      does (OStackPop i) w (AValue v) (set_items i (Some l) (notes (w_callback w i) v) w)
  | does_stack_pop_refused : forall i w l p v, list_of i w = l ++ [(p, v)] -> agrees (w_callback w i) v = false ->
      does (OStackPop i) w AError (set_items i (w_items w i) (notes (w_callback w i) v) w)
  | does_peek : forall i w, does (OPeek i) w (AValue (snd (final (list_of i w)))) w.

(** A program all of whose calls are allowed, with the answers it gets *)
Inductive behaves (foreign : heap) : list op -> world -> list answer -> world -> Prop :=
  | behaves_end : forall w, behaves foreign [] w [] w
  | behaves_step : forall o os w r w' rs w'', allowed foreign o w -> does o w r w' -> behaves foreign os w' rs w'' ->
      behaves foreign (o :: os) w (r :: rs) w''.
