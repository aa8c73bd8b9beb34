(** Which subobjects the elements of an initializer list initialize: C17 6.7.9p17-21. *)

From Coq Require Import Bool List String Arith Lia.
From Verif Require Import TravModel.
Import ListNotations.
Open Scope list_scope.

(** A subobject is given by the positions of the members on the way to it, innermost first,
    and its type. *)
Definition item : Type := list nat * ty.
Definition under (p : list nat) (l : list (nat * ty)) : list item := map (fun x => (fst x :: p, snd x)) l.

(** 6.7.9p9: unnamed members do not take part in initialization; these are the unnamed
    bit-fields (the members of an unnamed structure are members of the enclosing one). *)
Fixpoint takes_part (i : nat) (fs : list field) : list (nat * ty) :=
  match fs with
  | [] => []
  | f :: r => if unnamed f then takes_part (S i) r else (i, ftype f) :: takes_part (S i) r
  end.

(** An aggregate or union, and its members that initializers without a designator
    initialize (6.7.9p17): of a union the first one.  An array of unknown size is taken to
    have [N] elements. *)
Fixpoint aggregate (t : ty) : bool :=
  match t with Scalar _ => false | Qualified t => aggregate t | _ => true end.
Definition bound (N : nat) (n : option nat) : nat := match n with Some n => n | None => N end.
Fixpoint members (N : nat) (t : ty) : list (nat * ty) :=
  match t with
  | Scalar _ => []
  | Struct fs => takes_part 0 fs
  | Union fs => firstn 1 (takes_part 0 fs)
  | Array n e => map (fun i => (i, e)) (seq 0 (bound N n))
  | Qualified t => members N t
  end.

(** 6.7.9p20, braces left out: of the subobjects [w] that remain, the expression initializes
    the first one if [ok], otherwise the first member of it etc.  [n] bounds the number of
    aggregates entered. *)
Inductive finds (N : nat) (ok : ty -> bool) : nat -> list item -> item -> list item -> Prop :=
  | F_here : forall n p t w, ok t = true -> finds N ok n ((p, t) :: w) (p, t) w
  | F_enter : forall n p t w x w', ok t = false -> aggregate t = true ->
      finds N ok n (under p (members N t) ++ w) x w' -> finds N ok (S n) ((p, t) :: w) x w'.

(** All scalar subobjects in the order of their declaration. *)
Inductive flat (N : nat) : list item -> list item -> Prop :=
  | L_nil : flat N [] []
  | L_scalar : forall p t w l, aggregate t = false -> flat N w l -> flat N ((p, t) :: w) ((p, t) :: l)
  | L_enter : forall p t w l, aggregate t = true -> flat N (under p (members N t) ++ w) l -> flat N ((p, t) :: w) l.

(** The subobject at a position, named by a designator (innermost first). *)
Inductive at_path (N : nat) (T : ty) : list nat -> list designator -> ty -> Prop :=
  | At_root : at_path N T [] [] T
  | At_struct : forall p d fs i s b u, at_path N T p d (Struct fs) -> nth_error fs i = Some (Field (Some s) b u) ->
      at_path N T (i :: p) (DMember s :: d) u
  | At_union : forall p d fs i s b u, at_path N T p d (Union fs) -> nth_error fs i = Some (Field (Some s) b u) ->
      at_path N T (i :: p) (DMember s :: d) u
  | At_index : forall p d n e i, at_path N T p d (Array n e) -> i < bound N n ->
      at_path N T (i :: p) (DIndex i :: d) e.

(** 6.7.9p17: "Initialization then continues forward in order, beginning with the next
    subobject after that described by the designator." *)
Inductive rest_after (N : nat) (T : ty) : list nat -> list item -> Prop :=
  | Ra_root : rest_after N T [] []
  | Ra_member : forall i p d u w, at_path N T p d u -> rest_after N T p w ->
      rest_after N T (i :: p) (under p (filter (fun x => i <? fst x) (members N u)) ++ w).

Fixpoint complete (t : ty) : bool := match t with Array None _ => false | Qualified t => complete t | _ => true end.

(** The subobject that one element initializes: a nested list the next one (p20), a string
    literal the next array of its characters (p14-15), an expression the next one that it
    can be assigned to (p13). *)
Inductive places (N n : nat) : list item -> value -> item -> list item -> Prop :=
  | P_list : forall l x w, places N n (x :: w) (VList l) x w
  | P_string : forall k stop w x w' m, finds N (fun t => stop t || negb (aggregate t)) m w x w' -> places N n w (VString k stop) x w'
  | P_scalar : forall k w x w' m, finds N (fun t => negb (aggregate t)) m w x w' -> places N n w (VScalar k) x w'
  | P_aggregate : forall k fits w x w', finds N (fun t => fits (unqualified t)) n w x w' -> places N n w (VAggregate k fits) x w'.

(** The subobjects that the elements of a list for an object of type [T] initialize; [w]
    remain.  An element with a designator goes on from the designated subobject.  Elements
    for which there is nothing left are dropped.  [n]: see [finds]. *)
Inductive initializes (N n : nat) (T : ty) : list item -> list entry -> list (list designator * ty * value) -> Prop :=
  | I_nil : forall w, initializes N n T w [] []
  | I_excess : forall v l o, complete T = true -> initializes N n T [] l o -> initializes N n T [] (Entry None v :: l) o
  | I_entry : forall v w p d t w' l o, places N n w v (p, t) w' -> at_path N T p d t ->
      initializes N n T w' l o -> initializes N n T w (Entry None v :: l) ((d, t, v) :: o)
  | I_designated : forall d v p u w q e t w' l o, d <> [] -> at_path N T p d u -> rest_after N T p w ->
      places N n ((p, u) :: w) v (q, t) w' -> at_path N T q e t -> initializes N n T w' l o ->
      forall w0, initializes N n T w0 (Entry (Some d) v :: l) ((e, t, v) :: o).

(** No element with a designator goes on into the designated subobject. *)
Definition direct (N n : nat) (T : ty) (l : list entry) : Prop := forall d v p u w x w',
  In (Entry (Some d) v) l -> at_path N T p d u -> places N n ((p, u) :: w) v x w' -> fst x = p.

(** ** Types for which this is shown *)

(** Structures do not end in an unnamed bit-field, unions have a member, arrays an element;
    only scalars are qualified.  If not [anon], members other than unnamed bit-fields have a
    name, names are distinct, and unions have no unnamed bit-fields. *)
Inductive tidy (anon : bool) : ty -> Prop :=
  | T_scalar : forall n, tidy anon (Scalar n)
  | T_qualified : forall t, aggregate t = false -> tidy anon (Qualified t)
  | T_struct : forall fs f, unnamed f = false -> tidy_fields anon (fs ++ [f]) -> tidy anon (Struct (fs ++ [f]))
  | T_union : forall fs f, In f fs -> unnamed f = false -> (anon = false -> forall g, In g fs -> unnamed g = false) -> tidy_fields anon fs -> tidy anon (Union fs)
  | T_array : forall n e, tidy anon e -> tidy anon (Array (Some (S n)) e)
with tidy_fields (anon : bool) : list field -> Prop :=
  | T_nil : tidy_fields anon []
  | T_cons : forall f l, tidy anon (ftype f) -> (unnamed f = true -> is_scalar (ftype f) = true) ->
      (anon = false -> unnamed f = false -> exists s, fname f = Some s /\ forall g, In g l -> fname g <> Some s) ->
      tidy_fields anon l -> tidy_fields anon (f :: l).
(** The object itself can be an array of unknown size. *)
Inductive tidy_object (anon : bool) : ty -> Prop :=
  | T_complete : forall t, tidy anon t -> tidy_object anon t
  | T_unknown : forall e, tidy anon e -> tidy_object anon (Array None e).
