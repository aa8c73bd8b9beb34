(** C17 6.7.9p22: "If an array of unknown size is initialized, its size is determined by the largest indexed element
    with an explicit initializer." *)
From Coq Require Import Bool List String Arith.
From Verif Require Import TravModel.
Import ListNotations.
Open Scope list_scope.

(** [n] is the size if the elements with these indices are initialized. *)
Definition sized (indices : list nat) (n : nat) : Prop :=
  (forall i, In i indices -> i < n) /\ (n = 0 \/ exists i, In i indices /\ n = S i).

(** The value initializes one element of type [e] as a whole. *)
Definition whole (e : ty) (v : value) : Prop :=
  match v with
  | VList _ => True
  | VString _ stop => stop e = true \/ is_aggregate e = false
  | VScalar _ => is_aggregate e = false
  | VAggregate _ fits => fits (unqualified e) = true
  end.

(** 6.7.9p17: [indexes cur l il]: the elements of [l] are at the indices [il] if the next one is [cur]. *)
Inductive indexes : nat -> list entry -> list nat -> Prop :=
| ix_nil : forall cur, indexes cur [] []
| ix_next : forall cur v l il, indexes (S cur) l il -> indexes cur (Entry None v :: l) (cur :: il)
| ix_at : forall cur i v l il, indexes (S i) l il -> indexes cur (Entry (Some [DIndex i]) v :: l) (i :: il).

Definition undesignated (l : list entry) : Prop := Forall (fun x => match x with Entry d _ => d = None end) l.

(** A designator of more than one level is the last one. *)
Fixpoint shallow (l : list entry) : Prop :=
  match l with
  | [] => True
  | Entry None _ :: r => shallow r
  | Entry (Some d) _ :: r => (List.length d = 1 /\ shallow r) \/ undesignated r
  end.
