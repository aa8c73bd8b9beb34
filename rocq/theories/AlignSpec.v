(** C17 6.7.5: alignment specifiers.  Of the model only the syntax of declarations is used. *)
From Coq Require Import ZArith Bool List.
From Verif Require Import AlignModel.
Import ListNotations.
Open Scope Z_scope.

(** The alignment of a type (6.2.8; pointers by the ABI) *)
Inductive natural : ty -> Z -> Prop :=
| n_base a : natural (Base a) a
| n_pointer t : natural (Pointer t) 8
| n_array t n : natural t n -> natural (Array t) n.

(** p3, p6: what a specifier asks for *)
Inductive asks : alignas -> Z -> Prop :=
| a_type t n : natural t n -> asks (AType t) n
| a_expr z : asks (AExpr z) z.

(** 6.2.8p4: alignments are powers of two; zero has no effect *)
Definition valid (n : Z) : Prop := n = 0 \/ exists k, 0 <= k /\ n = 2 ^ k.

(** p5: the strictest of several, 0 if there are none *)
Definition strictest (l : list alignas) (m : Z) : Prop :=
  (m = 0 \/ exists x, In x l /\ asks x m) /\ 0 <= m /\ forall x n, In x l -> asks x n -> n <= m.

(** p2: not for types, functions, parameters, bit-fields and registers *)
Definition bearing (d : declaration) : Prop :=
  (d_kind d = Object \/ d_kind d = Member) /\ forall t, declared_type d <> Function t.

(** The constraints p2-p4 *)
Definition permitted (d : declaration) : Prop :=
  d_alignas d = [] \/
  bearing d /\ (forall x, In x (d_alignas d) -> exists n, asks x n /\ valid n) /\
  forall m n, strictest (d_alignas d) m -> natural (declared_type d) n -> m = 0 \/ n <= m.

(** The alignment of an object whose type has alignment [n]: the strictest of all its declarations *)
Definition effective (ds : list declaration) (n a : Z) : Prop :=
  exists m, strictest (flat_map d_alignas ds) m /\ a = if m =? 0 then n else m.
