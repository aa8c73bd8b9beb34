(** What is expected of a vector: it is a list of elements, all of the same size, and a bound on
    their number.  Nothing here mentions how the model represents vectors. *)
From Coq Require Import ZArith Bool List.
Import ListNotations.
Open Scope Z_scope.

Inductive op :=
| Append (x : list Z)             (* add an element *)
| Copy (xs : list (list Z))       (* add the elements of another vector *)
| Extend (n : Z)                  (* add n elements of any content *)
| Get (i : Z)
| Set_ (i : Z) (x : list Z)
| Realloc (n : Z) (al : Z -> option (list Z))
| Length
| Available.

Inductive answer := Done | Refused | Element (x : list Z) | Absent | Number (n : Z).

Definition count {A : Type} (l : list A) : Z := Z.of_nat (length l).
Definition replace {A : Type} (i : nat) (x : A) (l : list A) : list A := firstn i l ++ x :: skipn (S i) l.

Section Spec.
Variable es : Z. (* the size of an element *)

(** One operation on the elements [l] with room for [c] of them *)
Inductive expected : list (list Z) * Z -> op -> answer -> list (list Z) * Z -> Prop :=
| x_append l c x : count l < c -> expected (l, c) (Append x) Done (l ++ [x], c)
| x_append_full l c x : c <= count l -> expected (l, c) (Append x) Refused (l, c)
| x_copy l c xs : count l + count xs <= c -> expected (l, c) (Copy xs) Done (l ++ xs, c)
| x_copy_full l c xs : c < count l + count xs -> expected (l, c) (Copy xs) Refused (l, c)
| x_extend l c n u : count u = n -> Forall (fun x => count x = es) u -> count l + n <= c -> expected (l, c) (Extend n) Done (l ++ u, c)
| x_extend_full l c n : c < count l + n -> expected (l, c) (Extend n) Refused (l, c)
| x_get l c i x : 0 <= i -> nth_error l (Z.to_nat i) = Some x -> expected (l, c) (Get i) (Element x) (l, c)
| x_get_absent l c i : count l <= i -> expected (l, c) (Get i) Absent (l, c)
| x_set l c i x : 0 <= i < count l -> expected (l, c) (Set_ i x) Done (replace (Z.to_nat i) x l, c)
| x_set_absent l c i x : count l <= i -> expected (l, c) (Set_ i x) Absent (l, c)
| x_realloc l c n al : count l <= n -> al (es * n) <> None -> expected (l, c) (Realloc n al) Done (l, n)
| x_realloc_refused l c n al : n < count l \/ al (es * n) = None -> expected (l, c) (Realloc n al) Refused (l, c)
| x_length l c : expected (l, c) Length (Number (count l)) (l, c)
| x_available l c : expected (l, c) Available (Number (c - count l)) (l, c).

Definition allocates (al : Z -> option (list Z)) : Prop := forall n b, 0 <= n -> al n = Some b -> count b = n.

(** What a caller may do: elements have the size of elements; indices, counts and sizes are
    words; allocators answer as much as is asked for *)
Definition sensible (s : list (list Z) * Z) (o : op) : Prop :=
  match o with
  | Append x => count x = es
  | Copy xs => Forall (fun x => count x = es) xs /\ es * count xs < 2 ^ 64
  | Extend n => 0 <= n /\ count (fst s) + n < 2 ^ 64
  | Get i => 0 <= i
  | Set_ i x => 0 <= i /\ count x = es
  | Realloc n al => 0 < n /\ es * n < 2 ^ 64 /\ allocates al
  | Length | Available => True
  end.

(** What the code gets wrong: see the refutations *)
Definition supported (s : list (list Z) * Z) (o : op) : Prop :=
  match o with
  | Copy xs => fst s = []
  | Realloc n al => (fst s = [] -> snd s = 0) /\ (count (fst s) <= n -> al (es * n) <> None)
  | _ => True
  end.

(** Every operation of a sequence is sensible and supported when it is reached *)
Fixpoint may (s : list (list Z) * Z) (os : list op) : Prop :=
  match os with
  | [] => True
  | o :: os => sensible s o /\ supported s o /\ forall a s', expected s o a s' -> may s' os
  end.

Inductive expected_run : list (list Z) * Z -> list op -> list answer -> list (list Z) * Z -> Prop :=
| r_nil s : expected_run s [] [] s
| r_cons s o a s1 os rs s2 : expected s o a s1 -> expected_run s1 os rs s2 -> expected_run s (o :: os) (a :: rs) s2.
End Spec.
