(** Specification of the classification of aggregates: System V ABI, AMD64
    supplement, section 3.2.3 "Parameter Passing", in terms of the sizes and offsets of
    PropLayout.v (figure 3.1 and "Aggregates and Unions" of the same document). *)

From Coq Require Import ZArith Lia Bool List.
From Verif Require Import IrType LayoutModel PropLayout ClassModel.
Import ListNotations.
Open Scope Z_scope.

(** A scalar occupying the bytes [off, off+size) of the object, and its class.  A
    long double counts as two eightbytes of classes X87 and X87UP; a va_list is a
    structure of two ints and two pointers. *)
Definition item := (Z * Z * klass)%type.

Definition leaf_items (c : tcode) (param o : Z) : list item :=
  match c with
  | CFloat32 | CFloat64 => [(o, fst (abi_leaf c param), Sse)]
  | CLongDouble => [(o, 8, X87); (o + 8, 8, X87Up)]
  | CBuiltin => [(o, 4, Integer); (o + 4, 4, Integer); (o + 8, 8, Integer); (o + 16, 8, Integer)]
  | CPad | CMemory | CStruct | CUnion | CArray => []
  | _ => [(o, fst (abi_leaf c param), Integer)]
  end.

(** All scalars of an object at offset [o], at their real offsets. *)
Section MEMBERS.
  Variable items : tree -> Z -> list item.
  (** [e] is where the previous member ends, relative to the structure at [o]. *)
  Fixpoint struct_items (ms : list tree) (o e : Z) : list item :=
    match ms with
    | [] => []
    | m :: ms =>
      let q := if is_bits m then e else roundup e (abi_align m) in
      items m (o + q) ++ struct_items ms o (q + abi_size m)
    end.
End MEMBERS.

Fixpoint items (T : tree) (o : Z) {struct T} : list item :=
  match T with
  | TLeaf c _ p => leaf_items c p o
  | TAgg false _ ms => struct_items items ms o 0
  | TAgg true _ ms => flat_map (fun m => items m o) ms
  | TArr _ n e => flat_map (fun k => items e (o + Z.of_nat k * abi_size e)) (seq 0 (Z.to_nat n))
  end.

(** "the resulting class": 3.2.3 rule 4 (a)-(f). *)
Definition merge (a b : klass) : klass :=
  match a, b with
  | NoClass, x | x, NoClass => x
  | Memory, _ | _, Memory => Memory
  | Integer, _ | _, Integer => Integer
  | X87, X87 => X87
  | X87Up, X87Up => X87Up
  | ComplexX87, ComplexX87 => ComplexX87
  | X87, _ | _, X87 | X87Up, _ | _, X87Up | ComplexX87, _ | _, ComplexX87 => Memory
  | SseUp, SseUp => SseUp
  | _, _ => Sse
  end.

(** Class of the i-th eightbyte: merged over the scalars with a byte in it. *)
Definition touches (i : nat) (x : item) : bool :=
  let '(o, s, _) := x in (8 * Z.of_nat i <? o + s) && (o <? 8 * Z.of_nat i + 8).
Definition eightbyte (l : list item) (i : nat) : klass :=
  fold_left merge (map snd (filter (touches i) l)) NoClass.

Definition eightbytes (T : tree) : list klass :=
  map (eightbyte (items T 0)) (seq 0 (Z.to_nat (roundup (abi_size T) 8 / 8))).

(** Post merger cleanup, 3.2.3 rule 5. *)
Fixpoint x87up_preceded (prev : klass) (l : list klass) : bool :=
  match l with
  | [] => true
  | k :: l => (negb (klass_eqb k X87Up) || klass_eqb prev X87) && x87up_preceded k l
  end.
Fixpoint sseup_fix (prev : klass) (l : list klass) : list klass :=
  match l with
  | [] => []
  | k :: l =>
    let k := if klass_eqb k SseUp && negb (klass_eqb prev Sse || klass_eqb prev SseUp) then Sse else k in
    k :: sseup_fix k l
  end.
Definition cleanup (l : list klass) : aclass :=
  if existsb (klass_eqb Memory) l then InMemory
  else if negb (x87up_preceded NoClass l) then InMemory
  else if (2 <? Z.of_nat (length l)) &&
          (negb (klass_eqb (hd NoClass l) Sse) || negb (forallb (klass_eqb SseUp) (tl l)))
  then InMemory
  else InQwords (sseup_fix NoClass l).

(** Rule 1: larger than eight eightbytes, or with unaligned fields (excluded below by
    [conforming]: C17 6.7.5p4 forbids an alignment weaker than the natural one). *)
Definition abi_class (T : tree) : aclass :=
  if 64 <? abi_size T then InMemory else cleanup (eightbytes T).

(** Types of complete C objects as the translator produces them: the layout
    hypotheses of C33, no raw memory or padding members, no zero-width runs of
    bit-fields. *)
Fixpoint usable (T : tree) : bool :=
  match T with
  | TLeaf c _ p => match c with CPad | CMemory => false | CBits => 0 <? p | _ => true end
  | TAgg _ _ ms => forallb usable ms
  | TArr _ _ e => usable e
  end.
Definition conforming (T : tree) : bool :=
  valid T && pow2_aligned T && arrays_natural T && not_underaligned T && usable T.

Definition is_aggregate (T : tree) : bool :=
  match T with TLeaf _ _ _ => false | _ => true end.

(** Aggregates that can be nested without the packing of eightbytes going wrong: no
    trailing padding, the most aligned member first (all members of a union equally
    aligned), no explicit alignment beyond that of the members. *)
Fixpoint tight (T : tree) : bool :=
  match T with
  | TLeaf _ _ _ => true
  | TAgg false _ ms =>
    (abi_size T =? members_end ms) &&
    match ms with
    | m :: _ => negb (is_bits m) && (abi_align m =? abi_align T)
    | [] => false
    end && forallb tight ms
  | TAgg true _ ms =>
    existsb (fun m => abi_size m =? abi_size T) ms &&
    forallb (fun m => negb (is_bits m) && (abi_align m =? abi_align T)) ms && forallb tight ms
  | TArr _ n e => (0 <? n) && negb (is_bits e) && (abi_align e =? abi_align T) && tight e
  end.
Definition members_tight (T : tree) : bool := forallb tight (kids T).
