(** Model of the symbol table, source/core/symbol_table.c, over the hash tree. *)
From Coq Require Import ZArith List Bool.
From Verif Require Import HashtreeModel.
Import ListNotations.
Open Scope Z_scope.

(** C strings: the bytes before the terminator, as values 1..255. *)
Definition cstring := list Z.

Fixpoint cstring_eqb (a b : cstring) : bool :=
  match a, b with
  | [], [] => true
  | x :: a', y :: b' => (x =? y) && cstring_eqb a' b'
  | _, _ => false
  end.

(** Value of a [char] (signed on this target) holding byte [b]. *)
Definition schar (b : Z) : Z := if b <? 128 then b else b - 256.

(** str_hash, source/core/hashtree.c:279-289 (unsigned 64-bit arithmetic). *)
Definition str_hash (s : cstring) : Z :=
  fold_left (fun h c => (h * 31 + schar c) mod 2 ^ 64) s 7.

(** uint_hash, source/core/hashtree.c:300-303. *)
Definition uint_hash (k : Z) : Z := k.

(** [struct kefir_symbol_table].  Pointers returned by KEFIR_MALLOC are modelled
    by the allocation number: [st_heap] lists the copies made so far, a pointer is
    an index into it.  The key pointer stored in a node of [symbols] is kept with
    the node's value. *)
Record symtab : Type := mk_symtab {
  st_symbols : htree cstring (nat * Z);
  st_ids : htree Z nat;
  st_next : Z;
  st_heap : list cstring }.

(** kefir_symbol_table_init, source/core/symbol_table.c:34-41. *)
Definition symtab_init : symtab := mk_symtab HLeaf HLeaf 0 [].

(** kefir_symbol_table_insert, source/core/symbol_table.c:51-84.  [None] is the
    NULL return. Allocation failure is not modelled; [next_id] is an unbounded
    counter here (64-bit in C). *)
Definition symtab_insert (s : cstring) (t : symtab) : option (nat * Z) * symtab :=
  match ht_at _ _ str_hash cstring_eqb s (st_symbols t) with
  | Some (_, (p, id)) => (Some (p, id), t)
  | None =>
      let p := length (st_heap t) in
      let heap' := st_heap t ++ [s] in
      let id := st_next t in
      match ht_insert _ _ str_hash cstring_eqb s (p, id) (st_symbols t) with
      | (HtOk, sy) =>
          match ht_insert _ _ uint_hash Z.eqb id p (st_ids t) with
          | (HtOk, ids) => (Some (p, id), mk_symtab sy ids (id + 1) heap')
          | (_, ids) =>
              let (_, sy') := ht_delete _ _ str_hash cstring_eqb s sy in
              (None, mk_symtab sy' ids (st_next t) heap')
          end
      | (_, sy) => (None, mk_symtab sy (st_ids t) (st_next t) heap')
      end
  end.

(** kefir_symbol_table_get, source/core/symbol_table.c:86-92. *)
Definition symtab_get (id : Z) (t : symtab) : option nat :=
  option_map snd (ht_at _ _ uint_hash Z.eqb id (st_ids t)).

(** A history of interning requests. *)
Fixpoint symtab_run (t : symtab) (ss : list cstring) : list (option (nat * Z)) * symtab :=
  match ss with
  | [] => ([], t)
  | s :: rest =>
      let (r, t1) := symtab_insert s t in
      let (rs, t2) := symtab_run t1 rest in (r :: rs, t2)
  end.
