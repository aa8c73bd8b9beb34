(** Code for reading and writing bit-fields: load_bitfield, resolve_bitfield and
    store_bitfield, source/ast-translator/value.c:31-176, and the value of an
    assignment to one, source/ast-translator/nodes/assignment_operator.c:33-60. *)

From Coq Require Import ZArith Lia Bool List.
From Verif Require Import Bits Memory IRMachine.
Import ListNotations.
Open Scope Z_scope.

(** LOAD8U .. LOAD64 / STORE8 .. STORE64: the number of bytes, value.c:43-61 and
    :151-169. *)
Definition access_bytes (bits : Z) : option nat :=
  if bits <=? 8 then Some 1%nat else if bits <=? 16 then Some 2%nat
  else if bits <=? 24 then Some 3%nat else if bits <=? 32 then Some 4%nat
  else if bits <=? 40 then Some 5%nat else if bits <=? 48 then Some 6%nat
  else if bits <=? 56 then Some 7%nat else if bits <=? 64 then Some 8%nat
  else None.

(** load_bitfield, value.c:31-64. *)
Definition load_bitfield (off width : Z) : option (list instr) :=
  match access_bytes (off mod 8 + width) with
  | Some n => Some [OAdd1 (off / 8); OLoadU n]
  | None => None
  end.

(** resolve_bitfield, value.c:95-125. *)
Definition resolve_bitfield (signed : bool) (off width : Z) : option (list instr) :=
  match load_bitfield off width with
  | Some l => Some (l ++ [if signed then OExtS (off mod 8) width else OExtU (off mod 8) width])
  | None => None
  end.

(** store_bitfield, value.c:127-176; the value is on top of the stack, the address of
    the entry below it. *)
Definition store_bitfield (off width : Z) : option (list instr) :=
  match load_bitfield off width, access_bytes (off mod 8 + width) with
  | Some l, Some n =>
    Some ([OPick 1] ++ l ++
          [OXchg 1; OInsBits (off mod 8) width; OXchg 1; OAdd1 (off / 8); OXchg 1; OStore n])
  | _, _ => None
  end.

(** The end of translate_simple for a bit-field, assignment_operator.c:39-60: keep a
    copy of the value, store it, and extend the copy from the width of the field. *)
Definition assign_bitfield (signed : bool) (off width : Z) : option (list instr) :=
  match store_bitfield off width with
  | Some l => Some ([OXchg 1; OPick 1] ++ l ++ [if signed then OExtS 0 width else OExtU 0 width])
  | None => None
  end.

(** The multi-byte loads and stores of the runtime that are not single moves,
    amd64_sysv.s:521-570 and :599-640. *)
Definition asm_load (n : nat) (m : mem) (a : Z) : Z :=
  match n with
  | 3%nat => Z.lor (read m a 2) (shl64 (read m (u64 (a + 2)) 1) 16)
  | 5%nat => Z.lor (read m a 4) (shl64 (read m (u64 (a + 4)) 1) 32)
  | 6%nat => Z.lor (read m a 4) (shl64 (read m (u64 (a + 4)) 2) 32)
  | 7%nat => Z.lor (Z.lor (read m a 4) (shl64 (read m (u64 (a + 4)) 2) 32))
                   (shl64 (read m (u64 (a + 6)) 1) 48)
  | _ => read m a n
  end.

Definition asm_store (n : nat) (m : mem) (a v : Z) : mem :=
  match n with
  | 3%nat => store (store m a 2 v) (u64 (a + 2)) 1 (shr64 v 16)
  | 5%nat => store (store m a 4 v) (u64 (a + 4)) 1 (shr64 v 32)
  | 6%nat => store (store m a 4 v) (u64 (a + 4)) 2 (shr64 v 32)
  | 7%nat => store (store (store m a 4 v) (u64 (a + 4)) 2 (shr64 v 32)) (u64 (a + 6)) 1
                   (shr64 (shr64 v 32) 16)
  | _ => store m a n v
  end.
