(** Model of the vectors, source/core/vector.c, and of what is built directly on them: blocks of
    IR instructions (source/ir/instr.c) and their growing appends (source/ir/builder.c).  The
    content is a region of bytes; a copy that reads or writes outside of its region has no result
    (None).  Sizes are words: arithmetic on them is modulo 2^64.  An allocator is a function from
    sizes to fresh bytes, or to nothing when it fails; every call is given its own.  NULL vectors,
    NULL values and NULL allocators are left out. *)

From Coq Require Import ZArith Bool List.
Import ListNotations.
Open Scope Z_scope.

Notation bytes := (list Z).
Definition size (b : bytes) : Z := Z.of_nat (length b).
(** kefir_size_t *)
Definition wrap (z : Z) : Z := z mod 2 ^ 64.

(** struct kefir_vector, headers/kefir/core/vector.h:27-32; None is the content NULL *)
Record vec := { v_elem : Z; v_content : option bytes; v_length : Z; v_capacity : Z }.

Inductive code := Ok | InvalidParameter | InvalidState | OutOfBounds | NoMemory.

(** KEFIR_MALLOC and KEFIR_REALLOC, headers/kefir/core/mem.h: the bytes of the old region are
    kept as far as they fit *)
Definition allocator := Z -> option bytes.
Definition reallocate (al : allocator) (old : option bytes) (n : Z) : option bytes :=
  match al n with
  | Some fresh =>
      let o := firstn (length fresh) (match old with Some b => b | None => [] end) in
      Some (o ++ skipn (length o) fresh)
  | None => None
  end.

(** memcpy into and out of a region *)
Definition load (b : bytes) (off n : Z) : option bytes :=
  if (0 <=? off) && (0 <=? n) && (off + n <=? size b) then Some (firstn (Z.to_nat n) (skipn (Z.to_nat off) b)) else None.
Definition store (b : bytes) (off : Z) (x : bytes) : option bytes :=
  if (0 <=? off) && (off + size x <=? size b)
  then Some (firstn (Z.to_nat off) b ++ x ++ skipn (Z.to_nat off + length x) b) else None.
(** the same through a pointer that may be NULL: copying nothing through NULL is harmless *)
Definition load_at (c : option bytes) (off n : Z) : option bytes :=
  match c with Some b => load b off n | None => if n =? 0 then Some [] else None end.
Definition store_at (c : option bytes) (off : Z) (x : bytes) : option (option bytes) :=
  match c with
  | Some b => match store b off x with Some b' => Some (Some b') | None => None end
  | None => if size x =? 0 then Some None else None
  end.

(** kefir_vector_init, vector.c:26-37; [area] is the caller's *)
Definition vector_init (es : Z) (area : option bytes) (capacity : Z) : option vec :=
  if es <=? 0 then None
  else match area with
       | Some _ => if 0 <? capacity then Some {| v_elem := es; v_content := area; v_length := 0; v_capacity := capacity |} else None
       | None => if capacity =? 0 then Some {| v_elem := es; v_content := None; v_length := 0; v_capacity := 0 |} else None
       end.

(** kefir_vector_available, vector.c:44-47 *)
Definition vector_available (v : vec) : Z := wrap (v_capacity v - v_length v).

(** kefir_vector_at, vector.c:49-55: the offset of the answered pointer, None for NULL *)
Definition vector_at (v : vec) (index : Z) : option Z :=
  if index <? v_length v then Some (wrap (index * v_elem v)) else None.

Definition with_content (v : vec) (c : option bytes) (n : Z) : vec :=
  {| v_elem := v_elem v; v_content := c; v_length := n; v_capacity := v_capacity v |}.

(** kefir_vector_append, vector.c:57-67 *)
Definition vector_append (v : vec) (value : bytes) : option (code * vec) :=
  if v_length v <? v_capacity v then
    match load value 0 (v_elem v) with
    | None => None
    | Some x =>
        match store_at (v_content v) (wrap (v_length v * v_elem v)) x with
        | None => None
        | Some c => Some (Ok, with_content v c (wrap (v_length v + 1)))
        end
    end
  else Some (OutOfBounds, v).

(** kefir_vector_copy, vector.c:69-80 *)
Definition vector_copy (v : vec) (src : option bytes) (n : Z) : option (code * vec) :=
  if match src with Some _ => 0 <? n | None => n =? 0 end then
    if n <=? vector_available v then
      match src with
      | None => Some (Ok, with_content v (v_content v) (wrap (v_length v + n)))
      | Some s =>
          match load s 0 (wrap (v_elem v * n)) with
          | None => None
          | Some x =>
              match store_at (v_content v) 0 x with
              | None => None
              | Some c => Some (Ok, with_content v c (wrap (v_length v + n)))
              end
          end
      end
    else Some (OutOfBounds, v)
  else Some (InvalidParameter, v).

(** kefir_vector_extend, vector.c:82-88 *)
Definition vector_extend (v : vec) (n : Z) : code * vec :=
  if wrap (v_length v + n) <=? v_capacity v
  then (Ok, with_content v (v_content v) (wrap (v_length v + n)))
  else (OutOfBounds, v).

(** kefir_vector_alloc, vector.c:90-106 (a failure leaves the vector of the caller behind) *)
Definition vector_alloc (al : allocator) (es capacity : Z) : option vec :=
  if es <=? 0 then None
  else if 0 <? capacity then
    match al (wrap (es * capacity)) with
    | Some b => Some {| v_elem := es; v_content := Some b; v_length := 0; v_capacity := capacity |}
    | None => None
    end
  else Some {| v_elem := es; v_content := None; v_length := 0; v_capacity := capacity |}.

Definition nothing : vec := {| v_elem := 0; v_content := None; v_length := 0; v_capacity := 0 |}.

(** kefir_vector_realloc, vector.c:108-125 *)
Definition vector_realloc (al : allocator) (n : Z) (v : vec) : code * vec :=
  if match v_content v with Some _ => 0 <? v_length v | None => v_length v =? 0 end then
    if v_length v <=? n then
      match reallocate al (v_content v) (wrap (v_elem v * n)) with
      | Some b => (Ok, {| v_elem := v_elem v; v_content := Some b; v_length := v_length v; v_capacity := n |})
      | None => (NoMemory, nothing)
      end
    else (OutOfBounds, v)
  else (InvalidState, v).

(** kefir_vector_free, vector.c:127-138 *)
Definition vector_free (v : vec) : vec := match v_content v with Some _ => nothing | None => v end.

(** kefir_irblock_alloc, instr.c:95-108; kefir_ir_type_alloc, type.c:79-86; [es] is the size of
    struct kefir_irinstr or struct kefir_ir_typeentry *)
Definition block_alloc (al : allocator) (es capacity : Z) : option vec :=
  if capacity =? 0 then vector_init es None 0
  else match al (wrap (es * capacity)) with
       | Some b => vector_init es (Some b) capacity
       | None => None
       end.

(** kefir_irblock_realloc, instr.c:110-118; kefir_ir_type_realloc, type.c:88-95 *)
Definition block_realloc (al : allocator) (capacity : Z) (v : vec) : code * vec :=
  if capacity =? 0 then (Ok, vector_free v) else vector_realloc al capacity v.

(** kefir_irblock_copy, instr.c:89-93 *)
Definition block_copy (dst src : vec) : option (code * vec) := vector_copy dst (v_content src) (v_length src).

(** GROW, builder.c:25 *)
Definition grow (x : Z) : Z := wrap (wrap (3 * x) / 2 + 5).

(** kefir_irbuilder_block_append..., builder.c:63-128; kefir_irbuilder_type_append, 27-37 *)
Definition build (al : allocator) (v : vec) (value : bytes) : option (code * vec) :=
  if vector_available v =? 0 then
    match block_realloc al (grow (v_length v)) v with
    | (Ok, v') => vector_append v' value
    | (r, v') => Some (r, v')
    end
  else vector_append v value.

(** Reading and writing an element through the pointer that kefir_vector_at answers: what the
    callers do (for instance source/ast-translator/flow_control.c when a jump gets its target) *)
Definition get (v : vec) (index : Z) : option (option bytes) :=
  match vector_at v index with
  | None => Some None
  | Some off => match load_at (v_content v) off (v_elem v) with Some x => Some (Some x) | None => None end
  end.
Definition set (v : vec) (index : Z) (x : bytes) : option (option vec) :=
  match vector_at v index with
  | None => Some None
  | Some off => match store_at (v_content v) off x with Some c => Some (Some (with_content v c (v_length v))) | None => None end
  end.
