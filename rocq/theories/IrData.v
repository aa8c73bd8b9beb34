(** Static data before code generation: the block storage of initialised slots
    (source/ir/data.c over source/core/block_tree.c), writes, and finalization. *)

From Coq Require Import ZArith Lia Bool List.
From Verif Require Import Bits HashtreeModel IrType.
Import ListNotations.
Open Scope Z_scope.

(** ** Values *)

(** struct kefir_ir_data_value, headers/kefir/ir/data.h:37-72.  Floating-point values
    are their bit patterns; names are lists of characters; raw data is copied. *)
Inductive dval :=
| VUndef
| VInt (z : Z)
| VF32 (bits : Z) | VF64 (bits : Z) | VLongDouble (bits : Z)
| VStr (bytes : list Z)
| VPtr (ref : list Z) (off : Z)
| VStrPtr (id off : Z)
| VRaw (bytes : list Z)
| VAgg.

Record slotv := { sv : dval; sdef : bool }.
Definition undef : slotv := {| sv := VUndef; sdef := false |}.

Definition is_undef (v : dval) : bool := match v with VUndef => true | _ => false end.

(** ** Blocks *)

(** BLOCK_CAPACITY and sizeof(struct kefir_ir_data_value), data.c:26-27. *)
Definition CAP : Z := 128.
Definition ESIZE : Z := 32.

(** struct kefir_ir_data: the block tree maps block numbers to pointers to blocks. *)
Record idata := { d_tree : htree Z nat; d_heap : list (list slotv); d_final : bool }.

(** kefir_ir_data_alloc, data.c:44-62. *)
Definition data_alloc : idata := {| d_tree := HLeaf; d_heap := []; d_final := false |}.

(** kefir_block_tree_get_block_offset, block_tree.c:81-88; positions are 64-bit. *)
Definition block_of (index : Z) : Z := u64 (index * ESIZE) / (CAP * ESIZE).
Definition offset_of (index : Z) : Z := (u64 (index * ESIZE) mod (CAP * ESIZE)) / ESIZE.

(** kefir_block_tree_get_block, block_tree.c:90-99 (kefir_hashtree_uint_ops hash a
    number to itself). *)
Definition get_block (d : idata) (b : Z) : option nat :=
  option_map snd (ht_at Z nat (fun k => k) Z.eqb b (d_tree d)).

Fixpoint set_nth {A} (l : list A) (n : nat) (x : A) : list A :=
  match l, n with
  | [], _ => []
  | _ :: l, O => x :: l
  | y :: l, S n => y :: set_nth l n x
  end.

(** kefir_block_tree_block, block_tree.c:101-133, with on_block_init, data.c:29-42:
    a missing block is allocated with every slot undefined. *)
Definition need_block (d : idata) (b : Z) : option (nat * idata) :=
  match get_block d b with
  | Some p => Some (p, d)
  | None =>
    let p := length (d_heap d) in
    match ht_insert Z nat (fun k => k) Z.eqb b p (d_tree d) with
    | (HtOk, t) =>
      Some (p, {| d_tree := t; d_heap := d_heap d ++ [repeat undef (Z.to_nat CAP)];
                  d_final := d_final d |})
    | _ => None
    end
  end.

(** value_entry_at, data.c:72-83, followed by a write through the pointer. *)
Definition slot_at (d : idata) (p : nat) (o : Z) : slotv :=
  nth (Z.to_nat o) (nth p (d_heap d) []) undef.
Definition put_slot (d : idata) (p : nat) (o : Z) (x : slotv) : idata :=
  {| d_tree := d_tree d;
     d_heap := set_nth (d_heap d) p (set_nth (nth p (d_heap d) []) (Z.to_nat o) x);
     d_final := d_final d |}.

(** kefir_ir_data_set_integer and the other plain setters, data.c:99-109, :143-251. *)
Definition set_value (d : idata) (index : Z) (v : dval) : option idata :=
  if d_final d then None
  else match need_block d (block_of index) with
       | Some (p, d) =>
         let o := offset_of index in
         Some (put_slot d p o {| sv := v; sdef := sdef (slot_at d p o) |})
       | None => None
       end.

(** The new contents of a slot holding bit-fields, data.c:118-139.  [BUndefined]: the
    host compiler's shift is out of range (1ull << 64, or an offset of 64 and more). *)
Inductive bits_result := BValue (z : Z) | BError | BUndefined.

Definition merge_bits (cur value offset width : Z) : bits_result :=
  if 64 <? width then BError
  else if width =? 64 then BValue (u64 value)
  else if (64 <=? width + 1) || (64 <=? offset) then BUndefined
  else
    let mask := u64 (2 ^ (width + 1) - 1) in
    let cur := Z.land cur (u64 (Z.lnot (u64 (mask * 2 ^ offset)))) in
    BValue (Z.lor cur (u64 (Z.land value mask * 2 ^ offset))).

(** kefir_ir_data_set_bitfield, data.c:111-141. *)
Definition set_bitfield (d : idata) (index value offset width : Z) : option idata :=
  if d_final d then None
  else match need_block d (block_of index) with
       | Some (p, d) =>
         let o := offset_of index in
         let e := slot_at d p o in
         match (match sv e with VInt z => Some (u64 z) | VUndef => Some 0 | _ => None end) with
         | Some cur =>
           match merge_bits cur (u64 value) offset width with
           | BValue z => Some (put_slot d p o {| sv := VInt (s64 z); sdef := sdef e |})
           | _ => None
           end
         | None => None
         end
       | None => None
       end.

(** value_get_entry, data.c:85-97, and kefir_ir_data_value_at, :422-438 (the index is
    below the total length). *)
Definition get_entry (d : idata) (index : Z) : option slotv :=
  match get_block d (block_of index) with
  | Some p => Some (slot_at d p (offset_of index))
  | None => None
  end.
Definition value_at (d : idata) (index : Z) : slotv :=
  match get_entry d index with Some x => x | None => undef end.

(** The blocks, in the order of kefir_block_tree_iter / _next, block_tree.c:135-160. *)
Definition present (d : idata) : list Z :=
  match ht_walk Z nat (d_tree d) with Some l => map fst l | None => [] end.

(** ** Finalization *)

(** kefir_block_tree_iter_skip_to, block_tree.c:162-171; an iterator is the list of
    blocks not yet passed.  Positions and block sizes carry the common factor ESIZE. *)
Fixpoint skip_to (it : list Z) (slot : Z) : list Z :=
  match it with
  | [] => []
  | b :: r => if (b + 1) * CAP <=? slot then skip_to r slot else it
  end.

(** struct finalize_param, data.c:253-259, and the slots. *)
Record fparam := { f_slot : Z; f_def : bool; f_iter : list Z; f_vals : Z -> slotv }.

Definition vupd (m : Z -> slotv) (i : Z) (x : slotv) : Z -> slotv := fun j => if j =? i then x else m j.

(** value_get_entry on the stored blocks. *)
Definition fget (ids : list Z) (vals : Z -> slotv) (slot : Z) : option slotv :=
  if existsb (Z.eqb (slot / CAP)) ids then Some (vals slot) else None.

Definition advance (p : fparam) : fparam :=
  {| f_slot := f_slot p + 1; f_def := f_def p; f_iter := f_iter p; f_vals := f_vals p |}.

(** The loop of finalize_array, data.c:337-357: [i] elements done of [n], [es] slots in
    an element. *)
Fixpoint fin_loop (elem : fparam -> option fparam) (fuel : nat) (es n end_ i : Z) (q : fparam)
  : option fparam :=
  if i <? n then
    match fuel with
    | O => None
    | S fuel =>
      let it := skip_to (f_iter q) (f_slot q) in
      let q := {| f_slot := f_slot q; f_def := f_def q; f_iter := it; f_vals := f_vals q |} in
      match it with
      | [] => Some q
      | b :: _ =>
        if f_slot q <? b * CAP then
          let undefined := (Z.min end_ (b * CAP) - f_slot q) / es in
          if 0 <? undefined then
            fin_loop elem fuel es n end_ (i + undefined)
              {| f_slot := f_slot q + undefined * es; f_def := f_def q; f_iter := it; f_vals := f_vals q |}
          else fin_loop elem fuel es n end_ (i + 1) q
        else
          match elem q with
          | Some q => fin_loop elem fuel es n end_ (i + 1) q
          | None => None
          end
      end
    end
  else Some q.

Section FINALIZE.
  Variable ids : list Z.

  (** finalize_scalar, finalize_pad, finalize_builtin, data.c:271-288, :379-398. *)
  Definition fin_leaf (c : tcode) (param : Z) (p : fparam) : option fparam :=
    match c with
    | CPad => Some (advance p)
    | CBuiltin =>
      if param =? 0 then
        match fget ids (f_vals p) (f_slot p) with
        | Some e => if is_undef (sv e) then Some (advance p) else None
        | None => Some (advance p)
        end
      else None
    | CStruct | CUnion | CArray => None
    | _ =>
      match fget ids (f_vals p) (f_slot p) with
      | Some e =>
        let def := negb (is_undef (sv e)) in
        Some {| f_slot := f_slot p + 1; f_def := f_def p || def; f_iter := f_iter p;
                f_vals := vupd (f_vals p) (f_slot p) {| sv := sv e; sdef := def |} |}
      | None => Some (advance p)
      end
    end.

  (** finalize_struct_union after the members, data.c:303-321; [p] is the state before
      and [q] the state of the members. *)
  Definition fin_agg_end (p q : fparam) : fparam :=
    {| f_slot := f_slot q; f_def := f_def p || f_def q; f_iter := f_iter q;
       f_vals :=
         match fget ids (f_vals q) (f_slot p) with
         | Some e =>
           vupd (f_vals q) (f_slot p) {| sv := if f_def q then VAgg else sv e; sdef := f_def q |}
         | None => f_vals q
         end |}.

  (** finalize_array after the loop, data.c:359-376. *)
  Definition fin_arr_end (p q : fparam) : option fparam :=
    match fget ids (f_vals q) (f_slot p) with
    | Some e =>
      let def := f_def q || negb (is_undef (sv e)) in
      if f_def q && negb (is_undef (sv e)) then None
      else Some {| f_slot := f_slot q; f_def := f_def p || def; f_iter := f_iter q;
                   f_vals := vupd (f_vals q) (f_slot p)
                               {| sv := if f_def q then VAgg else sv e; sdef := def |} |}
    | None => Some {| f_slot := f_slot q; f_def := f_def p; f_iter := f_iter q; f_vals := f_vals q |}
    end.

  Definition sub (p : fparam) : fparam :=
    {| f_slot := f_slot p + 1; f_def := false; f_iter := f_iter p; f_vals := f_vals p |}.

  (** The visitor, data.c:261-398. *)
  Definition fin_cb (t : irtype) : @callback fparam := fun self index e p =>
    match tc e with
    | CStruct | CUnion =>
      let go :=
        match self (index + 1)%nat (pcount e) (sub p) with
        | Some q => Some (fin_agg_end p q)
        | None => None
        end in
      match fget ids (f_vals p) (f_slot p) with
      | Some v => if is_undef (sv v) then go else None
      | None => go
      end
    | CArray =>
      let es := node_slots t (index + 1) in
      match fin_loop (self (index + 1)%nat 1%nat) (Z.to_nat (tparam e)) es (tparam e)
                     (f_slot p + 1 + es * tparam e) 0 (sub p) with
      | Some q => fin_arr_end p q
      | None => None
      end
    | c => fin_leaf c (tparam e) p
    end.
End FINALIZE.

(** kefir_ir_data_finalize, data.c:400-420: whether anything is defined, and the slots. *)
Definition finalize (t : irtype) (ids : list Z) (vals : Z -> slotv) : option (bool * (Z -> slotv)) :=
  match list_nodes (fin_cb ids t) t 0 (length t)
          {| f_slot := 0; f_def := false; f_iter := ids; f_vals := vals |} with
  | Some p => Some (f_def p, f_vals p)
  | None => None
  end.

Definition data_finalize (t : irtype) (d : idata) : option (bool * (Z -> slotv)) :=
  finalize t (present d) (value_at d).
