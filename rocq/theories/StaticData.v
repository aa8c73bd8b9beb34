(** Emission of static data as assembler directives: a model of
    source/codegen/amd64/system-v/abi/static_data.c.  The output is the sequence of
    bytes the directives denote; a byte of an address is a relocation. *)

From Coq Require Import ZArith Lia Bool List.
From Verif Require Import Bits IrType LayoutModel IrData.
Import ListNotations.
Open Scope Z_scope.

(** ** Output *)

Inductive sym := SName (name : list Z) | SString (id : Z).

(** One byte of the object file: a constant, or byte [k] of an 8-byte address. *)
Inductive cell := Byte (b : Z) | Addr (s : sym) (off : Z) (k : nat).

(** .byte, .word, .long, .quad with a number printed as unsigned hexadecimal. *)
Definition number (n : nat) (value : Z) : list cell :=
  map (fun i => Byte (u 8 (Z.shiftr value (8 * Z.of_nat i)))) (seq 0 n).
(** .quad with a symbol. *)
Definition address (s : sym) (off : Z) : list cell := map (Addr s off) (seq 0 8).
(** .zero *)
Definition zeros (n : Z) : list cell := repeat (Byte 0) (Z.to_nat n).

(** ** State: struct static_data_param, static_data.c:32-40 *)

Record est := { e_slot : Z; e_off : Z; e_iter : list Z; e_out : list cell }.

(** align_offset, static_data.c:51-59. *)
Definition align_offset (al : Z) (p : est) : est :=
  let n := pad_aligned (e_off p) al in
  if e_off p <? n
  then {| e_slot := e_slot p; e_off := n; e_iter := e_iter p; e_out := e_out p ++ zeros (n - e_off p) |}
  else p.

(** trailing_padding, static_data.c:61-72. *)
Definition trailing_padding (start size : Z) (p : est) : option est :=
  let end_ := start + size in
  if e_off p <? end_
  then Some {| e_slot := e_slot p; e_off := end_; e_iter := e_iter p;
               e_out := e_out p ++ zeros (end_ - e_off p) |}
  else if end_ =? e_off p then Some p else None.

Definition next_slot (p : est) : est :=
  {| e_slot := e_slot p + 1; e_off := e_off p; e_iter := e_iter p; e_out := e_out p |}.

(** Output of some cells, counted as [size] bytes. *)
Definition put (cells : list cell) (size : Z) (p : est) : est :=
  {| e_slot := e_slot p; e_off := e_off p + size; e_iter := e_iter p; e_out := e_out p ++ cells |}.

(** ** Scalars *)

(** integral_static_data, static_data.c:74-189: the directive.  Bit-fields of more
    than 64 bits (a shift out of range in the code) do not occur. *)
Definition integral_cells (c : tcode) (param : Z) (v : dval) : option (list cell) :=
  match v with
  | VPtr r o => match c with CLong | CInt64 => Some (address (SName r) o) | _ => None end
  | VStrPtr i o => match c with CLong | CInt64 => Some (address (SString i) o) | _ => None end
  | VUndef | VInt _ =>
    let value := match v with VInt z => z | _ => 0 end in
    match c with
    | CBool | CChar | CInt8 => Some (number 1 value)
    | CShort | CInt16 => Some (number 2 value)
    | CInt | CInt32 => Some (number 4 value)
    | CLong | CInt64 => Some (number 8 value)
    | CBits =>
      if 64 <? param then None
      else Some (number (Z.to_nat (param / 8 + (if param mod 8 =? 0 then 0 else 1))) value)
    | _ => None
    end
  | _ => None
  end.

(** word_static_data, float32_static_data, float64_static_data,
    long_double_static_data, static_data.c:191-372. *)
Definition word_cells (v : dval) : option (list cell) :=
  match v with
  | VUndef => Some (number 8 0)
  | VInt z => Some (number 8 z)
  | VPtr r o => Some (address (SName r) o)
  | VStrPtr i o => Some (address (SString i) o)
  | _ => None
  end.
Definition f32_cells (v : dval) : option (list cell) :=
  match v with VUndef => Some (number 4 0) | VF32 b => Some (number 4 b) | _ => None end.
Definition f64_cells (v : dval) : option (list cell) :=
  match v with VUndef => Some (number 8 0) | VF64 b => Some (number 8 b) | _ => None end.
Definition ld_cells (v : dval) : option (list cell) :=
  match v with
  | VUndef => Some (number 8 0 ++ number 8 0)
  | VLongDouble b => Some (number 8 b ++ number 8 (Z.shiftr b 64))
  | _ => None
  end.

(** dump_binary, static_data.c:423-430. *)
Definition dump (bytes : list Z) (p : est) : est :=
  put (map (fun b => Byte (u 8 b)) bytes) (Z.of_nat (length bytes)) p.

(** ** The visitor *)

Section EMIT.
  Variable t : irtype.
  Variable lv : vec.
  Variable vals : Z -> slotv.

  Definition scalar (cells : option (list cell)) (bits : bool) (L : lay) (p : est) : option est :=
    match cells with
    | Some cs => Some (put cs (l_size L) (if bits then next_slot p else align_offset (l_align L) (next_slot p)))
    | None => None
    end.

  (** The leaves, static_data.c:74-372, :485-551. *)
  Definition leaf_data (L : lay) (c : tcode) (param : Z) (p : est) : option est :=
    let v := sv (vals (e_slot p)) in
    match c with
    | CWord => scalar (word_cells v) false L p
    | CFloat32 => scalar (f32_cells v) false L p
    | CFloat64 => scalar (f64_cells v) false L p
    | CLongDouble => scalar (ld_cells v) false L p
    | CMemory =>
      let q := align_offset (l_align L) (next_slot p) in
      match v with
      | VUndef => trailing_padding (e_off q) (l_size L) q
      | VStr bs | VRaw bs => trailing_padding (e_off q) (l_size L) (dump bs q)
      | _ => None
      end
    | CPad => Some (put (zeros (l_size L)) (l_size L) (align_offset (l_align L) (next_slot p)))
    | CBuiltin =>
      if param =? 0
      then Some (put (zeros (l_size L)) (l_size L) (align_offset (l_align L) (next_slot p)))
      else None
    | CStruct | CUnion | CArray => None
    | _ => scalar (integral_cells c param v) (match c with CBits => true | _ => false end) L p
    end.

  (** The loop of union_static_data, static_data.c:407-418. *)
  Fixpoint union_loop (self : nat -> est -> option est) (n : nat) (sub : nat) (defined : bool) (p : est)
    : option est :=
    match n with
    | O => Some p
    | S n =>
      if negb defined && sdef (vals (e_slot p)) then
        match self sub p with
        | Some p => union_loop self n (sub + node_len t sub) true p
        | None => None
        end
      else
        union_loop self n (sub + node_len t sub) defined
          {| e_slot := e_slot p + node_slots t sub; e_off := e_off p; e_iter := e_iter p; e_out := e_out p |}
    end.

  (** The loop of array_static_data, static_data.c:455-477; [es] and [esz] are the slots
      and bytes of an element. *)
  Fixpoint array_loop (elem : est -> option est) (fuel : nat) (es esz n end_ i : Z) (p : est)
    : option est :=
    if i <? n then
      match fuel with
      | O => None
      | S fuel =>
        let it := skip_to (e_iter p) (e_slot p) in
        let p := {| e_slot := e_slot p; e_off := e_off p; e_iter := it; e_out := e_out p |} in
        match it with
        | [] => Some {| e_slot := end_; e_off := e_off p; e_iter := it; e_out := e_out p |}
        | b :: _ =>
          let missing := if e_slot p <? b * CAP then (Z.min (b * CAP) end_ - e_slot p) / es else 0 in
          if 0 <? missing then
            array_loop elem fuel es esz n end_ (i + missing)
              {| e_slot := e_slot p + missing * es; e_off := e_off p + missing * esz; e_iter := it;
                 e_out := e_out p ++ zeros (missing * esz) |}
          else
            match elem p with
            | Some p => array_loop elem fuel es esz n end_ (i + 1) p
            | None => None
            end
        end
      end
    else Some p.

  (** struct_static_data, union_static_data, array_static_data, static_data.c:374-483. *)
  Definition data_cb : @callback est := fun self index e p =>
    let L := lv index in
    match tc e with
    | CStruct =>
      let q := align_offset (l_align L) (next_slot p) in
      match self (index + 1)%nat (pcount e) q with
      | Some r => trailing_padding (e_off q) (l_size L) r
      | None => None
      end
    | CUnion =>
      let q := align_offset (l_align L) (next_slot p) in
      match union_loop (fun sub => self sub 1%nat) (pcount e) (index + 1)%nat false q with
      | Some r => trailing_padding (e_off q) (l_size L) r
      | None => None
      end
    | CArray =>
      let v := sv (vals (e_slot p)) in
      let q := align_offset (l_align L) (next_slot p) in
      let es := node_slots t (index + 1) in
      let content := node_slots t index - 1 in
      let skip p := {| e_slot := e_slot p + content; e_off := e_off p; e_iter := e_iter p; e_out := e_out p |} in
      match v with
      | VUndef | VAgg =>
        match array_loop (self (index + 1)%nat 1%nat) (Z.to_nat (tparam e)) es (l_size (lv (index + 1)%nat))
                         (tparam e) (e_slot q + content) 0 q with
        | Some r => trailing_padding (e_off q) (l_size L) r
        | None => None
        end
      | VStr bs | VRaw bs => trailing_padding (e_off q) (l_size L) (skip (dump bs q))
      | _ => None
      end
    | c => leaf_data L c (tparam e) p
    end.
End EMIT.

(** calculate_type_properties, static_data.c:559-585. *)
Definition props_cb (lv : vec) : @callback (Z * Z) := fun _ index _ p =>
  Some (pad_aligned (fst p) (l_align (lv index)) + l_size (lv index),
        Z.max (snd p) (l_align (lv index))).

(** kefir_amd64_sysv_static_data, static_data.c:587-649, of data with the slots [vals]
    in the blocks [ids]: the alignment requested for the label and the bytes after it. *)
Definition static_data (t : irtype) (ids : list Z) (vals : Z -> slotv) (v0 : vec) : option (Z * list cell) :=
  match type_layout t v0 with
  | Some lv =>
    match list_nodes (props_cb lv) t 0 (nodes t) (0, 0),
          list_nodes (data_cb t lv vals) t 0 (nodes t)
                     {| e_slot := 0; e_off := 0; e_iter := ids; e_out := [] |} with
    | Some (size, al), Some p =>
      Some (al, e_out p ++ (if e_off p <? size then zeros (size - e_off p) else []))
    | _, _ => None
    end
  | None => None
  end.
