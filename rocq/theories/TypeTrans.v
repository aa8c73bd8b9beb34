(** Translation of C object types into IR types, with the placement of bit-fields:
    source/ast-translator/type_translate.c and
    source/codegen/amd64/system-v/bitfields.c. *)

From Coq Require Import ZArith Lia Bool List.
From Verif Require Import IrType LayoutModel.
Import ListNotations.
Open Scope Z_scope.

(** C object types as far as the translation looks at them: a scalar is the IR code
    [scalar_typeentry] gives it (type_translate.c:28-89; [YScalar CBuiltin] is
    va_list), enumerations and qualifiers have been removed (:375, :392), an array of
    unknown size has length 0 (:117).  A member carries its explicit alignment (0 for
    none); a bit-field also whether it has a name, its declared type and its width. *)
Inductive cty :=
| YScalar (c : tcode)
| YArr (n : Z) (e : cty)
| YVla
| YAgg (union : bool) (fs : list field)
with field :=
| FNormal (al : Z) (y : cty)
| FBits (al : Z) (named : bool) (c : tcode) (w : Z).

(** *** The bit-field allocator, bitfields.c *)

(** amd64_sysv_bitfield_props, :51-83; size and alignment are the same number. *)
Definition bf_props (c : tcode) : option Z :=
  match c with
  | CChar | CBool | CInt8 => Some 8
  | CShort | CInt16 => Some 16
  | CInt | CInt32 => Some 32
  | CLong | CWord | CInt64 => Some 64
  | _ => None
  end.

(** visit_struct_layout, :90-102. *)
Definition max_cb (v : vec) : @callback Z := fun _ index _ off =>
  Some (Z.max off (l_off (v index) + l_size (v index))).

(** struct_current_offset, :104-125. *)
Definition struct_current_offset (t : irtype) (ix : nat) : option Z :=
  match nth_error t ix with
  | None => None
  | Some e =>
    if (0 <? tparam e) && (match tc e with CStruct => true | _ => false end) then
      match layout_of t ix 1 (fun _ => mk 0 0 true) with
      | Some v => list_nodes (max_cb v) t (ix + 1) (pcount e) 0
      | None => None
      end
    else Some 0
  end.

(** amd64_sysv_bitfield_next, :127-175: the new BITS entry, the offset of the field in
    it, and the run (head and tail bit offsets). *)
Definition bf_next (t : irtype) (ix : nat) (named : bool) (c : tcode) (w : Z)
  : option (entry * Z * (Z * Z)) :=
  if w =? 0 then None
  else match struct_current_offset t ix with
  | None => None
  | Some o =>
    let cur := o * 8 in
    match bf_props c with
    | None => None
    | Some size =>
      if size <? w then None
      else
        let tail := if size <? Z.land cur (size - 1) + w then pad_aligned cur size else cur in
        Some ({| tc := CBits; talign := if named then size / 8 else 0; tparam := tail + w - cur |},
              tail - cur, (cur, tail + w))
    end
  end.

(** amd64_sysv_bitfield_next_colocated, :177-211.  [CoSpace] is KEFIR_OUT_OF_SPACE. *)
Inductive co := CoErr | CoSpace | CoOk (e : entry) (off : Z) (run : Z * Z).
Definition bf_colocated (run : Z * Z) (named : bool) (c : tcode) (w : Z) (e : entry) : co :=
  let (head, tail) := run in
  if w =? 0 then CoErr
  else match bf_props c with
  | None => CoErr
  | Some size =>
    if size <? w then CoErr
    else if Z.land tail (size - 1) + w <=? size then
      CoOk {| tc := tc e; talign := if named then Z.max (talign e) (size / 8) else talign e;
              tparam := tail + w - head |}
           (tail - head) (head, tail + w)
    else CoSpace
  end.

(** *** type_translate.c *)

(** The layout record of a bit-field (:264-267): the entry that stores it, its bit
    offset in that entry and its width; the declared type is kept for the theorems. *)
Record bfield := { bf_entry : nat; bf_off : Z; bf_width : Z; bf_code : tcode }.

(** The translation of one structure in progress: the type being built, the
    allocator's run, last_bitfield_storage, and the bit-fields placed so far. *)
Record tstate := { ts_b : irtype; ts_run : option (Z * Z); ts_store : nat; ts_out : list bfield }.

Fixpoint updn {A} (n : nat) (f : A -> A) (l : list A) : list A :=
  match l, n with
  | [], _ => []
  | x :: l, O => f x :: l
  | x :: l, S n => x :: updn n f l
  end.
Definition inc_param (e : entry) : entry :=
  {| tc := tc e; talign := talign e; tparam := tparam e + 1 |}.

Definition reset (st : tstate) : tstate :=
  {| ts_b := ts_b st; ts_run := None; ts_store := 0; ts_out := ts_out st |}.

(** translate_bitfield, :212-276.  The width is passed as uint8_t. *)
Definition translate_bitfield (st : tstate) (ix : nat) (named : bool) (c : tcode) (w : Z) : option tstate :=
  if w =? 0 then Some (reset st)
  else
    let w8 := w mod 256 in
    let rec_ k off := {| bf_entry := k; bf_off := off; bf_width := w8; bf_code := c |} in
    let fresh :=
      match bf_next (ts_b st) ix named c w8 with
      | None => None
      | Some (e, off, run) =>
        Some {| ts_b := updn ix inc_param (ts_b st ++ [e]); ts_run := Some run;
                ts_store := length (ts_b st);
                ts_out := ts_out st ++ [rec_ (length (ts_b st)) off] |}
      end in
    match ts_run st with
    | None => fresh
    | Some run =>
      match nth_error (ts_b st) (ts_store st) with
      | None => None
      | Some e =>
        match bf_colocated run named c w8 e with
        | CoErr => None
        | CoSpace => fresh
        | CoOk e' off run' =>
          Some {| ts_b := updn (ts_store st) (fun _ => e') (ts_b st); ts_run := Some run';
                  ts_store := ts_store st; ts_out := ts_out st ++ [rec_ (ts_store st) off] |}
        end
      end
    end.

Definition agg_code (union : bool) : tcode := if union then CUnion else CStruct.

(** kefir_ast_translate_object_type, :343-403, with translate_array_type (:109-164) and
    translate_struct_type (:278-341); the empty-structure extension (:325) is not
    modelled. *)
Fixpoint trans (y : cty) (al : Z) (b : irtype) {struct y} : option irtype :=
  match y with
  | YScalar c => Some (b ++ [{| tc := c; talign := al; tparam := 0 |}])
  | YArr n e => trans e 0 (b ++ [{| tc := CArray; talign := al; tparam := n |}])
  | YVla => Some (b ++ [{| tc := CStruct; talign := 0; tparam := 2 |};
                        {| tc := CWord; talign := 0; tparam := 0 |};
                        {| tc := CWord; talign := 0; tparam := 0 |}])
  | YAgg un fs =>
    let ix := length b in
    option_map ts_b
      ((fix go (fs : list field) (st : tstate) {struct fs} : option tstate :=
          match fs with
          | [] => Some st
          | f :: fs =>
            match
              match f with
              | FBits _ named c w =>
                translate_bitfield (if un then reset st else st) ix named c w
              | FNormal a y =>
                match trans y a (ts_b st) with
                | Some b' => Some {| ts_b := updn ix inc_param b'; ts_run := None; ts_store := 0;
                                     ts_out := ts_out st |}
                | None => None
                end
              end
            with
            | Some st' => go fs st'
            | None => None
            end
          end) fs {| ts_b := b ++ [{| tc := agg_code un; talign := al; tparam := 0 |}];
                     ts_run := None; ts_store := 0; ts_out := [] |})
  end.

(** The same loop outside of [trans]. *)
Definition field_step (un : bool) (ix : nat) (f : field) (st : tstate) : option tstate :=
  match f with
  | FBits _ named c w => translate_bitfield (if un then reset st else st) ix named c w
  | FNormal a y =>
    match trans y a (ts_b st) with
    | Some b' => Some {| ts_b := updn ix inc_param b'; ts_run := None; ts_store := 0;
                         ts_out := ts_out st |}
    | None => None
    end
  end.

Fixpoint field_loop (un : bool) (ix : nat) (fs : list field) (st : tstate) : option tstate :=
  match fs with
  | [] => Some st
  | f :: fs => match field_step un ix f st with Some st' => field_loop un ix fs st' | None => None end
  end.

Definition struct_start (un : bool) (al : Z) (b : irtype) : tstate :=
  {| ts_b := b ++ [{| tc := agg_code un; talign := al; tparam := 0 |}];
     ts_run := None; ts_store := 0; ts_out := [] |}.

(** translate_struct_type with the layout records of its bit-fields. *)
Definition translate_struct (un : bool) (fs : list field) (al : Z) (b : irtype)
  : option (irtype * list bfield) :=
  match field_loop un (length b) fs (struct_start un al b) with
  | Some st => Some (ts_b st, ts_out st)
  | None => None
  end.

Lemma trans_struct : forall un fs al b,
  trans (YAgg un fs) al b = option_map fst (translate_struct un fs al b).
Proof.
  intros. unfold translate_struct, struct_start. cbn [trans].
  set (st := {| ts_b := _ |}). clearbody st.
  set (ix := length b). clearbody ix. revert st.
  induction fs as [|f fs IH]; intros st; cbn [field_loop]; [reflexivity|].
  destruct f as [a y|a named c w]; cbn [field_step].
  - destruct (trans y a (ts_b st)); [apply IH|reflexivity].
  - destruct (translate_bitfield _ ix named c w); [apply IH|reflexivity].
Qed.
