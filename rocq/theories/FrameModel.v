(** Storage of automatic objects: the IR type built from the block scopes of a function, its layout, and the
    frame. *)
(* Modelled: source/ast-translator/scope/local_scope_layout.c 153-187 (one automatic object), 190-222, 269-368
   (traversal of the scopes), 370-400; source/ast-translator/layout.c (a layout node gets the relative offset of its
   IR type entry) and misc.c 114-128 (offsets added up to the root); source/codegen/amd64/system-v/abi/function.c
   30-178 (frame); abi/prologue.c 194-229 and 279-330 (parameters passed in registers are stored in the frame);
   instr.c 171-177 (address of the locals).

   Simplified: a scope is the list of its automatic (and register) objects, each with its IR type, and its inner
   blocks; typedefs, tags, functions, extern and static objects leave no trace in the type. Labels are kept in a scope
   of their own (local_context.c) and do not occur. The layout is evaluated once, at the end (the code also
   evaluates it after every object; the last evaluation overwrites the offsets). The frame is given the sizes and
   alignments of the types returned by calls, fetched by va_arg and passed as parameters. *)

From Coq Require Import ZArith Lia Bool List.
From Verif Require Import IrType LayoutModel.
Import ListNotations.
Open Scope Z_scope.

(** ** Scopes *)

(** struct kefir_ast_identifier_block_scope: a tree of flat scopes. *)
Inductive scope := Scope (autos : list tree) (blocks : list scope).

(** local_scope_empty, local_scope_layout.c:269-298. *)
Fixpoint empty (s : scope) : bool :=
  match s with Scope autos blocks => match autos with [] => forallb empty blocks | _ :: _ => false end end.

(** typeentry->param++ on the entry at an index. *)
Fixpoint bump (t : irtype) (i : nat) : irtype :=
  match t, i with
  | [], _ => []
  | e :: t, O => {| tc := tc e; talign := talign e; tparam := tparam e + 1 |} :: t
  | e :: t, S i => e :: bump t i
  end.

(** The layout tree: index of the structure of a scope, indices of its objects, and the union of its blocks with the
    layouts of the blocks. *)
Inductive slayout := SL (value : nat) (vars : list nat) (sub : option (nat * list (option slayout))).

(** The loop over the identifiers of one scope, local_scope_layout.c:316-329 with 212-216 and 168-176. *)
Fixpoint traverse_objects (begin : nat) (autos : list tree) (t : irtype) : irtype * list nat :=
  match autos with
  | [] => (t, [])
  | T :: autos =>
    let t := bump t begin in
    let (t', vars) := traverse_objects begin autos (t ++ flatten T) in
    (t', length t :: vars)
  end.

(** traverse_local_scope, local_scope_layout.c:300-368. *)
Fixpoint traverse (s : scope) (t : irtype) {struct s} : irtype * option slayout :=
  match s with
  | Scope autos blocks =>
    let begin := length t in
    let empty_scope := empty s in
    let t := if empty_scope then t else t ++ [{| tc := CStruct; talign := 0; tparam := 0 |}] in
    let (t, vars) := traverse_objects begin autos t in
    if negb (forallb empty blocks) then
      let children_begin := length t in
      let t := bump t begin ++ [{| tc := CUnion; talign := 0; tparam := 0 |}] in
      let (t, subs) :=
        (fix children (bs : list scope) (t : irtype) :=
           match bs with
           | [] => (t, [])
           | c :: bs =>
             let (t, l) := traverse c (bump t children_begin) in
             let (t, ls) := children bs t in
             (t, l :: ls)
           end) blocks t in
      (t, Some (SL begin vars (Some (children_begin, subs))))
    else
      let t :=
        (fix children (bs : list scope) (t : irtype) :=
           match bs with [] => t | c :: bs => children bs (fst (traverse c t)) end) blocks t in
      (t, if empty_scope then None else Some (SL begin vars None))
  end.

(** kefir_ast_translator_build_local_scope_layout, local_scope_layout.c:370-400. *)
Definition local_type (s : scope) : irtype := fst (traverse s []).
Definition local_layout (s : scope) : option slayout := snd (traverse s []).

(** misc.c:114-128: the offset of an object is the sum of the relative offsets on the way to the root; object [k]
    of the scope reached through the blocks [path]. *)
Fixpoint object_offset (v : vec) (l : slayout) (path : list nat) (k : nat) : option Z :=
  match l with
  | SL value vars sub =>
    match path with
    | [] => match nth_error vars k with Some i => Some (l_off (v value) + l_off (v i)) | None => None end
    | j :: path =>
      match sub with
      | Some (u, subs) =>
        match nth_error subs j with
        | Some (Some l) =>
          match object_offset v l path k with
          | Some o => Some (l_off (v value) + l_off (v u) + o)
          | None => None
          end
        | _ => None
        end
      | None => None
      end
    end
  end.

(** ** The frame *)

(** What needs temporary space: an aggregate returned by a call (function.c:66-83), an aggregate fetched from the
    variable arguments that is not in memory (function.c:85-121). *)
Inductive temporary := ReturnValue (size alignment : Z) | VarargGet (size alignment : Z).

(** function.c:77-80 and 113-116, including MAX( *size, ...) for the alignment in the latter. *)
Definition update_temporaries (p : Z * Z) (x : temporary) : Z * Z :=
  let (size, alignment) := p in
  match x with
  | ReturnValue s a => (Z.max size s, Z.max alignment a)
  | VarargGet s a => let size := Z.max size s in (size, Z.max size a)
  end.

Record frame := {
  fr_size : Z; fr_alignment : Z;
  fr_temporary : Z; fr_parameters : Z; fr_register_save_area : Z; fr_locals : Z }.

Definition pad_dqword (x : Z) : Z := pad_aligned x 16.

(** The visitors of function.c:32-65: reserve space for one object, size and alignment so far. *)
Definition reserve (p : Z * Z) (o : Z * Z) : Z * Z :=
  let alignment := Z.max (snd p) (snd o) in
  (pad_aligned (fst p) alignment + fst o, alignment).

Definition frame_local_cb (v : vec) : @callback (Z * Z) := fun _ index _ p =>
  Some (reserve p (l_size (v index), l_align (v index))).

(** calculate_frame, function.c:124-178. [params] are the parameters passed in registers that need memory. *)
Definition calculate_frame (temps : list temporary) (params : list (Z * Z)) (vararg : bool)
    (locals : option (irtype * vec)) : option frame :=
  let size := 16 in
  let alignment := 8 in
  let (tsize, talign) := fold_left update_temporaries temps (0, 0) in
  let base_temporary := pad_aligned size talign in
  let size := base_temporary + tsize in
  let alignment := Z.max alignment talign in
  let base_parameters := pad_dqword size in
  let (size, alignment) := fold_left reserve params (base_parameters, alignment) in
  let base_save := pad_dqword size in
  let base_locals := if vararg then pad_dqword (base_save + (8 * 6 + 16 * 8)) else base_save in
  match locals with
  | None =>
    Some {| fr_size := base_locals; fr_alignment := alignment; fr_temporary := base_temporary;
            fr_parameters := base_parameters; fr_register_save_area := base_save; fr_locals := base_locals |}
  | Some (t, v) =>
    match list_nodes (frame_local_cb v) t 0 (nodes t) (base_locals, alignment) with
    | Some (size, alignment) =>
      Some {| fr_size := pad_dqword size; fr_alignment := alignment; fr_temporary := base_temporary;
              fr_parameters := base_parameters; fr_register_save_area := base_save; fr_locals := base_locals |}
    | None => None
    end
  end.

(** load_reg_aggregate, prologue.c:194-229: where the parameters are stored. *)
Fixpoint parameter_offsets (frame_offset : Z) (params : list (Z * Z)) : list Z :=
  match params with
  | [] => []
  | (size, alignment) :: params =>
    let o := pad_aligned frame_offset alignment in o :: parameter_offsets (o + size) params
  end.

(** The base of the frame (r14): __kefirrt_preserve_state, source/runtime/amd64_sysv.s:1155-1167 (six registers pushed,
    24 more bytes), prologue.c:281-293 (the size of the frame), __kefirrt_generic_prologue, amd64_sysv.s:1169-1171.
    [entry] is the stack pointer at the entry of the function. *)
Definition frame_base (entry : Z) (f : frame) : Z := entry - 6 * 8 - 24 - fr_size f.
