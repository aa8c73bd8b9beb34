(** Model of the storage of variable length arrays: the flow control structures of the
    analyzer (source/ast/flow_control.c), the registration of arrays in them
    (source/ast/local_context.c), the analysis and translation of the statements that
    concern them (source/ast/analyzer/nodes/*_statement.c and
    source/ast-translator/nodes/*_statement.c), jumps (source/ast-translator/jump.c), the
    declaration of arrays (source/ast-translator/declaration_translator.c) and the opcodes
    alloca, pushscope and popscope of source/runtime/amd64_sysv.s.

    Simplifications:
    - memory allocation always succeeds;
    - a structure is named by the position of its statement in the function, not by its
      address, and an array, with its slot of the array of saved scopes, by a number of
      its own, not by the counter vla_id;
    - the translator runs after the whole function is analyzed, so that a structure's
      list of arrays is then complete: a frame carries the complete list and the part
      declared so far;
    - a point is marked in the code by [Mark], jumps name the point (the patching of the
      addresses is the subject of FlowModel);
    - branches go either way;
    - expressions are numbers and have no effect on the storage, except for calls of
      alloca; statement expressions are absent, they behave as blocks;
    - the first clause of a for statement declares no variable length array; no computed
      goto; the constants of case labels are left out. *)

From Coq Require Import ZArith Bool List Lia.
Import ListNotations.
Open Scope Z_scope.

(** Statements and the items of a compound statement. The numbers [k] identify the
    expressions (of expression statements and of controlling expressions). *)
Inductive stmt :=
| SUse (k : nat)
| SAlloca
| SBlock (l : items)
| SIf (k : nat) (s1 s2 : stmt)
| SWhile (k : nat) (s : stmt)
| SDo (s : stmt) (k : nat)
| SFor (k1 k2 k3 : nat) (s : stmt)
| SSwitch (k : nat) (s : stmt)
| SCase (s : stmt)
| SDefault (s : stmt)
| SLabel (l : nat) (s : stmt)
| SGoto (k : nat) (l : nat)
| SBreak
| SContinue
| SReturn (k : nat)
with items :=
| INil
| IVla (v : nat) (r : items)
| IStmt (s : stmt) (r : items).

(** kefir_ast_flow_control_structure_type_t, headers/kefir/ast/flow_control.h *)
Inductive kind := KBlock | KIf | KSwitch | KFor | KWhile | KDo.

Definition position := list nat.
Definition position_eqb (a b : position) : bool := if list_eq_dec Nat.eq_dec a b then true else false.

(** A flow control structure seen from a point in it: its name, type, all its data
    elements (value.block.data_elements once the analysis is over) and those of the
    range parent_data_elts of the point. *)
Record frame := { f_id : position; f_kind : kind; f_all : list nat; f_range : list nat }.

(** struct kefir_ast_flow_control_point: the structure it is in with the range of data
    elements, followed by the point that structure is at, and so on
    (flow_control.c:28-53, 216-236). *)
Definition path := list frame.

(** register_vla, local_context.c:763-789: the arrays of a block, in order. *)
Fixpoint decls (l : items) : list nat :=
  match l with INil => [] | IVla v r => v :: decls r | IStmt _ r => decls r end.

(** kefir_ast_flow_control_tree_push, flow_control.c:209-290 *)
Definition push (p : path) (pos : position) (k : kind) (all : list nat) : path :=
  {| f_id := pos; f_kind := k; f_all := all; f_range := [] |} :: p.

(** kefir_ast_flow_control_block_add_data_element, flow_control.c:392-404 *)
Definition add_element (p : path) (v : nat) : path :=
  match p with
  | f :: r => {| f_id := f_id f; f_kind := f_kind f; f_all := f_all f; f_range := f_range f ++ [v] |} :: r
  | [] => []
  end.

(** contains_vla, set by register_vla at local_context.c:772 *)
Definition contains_vla (f : frame) : bool :=
  match f_kind f, f_all f with KBlock, _ :: _ => true | _, _ => false end.

(** The points that are resolved to addresses. *)
Inductive point :=
| PThen (p : position) | PElse (p : position)
| PBegin (p : position) | PCont (p : position) | PEnd (p : position)
| PCase (p : position) | PLabel (l : nat).

(** The code. [Declare v] stands for the sequence of translate_vla_declaration
    (declaration_translator.c:45-66): PUSHSCOPE and STORE64 into the slot of [v], then
    ALLOCA 0 and STORE64 into the array pointer of [v]; [PopScope v] for
    kefir_ast_translator_resolve_vla_element of [v], LOAD64 and POPSCOPE. *)
Inductive ins :=
| Use (k : nat)
| Declare (v : nat)
| Alloca
| PopScope (v : nat)
| Mark (t : point)
| Jmp (t : point)
| Branch (t : point)
| Ret.

(** kefir_ast_flow_control_point_common_parent, flow_control.c:406-433: the first
    structure around point 1 that is also around point 2, as the parts of the two paths
    up to it and from it. *)
Fixpoint split_at (pos : position) (p : path) : option (path * frame) :=
  match p with
  | [] => None
  | f :: r =>
    if position_eqb (f_id f) pos then Some ([], f)
    else match split_at pos r with Some (a, g) => Some (f :: a, g) | None => None end
  end.

Fixpoint common_parent (p1 p2 : path) : option (path * frame * (path * frame)) :=
  match p1 with
  | [] => None
  | f :: r =>
    match split_at (f_id f) p2 with
    | Some (b, g) => Some ([], f, (b, g))
    | None => match common_parent r p2 with Some (a, f', x) => Some (f :: a, f', x) | None => None end
    end
  end.

(** The pointers head and tail of a range of data elements (flow_control.c:138-147); the
    iterator at the head runs on over the complete list. *)
Definition range_iter (f : frame) : list nat := match f_range f with [] => [] | _ => f_all f end.
Definition range_tail (f : frame) : option nat :=
  match f_range f with [] => None | x :: r => Some (last r x) end.

Definition is_tail (x : nat) (t : option nat) : bool :=
  match t with Some y => Nat.eqb x y | None => false end.

(** the loop of jump.c:66-80 *)
Fixpoint match_ranges (t o : list nat) (tt ot : option nat) : option (list nat) :=
  match t with
  | [] => Some o
  | x :: t' =>
    match o with
    | y :: o' =>
      if Nat.eqb x y then
        if is_tail x tt then Some o'
        else if is_tail y ot then None
        else match_ranges t' o' tt ot
      else None
    | [] => None
    end
  end.

(** Leaving the structures below the common one, jump.c:47-62, and the ends of blocks,
    ast-translator/nodes/compound_statement.c:51-59. *)
Definition pop_of (f : frame) : list ins :=
  if contains_vla f then match f_all f with v :: _ => [PopScope v] | [] => [] end else [].

(** perform_jump, jump.c:28-98 *)
Definition perform_jump (origin target : path) (t : point) : option (list ins) :=
  match common_parent origin target with
  | None => None
  | Some (os, fo, (ts, ft)) =>
    if existsb contains_vla ts then None
    else match match_ranges (range_iter ft) (range_iter fo) (range_tail ft) (range_tail fo) with
         | None => None
         | Some rest =>
           Some (flat_map pop_of os
                 ++ match rest with
                    | [] => []
                    | _ :: _ => match f_all fo with v :: _ => [PopScope v] | [] => [] end
                    end
                 ++ [Jmp t])
         end
  end.

(** resolve_loop_switch, analyzer/nodes/break_statement.c:28-52, and resolve_loop,
    continue_statement.c:28-52; kefir_ast_flow_control_tree_traverse, flow_control.c:313-341.
    The points end and continuation of a structure are allocated for its direct parent
    right after it is pushed (while_statement.c:44-60 and others), so they are at the
    path below its frame. *)
Definition is_loop (k : kind) : bool := match k with KFor | KWhile | KDo => true | _ => false end.
Definition is_loop_switch (k : kind) : bool := match k with KSwitch => true | _ => is_loop k end.

Fixpoint find_structure (sel : kind -> bool) (p : path) : option (position * path) :=
  match p with
  | [] => None
  | f :: r => if sel (f_kind f) then Some (f_id f, r) else find_structure sel r
  end.

Definition in_switch (p : path) : bool :=
  match find_structure (fun k => match k with KSwitch => true | _ => false end) p with
  | Some _ => true | None => false
  end.

(** The labels of a function with their points: kefir_ast_local_context_define_label,
    local_context.c:1134-1166, called by labeled_statement.c:36-54. *)
Fixpoint labels (s : stmt) (pos : position) (p : path) : list (nat * path) :=
  match s with
  | SBlock l => labels_items l 0 pos (push p pos KBlock (decls l))
  | SIf _ s1 s2 => labels s1 (0%nat :: pos) (push p pos KIf []) ++ labels s2 (1%nat :: pos) (push p pos KIf [])
  | SWhile _ s => labels s (0%nat :: pos) (push p pos KWhile [])
  | SDo s _ => labels s (0%nat :: pos) (push p pos KDo [])
  | SFor _ _ _ s => labels s (0%nat :: pos) (push p pos KFor [])
  | SSwitch _ s => labels s (0%nat :: pos) (push p pos KSwitch [])
  | SCase s | SDefault s => labels s (0%nat :: pos) p
  | SLabel l s => (l, p) :: labels s (0%nat :: pos) p
  | SUse _ | SAlloca | SGoto _ _ | SBreak | SContinue | SReturn _ => []
  end
with labels_items (l : items) (i : nat) (pos : position) (p : path) : list (nat * path) :=
  match l with
  | INil => []
  | IVla v r => labels_items r (S i) pos (add_element p v)
  | IStmt s r => labels s (i :: pos) p ++ labels_items r (S i) pos p
  end.

Fixpoint lookup_label (L : list (nat * path)) (l : nat) : option path :=
  match L with
  | [] => None
  | (m, p) :: r => if Nat.eqb m l then Some p else lookup_label r l
  end.

(** The case and default labels of a switch statement: case_statement.c:38-98 finds the
    innermost switch statement, which is the one if no other is entered on the way. *)
Fixpoint cases (s : stmt) (pos : position) : list (position * bool) :=
  match s with
  | SBlock l => cases_items l 0 pos
  | SIf _ s1 s2 => cases s1 (0%nat :: pos) ++ cases s2 (1%nat :: pos)
  | SWhile _ s | SDo s _ | SFor _ _ _ s | SLabel _ s => cases s (0%nat :: pos)
  | SCase s => (pos, false) :: cases s (0%nat :: pos)
  | SDefault s => (pos, true) :: cases s (0%nat :: pos)
  | SSwitch _ _ | SUse _ | SAlloca | SGoto _ _ | SBreak | SContinue | SReturn _ => []
  end
with cases_items (l : items) (i : nat) (pos : position) : list (position * bool) :=
  match l with
  | INil => []
  | IVla _ r => cases_items r (S i) pos
  | IStmt s r => cases s (i :: pos) ++ cases_items r (S i) pos
  end.

(** The translation, with the checks of the analysis: [L] are the labels of the function. *)
Section Translate.
Variable L : list (nat * path).

Definition cat (a b : option (list ins)) : option (list ins) :=
  match a, b with Some x, Some y => Some (x ++ y) | _, _ => None end.

Fixpoint trans (s : stmt) (pos : position) (p : path) : option (list ins) :=
  match s with
  | SUse k => Some [Use k]
  | SAlloca => Some [Alloca]
  | SBlock l =>
    (* nodes/compound_statement.c:38-60 *)
    let q := push p pos KBlock (decls l) in
    cat (trans_items l 0 pos q) (Some (flat_map pop_of (firstn 1 q)))
  | SIf k s1 s2 =>
    (* nodes/conditional_statement.c:36-76 *)
    let q := push p pos KIf [] in
    cat (Some [Use k; Branch (PThen pos)])
        (cat (trans s1 (0%nat :: pos) q)
             (cat (Some [Jmp (PElse pos); Mark (PThen pos)])
                  (cat (trans s2 (1%nat :: pos) q) (Some [Mark (PElse pos)]))))
  | SWhile k s =>
    (* nodes/while_statement.c:36-66 *)
    cat (Some [Mark (PCont pos); Use k; Branch (PEnd pos)])
        (cat (trans s (0%nat :: pos) (push p pos KWhile [])) (Some [Jmp (PCont pos); Mark (PEnd pos)]))
  | SDo s k =>
    (* nodes/do_while_statement.c:36-59 *)
    cat (Some [Mark (PBegin pos)])
        (cat (trans s (0%nat :: pos) (push p pos KDo []))
             (Some [Mark (PCont pos); Use k; Branch (PBegin pos); Mark (PEnd pos)]))
  | SFor k1 k2 k3 s =>
    (* nodes/for_statement.c:37-99 *)
    cat (Some [Use k1; Mark (PBegin pos); Use k2; Branch (PEnd pos)])
        (cat (trans s (0%nat :: pos) (push p pos KFor []))
             (Some [Mark (PCont pos); Use k3; Jmp (PBegin pos); Mark (PEnd pos)]))
  | SSwitch k s =>
    (* nodes/switch_statement.c:36-86; two default labels, case_statement.c:80-83 *)
    let cs := cases s (0%nat :: pos) in
    match map fst (filter snd cs) with
    | _ :: _ :: _ => None
    | d =>
      cat (Some (Use k :: map (fun c => Branch (PCase (fst c))) (filter (fun c => negb (snd c)) cs)
                 ++ [Jmp (match d with c :: _ => PCase c | [] => PEnd pos end)]))
          (cat (trans s (0%nat :: pos) (push p pos KSwitch [])) (Some [Mark (PEnd pos)]))
    end
  | SCase s | SDefault s =>
    (* nodes/case_statement.c:36-46; analyzer/nodes/case_statement.c:47-56 *)
    if in_switch p then cat (Some [Mark (PCase pos)]) (trans s (0%nat :: pos) p) else None
  | SLabel l s =>
    (* nodes/labeled_statement.c:36-46 *)
    cat (Some [Mark (PLabel l)]) (trans s (0%nat :: pos) p)
  | SGoto k l =>
    (* nodes/goto_statement.c:38-43; a label without point: jump.c:115-117 *)
    match lookup_label L l with
    | Some q => cat (Some [Use k]) (perform_jump p q (PLabel l))
    | None => None
    end
  | SBreak =>
    (* nodes/break_statement.c; analyzer/nodes/break_statement.c:64-84 *)
    match find_structure is_loop_switch p with
    | Some (d, q) => perform_jump p q (PEnd d)
    | None => None
    end
  | SContinue =>
    (* nodes/continue_statement.c; analyzer/nodes/continue_statement.c:64-80 *)
    match find_structure is_loop p with
    | Some (d, q) => perform_jump p q (PCont d)
    | None => None
    end
  | SReturn k => Some [Use k; Ret]
  end
with trans_items (l : items) (i : nat) (pos : position) (p : path) : option (list ins) :=
  match l with
  | INil => Some []
  | IVla v r => cat (Some [Declare v]) (trans_items r (S i) pos (add_element p v))
  | IStmt s r => cat (trans s (i :: pos) p) (trans_items r (S i) pos p)
  end.
End Translate.

(** A second definition of a label is refused, local_context.c:1158-1160. *)
Fixpoint no_duplicate (l : list nat) : bool :=
  match l with [] => true | x :: r => negb (existsb (Nat.eqb x) r) && no_duplicate r end.

(** A function with the given body: kefir_ast_analyze_function_definition_node,
    analyzer/nodes/function_definition.c:260-296, and its translation. *)
Definition compile (body : items) : option (list ins) :=
  let L := labels (SBlock body) [] [] in
  if no_duplicate (map fst L) then cat (trans L (SBlock body) [] []) (Some [Ret]) else None.

(** The registers of the frame: base, [r14 - 8], the lower end of the allocated storage;
    scope, [r14 - 16], the base to return to, or 0; the slots of saved scopes; the
    pointer and the size stored for each array. *)
Record state := { pc : nat; base : Z; scope : Z; slot : nat -> Z; area : nat -> option (Z * Z) }.

Definition upd {A} (f : nat -> A) (k : nat) (v : A) (n : nat) : A := if Nat.eqb n k then v else f n.

(** define_opcode alloca, amd64_sysv.s:1104-1114: the address of the allocation *)
Definition alloca_address (b size align : Z) : Z :=
  let r := Z.land (b - size) (-8) in
  if align =? 0 then r else Z.land r (- align).

Fixpoint find_mark (code : list ins) (t : point) : option nat :=
  match code with
  | [] => None
  | i :: r =>
    match i with
    | Mark u =>
      if (match u, t with
          | PThen a, PThen b | PElse a, PElse b | PBegin a, PBegin b
          | PCont a, PCont b | PEnd a, PEnd b | PCase a, PCase b => position_eqb a b
          | PLabel a, PLabel b => Nat.eqb a b
          | _, _ => false
          end) then Some O
      else match find_mark r t with Some n => Some (S n) | None => None end
    | _ => match find_mark r t with Some n => Some (S n) | None => None end
    end
  end.

Definition goto (st : state) (n : nat) : state :=
  {| pc := n; base := base st; scope := scope st; slot := slot st; area := area st |}.
Definition next (st : state) : state := goto st (S (pc st)).

(** The steps of the machine. An allocation has any size and alignment; execution stops
    if the stack is exhausted. *)
Inductive step (code : list ins) (st : state) : state -> Prop :=
| StUse k : nth_error code (pc st) = Some (Use k) -> step code st (next st)
| StMark t : nth_error code (pc st) = Some (Mark t) -> step code st (next st)
| StDeclare v size align :
    (* amd64_sysv.s:1127-1132 and 1097-1125 *)
    nth_error code (pc st) = Some (Declare v) -> 0 <= size -> 0 < align ->
    0 < alloca_address (base st) size align ->
    step code st {| pc := S (pc st); base := alloca_address (base st) size align; scope := base st;
                    slot := upd (slot st) v (scope st);
                    area := upd (area st) v (Some (alloca_address (base st) size align, size)) |}
| StAlloca size align :
    (* amd64_sysv.s:1097-1125 with the argument 1 *)
    nth_error code (pc st) = Some Alloca -> 0 <= size -> 0 <= align ->
    0 < alloca_address (base st) size align ->
    step code st {| pc := S (pc st); base := alloca_address (base st) size align; scope := 0;
                    slot := slot st; area := area st |}
| StPop v :
    (* amd64_sysv.s:1134-1152 *)
    nth_error code (pc st) = Some (PopScope v) ->
    step code st (if scope st =? 0 then next st
                  else {| pc := S (pc st); base := scope st; scope := slot st v;
                          slot := slot st; area := area st |})
| StJmp t n : nth_error code (pc st) = Some (Jmp t) -> find_mark code t = Some n -> step code st (goto st n)
| StTaken t n : nth_error code (pc st) = Some (Branch t) -> find_mark code t = Some n -> step code st (goto st n)
| StNotTaken t : nth_error code (pc st) = Some (Branch t) -> step code st (next st).

(** __kefirrt_generic_prologue, amd64_sysv.s:1169-1176: no scope; the slots are not
    initialised. *)
Definition initial (b : Z) (garbage : nat -> Z) : state :=
  {| pc := 0; base := b; scope := 0; slot := garbage; area := fun _ => None |}.

Inductive steps (code : list ins) (st : state) : state -> Prop :=
| StepsRefl : steps code st st
| StepsStep st1 st2 : steps code st st1 -> step code st1 st2 -> steps code st st2.
