(** Classification of parameters and their assignment to registers and stack: a model
    of source/codegen/amd64/system-v/abi/qwords.c and registers.c.

    Types are the trees of IrType.v; that the visitor of source/ir/type.c meets the
    nodes of the flat type in the order of the tree is proved there (list_nodes_ok).
    The layout vector is the one computed by data_layout.c (LayoutModel.v): the entry
    of a node has the size [l_size (own T)] and the alignment [lalign T].  Not
    modelled: the per-member references into the eightbytes (container_reference,
    used by the code that moves bytes), the slots of the allocation vector, memory
    allocation failures. *)

From Coq Require Import ZArith Lia Bool List.
From Verif Require Import IrType LayoutModel.
Import ListNotations.
Open Scope Z_scope.

(** kefir_amd64_sysv_data_class_t, headers/kefir/codegen/amd64/system-v/abi/qwords.h. *)
Inductive klass := NoClass | Integer | Sse | SseUp | X87 | X87Up | ComplexX87 | Memory.

Definition klass_eqb (a b : klass) : bool :=
  match a, b with
  | NoClass, NoClass | Integer, Integer | Sse, Sse | SseUp, SseUp | X87, X87 | X87Up, X87Up
  | ComplexX87, ComplexX87 | Memory, Memory => true
  | _, _ => false
  end.

(** struct kefir_amd64_sysv_abi_qword(s): class and bytes already used of each
    eightbyte, index of the current one. *)
Record qw := { qc : klass; qo : Z }.
Record qs := { qv : list qw; qcur : nat }.

(** kefir_amd64_sysv_abi_qwords_alloc, qwords.c:53-70. *)
Definition qwords_alloc (n : nat) : qs := {| qv := repeat {| qc := NoClass; qo := 0 |} n; qcur := 0 |}.

(** derive_dataclass, qwords.c:77-101. *)
Definition derive (a b : klass) : klass :=
  let any k := klass_eqb a k || klass_eqb b k in
  if klass_eqb a b then a
  else if klass_eqb a NoClass then b
  else if klass_eqb b NoClass then a
  else if any Memory then Memory
  else if any Integer then Integer
  else if any X87 || any X87Up || any ComplexX87 then Memory
  else Sse.

Fixpoint set_nth {A} (l : list A) (i : nat) (x : A) : list A :=
  match l, i with
  | [], _ => []
  | _ :: l, O => x :: l
  | y :: l, S i => y :: set_nth l i x
  end.

(** next_qword, qwords.c:103-116.  [None] stands for the dereference of the null
    pointer that kefir_vector_at returns past the end, and for the null result. *)
Definition next_qword (s : qs) (alignment : Z) : option qs :=
  match nth_error (qv s) (qcur s) with
  | None => None
  | Some q =>
    let unalign := qo q mod alignment in
    let pad := if 0 <? unalign then alignment - unalign else 0 in
    if (alignment =? 0) || (8 <=? qo q + pad) then
      match nth_error (qv s) (S (qcur s)) with
      | None => None
      | Some _ => Some {| qv := qv s; qcur := S (qcur s) |}
      end
    else Some {| qv := set_nth (qv s) (qcur s) {| qc := qc q; qo := qo q + pad |}; qcur := qcur s |}
  end.

(** The loop of kefir_amd64_sysv_abi_qwords_next, qwords.c:118-141, and of
    .._next_bitfield :143-167 (the same loop with alignment 1).  Every round uses at
    least one byte, so [fuel] = size suffices. *)
Fixpoint next_loop (fuel : nat) (s : qs) (c : klass) (size alignment : Z) : option qs :=
  if size <=? 0 then Some s else
  match fuel with
  | O => None
  | S fuel =>
    match next_qword s alignment with
    | None => None
    | Some s =>
      match nth_error (qv s) (qcur s) with
      | None => None
      | Some q =>
        let chunk := Z.min (8 - qo q) size in
        next_loop fuel
          {| qv := set_nth (qv s) (qcur s) {| qc := derive (qc q) c; qo := qo q + chunk |};
             qcur := qcur s |} c (size - chunk) 1
      end
    end
  end.
Definition qwords_next (s : qs) (c : klass) (size alignment : Z) : option qs :=
  if 0 <? size then next_loop (Z.to_nat size) s c size alignment else None.
Definition qwords_next_bitfield (s : qs) (c : klass) (width : Z) : option qs :=
  if 0 <? width then
    let size := width / 8 + (if width mod 8 =? 0 then 0 else 1) in
    next_loop (Z.to_nat size) s c size 1
  else None.

(** Positions: qwords.c:185-224. *)
Definition save_position (s : qs) : option (nat * Z) :=
  match nth_error (qv s) (qcur s) with Some q => Some (qcur s, qo q) | None => None end.
Fixpoint reset_offsets (l : list qw) : list qw :=
  match l with [] => [] | q :: l => {| qc := qc q; qo := 0 |} :: reset_offsets l end.
Fixpoint restore_offsets (l : list qw) (i : nat) (o : Z) : list qw :=
  match l, i with
  | [], _ => []
  | q :: l, O => {| qc := qc q; qo := o |} :: reset_offsets l
  | q :: l, S i => q :: restore_offsets l i o
  end.
Definition restore_position (s : qs) (p : nat * Z) : option qs :=
  let (i, o) := p in
  if (((o <=? 8) && (i <? length (qv s))%nat) || ((o =? 0) && (i =? length (qv s))%nat)) then
    Some {| qv := restore_offsets (qv s) i o; qcur := i |}
  else None.
Definition max_position (a b : nat * Z) : nat * Z :=
  if (snd b <=? snd a) && (fst a =? fst b)%nat || (fst b <? fst a)%nat then a else b.

(** Layout entry of a node that is already placed, data_layout.c:94-114. *)
Definition lalign (T : tree) : Z :=
  if talign (root T) =? 0 then l_align (own T) else talign (root T).

Definition laligned (T : tree) : bool :=
  if talign (root T) =? 0 then l_aligned (own T) else l_align (own T) <=? talign (root T).

(** The nested visitor: assign_nested_scalar, _long_double, _memory, _builtin
    (registers.c:151-213, 291-308, builtins/vararg.c:40-55). *)
Definition walk_leaf (c : tcode) (al param : Z) (s : qs) : option qs :=
  let T := TLeaf c al param in
  match c with
  | CFloat32 | CFloat64 => qwords_next s Sse (l_size (own T)) (lalign T)
  | CBits => qwords_next_bitfield s Integer param
  | CLongDouble =>
    match qwords_next s X87 8 (lalign T) with
    | Some s => qwords_next s X87Up 8 (lalign T)
    | None => None
    end
  | CPad | CMemory => qwords_next s Memory (l_size (own T)) (lalign T)
  | CBuiltin => if param =? 0 then qwords_next s Integer 8 8 else None
  | CStruct | CUnion | CArray => None
  | _ => qwords_next s Integer (l_size (own T)) (lalign T)
  end.

Section WALK.
  Variable walk : tree -> qs -> option qs.

  (** assign_nested_struct, registers.c:215-230 (members one after the other, no
      treatment of alignment or trailing padding of the structure). *)
  Fixpoint walk_seq (ms : list tree) (s : qs) : option qs :=
    match ms with
    | [] => Some s
    | m :: ms => match walk m s with Some s => walk_seq ms s | None => None end
    end.

  (** union_reset_hook and assign_nested_union, registers.c:234-280. *)
  Fixpoint walk_union (ms : list tree) (init mx : nat * Z) (s : qs) : option qs :=
    match ms with
    | [] => restore_position s mx
    | m :: ms =>
      match walk m s with
      | None => None
      | Some s =>
        match save_position s with
        | None => None
        | Some cur =>
          match restore_position s init with
          | None => None
          | Some s => walk_union ms init (max_position mx cur) s
          end
        end
      end
    end.

End WALK.

(** The loop of assign_nested_array, registers.c:282-298. *)
Fixpoint walk_times (f : qs -> option qs) (n : nat) (s : qs) : option qs :=
  match n with
  | O => Some s
  | S n => match f s with Some s => walk_times f n s | None => None end
  end.

Fixpoint walk (T : tree) (s : qs) {struct T} : option qs :=
  match T with
  | TLeaf c al p => walk_leaf c al p s
  | TAgg false _ ms => walk_seq walk ms s
  | TAgg true _ ms =>
    match save_position s with
    | Some p => walk_union walk ms p p s
    | None => None
    end
  | TArr _ n e => walk_times (walk e) (Z.to_nat n) s
  end.

(** Result of the classification of an aggregate. *)
Inductive aclass := InMemory | InQwords (l : list klass).

(** aggregate_postmerger, registers.c:318-350. *)
Fixpoint postmerge_loop (l : list klass) (i : nat) (prev_x87 : option nat) (ssecount : nat)
    (nonsseup : bool) (acc : list klass) : option (list klass * bool) :=
  match l with
  | [] => Some (rev acc, nonsseup)
  | k :: l =>
    let nonsseup := nonsseup || ((0 <? i)%nat && negb (klass_eqb k SseUp)) in
    match k with
    | Memory => None
    | X87 => postmerge_loop l (S i) (Some i) ssecount nonsseup (k :: acc)
    | X87Up =>
      if match i, prev_x87 with S j, Some j' => Nat.eqb j j' | _, _ => false end
      then postmerge_loop l (S i) prev_x87 ssecount nonsseup (k :: acc)
      else None
    | Sse => postmerge_loop l (S i) prev_x87 (S ssecount) nonsseup (k :: acc)
    | SseUp =>
      match ssecount with
      | O => postmerge_loop l (S i) prev_x87 ssecount nonsseup (Sse :: acc)
      | S n => postmerge_loop l (S i) prev_x87 n nonsseup (k :: acc)
      end
    | _ => postmerge_loop l (S i) prev_x87 ssecount nonsseup (k :: acc)
    end
  end.
Definition postmerger (l : list klass) : aclass :=
  match postmerge_loop l 0 None 0 false [] with
  | None => InMemory
  | Some (l', nonsseup) =>
    if (2 <? length l')%nat && (negb (klass_eqb (hd NoClass l') Sse) || nonsseup)
    then InMemory else InQwords l'
  end.

(** immediate_struct_unwrap registers.c:365-395, immediate_array_unwrap :462-490,
    immediate_union_unwrap :512-548, and the tests before them in
    assign_immediate_struct :441-461, _array :492-510, _union :550-568. *)
Definition qword_count (size : Z) : Z := size / 8 + (if size mod 8 =? 0 then 0 else 1).
Definition classify_agg (T : tree) : option aclass :=
  let d := own T in
  if (64 <? l_size d) || negb (laligned T) then Some InMemory
  else
    match walk T (qwords_alloc (Z.to_nat (qword_count (l_size d)))) with
    | Some s => Some (postmerger (map qc (qv s)))
    | None => None
    end.

(** struct kefir_amd64_sysv_parameter_location_requirements. *)
Record req := { r_int : nat; r_sse : nat; r_sseup : nat; r_msize : Z; r_malign : Z }.
Definition req0 : req := {| r_int := 0; r_sse := 0; r_sseup := 0; r_msize := 0; r_malign := 0 |}.

(** calculate_qword_requirements, registers.c:397-440. *)
Fixpoint qword_requirements (l : list klass) (r : req) : option req :=
  match l with
  | [] => Some r
  | Integer :: l => qword_requirements l {| r_int := S (r_int r); r_sse := r_sse r; r_sseup := r_sseup r;
                                            r_msize := r_msize r; r_malign := r_malign r |}
  | Sse :: l => qword_requirements l {| r_int := r_int r; r_sse := S (r_sse r); r_sseup := r_sseup r;
                                        r_msize := r_msize r; r_malign := r_malign r |}
  | SseUp :: l => qword_requirements l {| r_int := r_int r; r_sse := r_sse r; r_sseup := S (r_sseup r);
                                          r_msize := r_msize r; r_malign := r_malign r |}
  | NoClass :: l => qword_requirements l r
  | X87 :: X87Up :: l => qword_requirements l {| r_int := r_int r; r_sse := r_sse r; r_sseup := r_sseup r;
                                                 r_msize := r_msize r + 16; r_malign := Z.max (r_malign r) 16 |}
  | _ => None
  end.

(** What kefir_amd64_sysv_parameter_classify leaves in the entry of a parameter. *)
Inductive pclass :=
| PInt                                   (* registers.c:64-80; va_list: vararg.c:57-67 *)
| PSse                                   (* :82-95 *)
| PLongDouble                            (* :97-112 *)
| PMem (size al : Z)                     (* :114-126 *)
| PSkip                                  (* :128-134 *)
| PAgg (k : aclass) (r : req) (size al : Z).

Definition classify (T : tree) : option pclass :=
  match T with
  | TLeaf c _ p =>
    match c with
    | CFloat32 | CFloat64 => Some PSse
    | CLongDouble => Some PLongDouble
    | CMemory => Some (PMem (l_size (own T)) (lalign T))
    | CPad => Some PSkip
    | CBuiltin => if p =? 0 then Some PInt else None
    | CStruct | CUnion | CArray => None
    | _ => Some PInt
    end
  | _ =>
    match classify_agg T with
    | None => None
    | Some InMemory =>
      Some (PAgg InMemory {| r_int := 0; r_sse := 0; r_sseup := 0;
                             r_msize := l_size (own T); r_malign := lalign T |}
                 (l_size (own T)) (lalign T))
    | Some (InQwords l) =>
      match qword_requirements l req0 with
      | Some r => Some (PAgg (InQwords l) r (l_size (own T)) (lalign T))
      | None => None
      end
    end
  end.

(** ** Assignment *)

(** struct kefir_amd64_sysv_parameter_location as running state: next integer and
    SSE register, stack offset. *)
Record pstate := { p_int : nat; p_sse : nat; p_stack : Z }.

(** Where one parameter goes. *)
Inductive ploc :=
| LInt (r : nat)
| LSse (r : nat)
| LQwords (l : list (klass * nat))       (* register of each eightbyte *)
| LStack (off size : Z)
| LNone.

(** integer_allocate registers.c:645-668 (also for va_list, vararg.c:69-91),
    sse_allocate :670-693, long_double_allocate :695-712, memory_allocate :723-742. *)
Definition stack_allocate (s : pstate) (al size : Z) : pstate * ploc :=
  let o := pad_aligned (p_stack s) al in
  ({| p_int := p_int s; p_sse := p_sse s; p_stack := o + size |}, LStack o size).

Definition with_int (s : pstate) (n : nat) : pstate :=
  {| p_int := p_int s + n; p_sse := p_sse s; p_stack := p_stack s |}.
Definition with_sse (s : pstate) (n : nat) : pstate :=
  {| p_int := p_int s; p_sse := p_sse s + n; p_stack := p_stack s |}.

(** The loop over the eightbytes, registers.c:781-801. *)
Fixpoint assign_qwords (l : list klass) (i s : nat) : option (list (klass * nat)) :=
  match l with
  | [] => Some []
  | Integer :: l => match assign_qwords l (S i) s with Some r => Some ((Integer, i) :: r) | None => None end
  | Sse :: l => match assign_qwords l i (S s) with Some r => Some ((Sse, s) :: r) | None => None end
  | SseUp :: l => match assign_qwords l i s with Some r => Some ((SseUp, s) :: r) | None => None end
  | _ => None
  end.

(** kefir_amd64_sysv_parameter_allocate for one parameter; aggregates:
    aggregate_register_allocate :744-751, aggregate_allocate :753-812. *)
Definition allocate (s : pstate) (k : pclass) : option (pstate * ploc) :=
  match k with
  | PInt => if (p_int s + 1 <=? 6)%nat then Some (with_int s 1, LInt (p_int s))
            else Some (stack_allocate s 8 8)
  | PSse => if (p_sse s + 1 <=? 8)%nat then Some (with_sse s 1, LSse (p_sse s))
            else Some (stack_allocate s 8 8)
  | PLongDouble => Some (stack_allocate s 16 16)
  | PMem size al => if 0 <? size then Some (stack_allocate s (Z.max al 8) size) else None
  | PSkip => Some (s, LNone)
  | PAgg (InQwords l) r size al =>
    if (p_int s + r_int r <=? 6)%nat && (p_sse s + r_sse r <=? 8)%nat && (r_msize r =? 0) then
      match assign_qwords l (p_int s) (p_sse s) with
      | Some q => Some (with_sse (with_int s (r_int r)) (r_sse r), LQwords q)
      | None => None
      end
    else Some (stack_allocate s (Z.max al 8) size)
  | PAgg InMemory r size al => Some (stack_allocate s (Z.max al 8) size)
  end.

Fixpoint allocate_all (s : pstate) (ts : list tree) : option (pstate * list ploc) :=
  match ts with
  | [] => Some (s, [])
  | T :: ts =>
    match classify T with
    | None => None
    | Some k =>
      match allocate s k with
      | None => None
      | Some (s, x) =>
        match allocate_all s ts with
        | Some (s, xs) => Some (s, x :: xs)
        | None => None
        end
      end
    end
  end.
