(** Passing arguments to a variadic function and fetching them with va_arg:
    source/codegen/amd64/system-v/abi/{invoke,prologue,vararg}.c,
    source/codegen/amd64/system-v/abi/builtins/vararg.c and
    source/runtime/amd64_sysv.s.

    The generated instructions are modelled by what they do to registers and memory.
    A 64-bit word is the list of its eight bytes, least significant first.  Addresses
    are integers (no wrap-around at 2^64). *)

From Coq Require Import ZArith Lia Bool List ZifyBool ZifyNat.
From Verif Require Import IrType LayoutModel ClassModel.
Import ListNotations.
Open Scope Z_scope.

Definition mem := Z -> Z.
Definition load (m : mem) (a : Z) (n : nat) : list Z := map (fun i => m (a + Z.of_nat i)) (seq 0 n).
Definition store (m : mem) (a : Z) (l : list Z) : mem :=
  fun x => if (a <=? x) && (x <? a + Z.of_nat (length l)) then nth (Z.to_nat (x - a)) l 0 else m x.

(** Registers that carry arguments: rdi rsi rdx rcx r8 r9 (eight bytes each) and
    xmm0-xmm7 (sixteen bytes each). *)
Record machine := { gpr : nat -> list Z; xmm : nat -> list Z; mm : mem }.

Definition upd {A} (f : nat -> A) (r : nat) (x : A) : nat -> A := fun i => if Nat.eqb i r then x else f i.
Definition set_gpr (c : machine) (r : nat) (w : list Z) : machine :=
  {| gpr := upd (gpr c) r w; xmm := xmm c; mm := mm c |}.
(** pinsrq xmm, w, 0 replaces the low quadword. *)
Definition set_xmm (c : machine) (r : nat) (w : list Z) : machine :=
  {| gpr := gpr c; xmm := upd (xmm c) r (w ++ skipn 8 (xmm c r)); mm := mm c |}.
Definition set_mem (c : machine) (m : mem) : machine := {| gpr := gpr c; xmm := xmm c; mm := m |}.

(** ** The caller *)

(** An argument on the operand stack: one word, the two words of a long double, or the
    address of an aggregate. *)
Inductive arg := AWord (w : list Z) | ALong (lo hi : list Z) | AAddr (a : Z).

(** register_aggregate_argument, invoke.c:164-193. *)
Fixpoint place_qwords (c : machine) (src : Z) (l : list (klass * nat)) (i : Z) : option machine :=
  match l with
  | [] => Some c
  | (Integer, r) :: l => place_qwords (set_gpr c r (load (mm c) (src + i * 8) 8)) src l (i + 1)
  | (Sse, r) :: l => place_qwords (set_xmm c r (load (mm c) (src + i * 8) 8)) src l (i + 1)
  | _ => None
  end.

(** memory_aggregate_argument, invoke.c:130-162: rdi, rsi and rcx are pushed, the bytes
    copied by rep movsb and the registers popped.  The copy is taken to read its source
    as it was before (source and destination do not overlap). *)
Definition place_bytes (rsp : Z) (c : machine) (o z src : Z) : machine :=
  if 0 <? z then
    let m := store (store (store (mm c) (rsp - 8) (gpr c 0)) (rsp - 16) (gpr c 1)) (rsp - 24) (gpr c 3) in
    set_mem c (store m (rsp + o) (load m src (Z.to_nat z)))
  else c.

(** scalar_argument invoke.c:51-94, long_double_argument :96-128, aggregate_argument
    :195-213, builtin_argument :224-240 with vararg_store_function_argument,
    builtins/vararg.c:124-151. *)
Definition place (rsp : Z) (c : machine) (x : ploc) (a : arg) : option machine :=
  match x, a with
  | LInt r, AWord w => Some (set_gpr c r w)
  | LSse r, AWord w => Some (set_xmm c r w)
  | LStack o _, AWord w => Some (set_mem c (store (mm c) (rsp + o) w))
  | LStack o _, ALong lo hi => Some (set_mem c (store (store (mm c) (rsp + o) lo) (rsp + o + 8) hi))
  | LStack o z, AAddr src => Some (place_bytes rsp c o z src)
  | LQwords l, AAddr src => place_qwords c src l 0
  | _, _ => None
  end.

Fixpoint place_all (rsp : Z) (c : machine) (xs : list ploc) (l : list arg) : option machine :=
  match xs, l with
  | [], [] => Some c
  | x :: xs, a :: l => match place rsp c x a with Some c => place_all rsp c xs l | None => None end
  | _, _ => None
  end.

(** function_alloc_params, function.c:198-220: the address of a result in memory takes
    the first integer register. *)
Definition entry_state (implicit : bool) : pstate :=
  {| p_int := if implicit then 1 else 0; p_sse := 0; p_stack := 0 |}.

(** invoke_prologue, invoke.c:242-280, for a variadic declaration; [result] is the
    address of the result if it is in memory.  Yields the machine at the call and the
    number left in al. *)
Definition invoke (result : option (list Z)) (rsp : Z) (c : machine) (ts : list tree) (l : list arg)
  : option (machine * Z) :=
  match allocate_all (entry_state (match result with Some _ => true | None => false end)) ts with
  | None => None
  | Some (s, xs) =>
    match place_all rsp c xs l with
    | None => None
    | Some c => Some (match result with Some w => set_gpr c 0 w | None => c end, Z.of_nat (p_sse s))
    end
  end.

(** ** The callee *)

(** mask_argument, vararg.c:133-195 and prologue.c:53-115, without bit-fields. *)
Definition mask_size (c : tcode) : option nat :=
  match c with
  | CBool | CChar | CInt8 => Some 1%nat
  | CShort | CInt16 => Some 2%nat
  | CInt | CFloat32 | CInt32 => Some 4%nat
  | CInt64 | CFloat64 | CLong | CWord => Some 8%nat
  | _ => None
  end.
Definition mask (c : tcode) (w : list Z) : option (list Z) :=
  match mask_size c with Some n => Some (firstn n w ++ repeat 0 (8 - n)) | None => None end.

(** al after load_arguments, prologue.c:279-320: masking a scalar that was passed on the
    stack loads 0xff, 0xffff or -1 into eax (:117-138 and :140-164). *)
Fixpoint callee_al (ts : list tree) (xs : list ploc) (al : Z) : Z :=
  match ts, xs with
  | TLeaf c _ _ :: ts, LStack _ _ :: xs =>
    callee_al ts xs (match mask_size c with Some 8%nat | None => al | Some _ => 255 end)
  | _ :: ts, _ :: xs => callee_al ts xs al
  | _, _ => al
  end.

(** __kefirrt_save_registers, amd64_sysv.s:1190-1208, called from prologue.c:322-331. *)
Definition save_registers (al : Z) (c : machine) (area : Z) : mem :=
  let m := if al =? 0 then mm c
           else fold_left (fun m r => store m (area + 48 + 16 * Z.of_nat r) (xmm c r)) (seq 0 8) (mm c) in
  fold_left (fun m r => store m (area + 8 * Z.of_nat r) (gpr c r)) (seq 0 6) m.

(** The va_list object. *)
Record va_list := { gp : Z; fp : Z; overflow : Z; save : Z }.

(** vararg_start, vararg.c:30-79; [base] is rbp + 16. *)
Definition vararg_start (s : pstate) (base area : Z) : va_list :=
  {| gp := 8 * Z.of_nat (p_int s); fp := 8 * 6 + 2 * 8 * Z.of_nat (p_sse s);
     overflow := base + p_stack s; save := area |}.

(** __kefirrt_load_integer_vararg, amd64_sysv.s:1210-1224. *)
Definition load_integer_vararg (m : mem) (v : va_list) : va_list * list Z :=
  if 48 <=? gp v
  then ({| gp := gp v; fp := fp v; overflow := overflow v + 8; save := save v |}, load m (overflow v) 8)
  else ({| gp := gp v + 8; fp := fp v; overflow := overflow v; save := save v |}, load m (save v + gp v) 8).

(** __kefirrt_load_sse_vararg, amd64_sysv.s:1226-1240, and the move from xmm0. *)
Definition load_sse_vararg (m : mem) (v : va_list) : va_list * list Z :=
  if 176 <=? fp v
  then ({| gp := gp v; fp := fp v; overflow := overflow v + 8; save := save v |}, load m (overflow v) 8)
  else ({| gp := gp v; fp := fp v + 16; overflow := overflow v; save := save v |}, load m (save v + fp v) 8).

(** What a fetch leaves on the operand stack: the bytes of a scalar, or the address of
    an aggregate. *)
Inductive fetched := FWords (w : list Z) | FAt (a : Z).

(** vararg_load_memory_aggregate, vararg.c:352-380. *)
Definition load_memory_aggregate (v : va_list) (size al : Z) : va_list * fetched :=
  let a := if 8 <? al then Z.land (overflow v + (al - 1)) (- al) else overflow v in
  ({| gp := gp v; fp := fp v; overflow := a + pad_aligned size 8; save := save v |}, FAt a).

(** register_aggregate_requirements, vararg.c:410-432. *)
Fixpoint aggregate_requirements (l : list klass) : option (nat * nat) :=
  match l with
  | [] => Some (0%nat, 0%nat)
  | Integer :: l => match aggregate_requirements l with Some (i, s) => Some (S i, s) | None => None end
  | Sse :: l => match aggregate_requirements l with Some (i, s) => Some (i, S s) | None => None end
  | _ => None
  end.

(** The copy of the eightbytes to the temporary, vararg.c:537-573; [ip] and [sp] are
    rdx and rcx advanced past the eightbytes copied. *)
Fixpoint copy_qwords (m : mem) (dst ip sp : Z) (l : list klass) (i : Z) : mem :=
  match l with
  | [] => m
  | Integer :: l => copy_qwords (store m (dst + i * 8) (load m ip 8)) dst (ip + 8) sp l (i + 1)
  | Sse :: l => copy_qwords (store m (dst + i * 8) (load m sp 8)) dst ip (sp + 16) l (i + 1)
  | _ :: l => copy_qwords m dst ip sp l (i + 1)
  end.

(** vararg_get_register_aggregate, vararg.c:434-606; [tmp] is r14 + 16, the temporary
    of the frame. *)
Definition load_register_aggregate (m : mem) (tmp : Z) (v : va_list) (l : list klass) (size al : Z)
  : option (va_list * mem * fetched) :=
  match aggregate_requirements l with
  | None => None
  | Some (ints, sses) =>
    if (48 <? gp v + 8 * Z.of_nat ints) || (176 <? fp v + 16 * Z.of_nat sses)
    then let (v, f) := load_memory_aggregate v size al in Some (v, m, f)
    else Some ({| gp := gp v + 8 * Z.of_nat ints; fp := fp v + 16 * Z.of_nat sses;
                  overflow := overflow v; save := save v |},
               copy_qwords m tmp (save v + gp v) (save v + fp v) l 0, FAt tmp)
  end.

(** The visitors of kefir_codegen_amd64_sysv_vararg_instruction: vararg_visit_integer
    vararg.c:230-255 (vararg_get_int :197-228), vararg_visit_sse :300-327
    (vararg_get_sse :257-298), long double :329-341 with
    __kefirrt_load_long_double_vararg amd64_sysv.s:1242-1251, vararg_visit_aggregate
    :641-689, built-in types builtins/vararg.c (fetched as integers, unmasked).  An
    aggregate is classified and allocated on its own to see whether it is in memory. *)
Definition fetch (m : mem) (tmp : Z) (v : va_list) (T : tree) : option (va_list * mem * fetched) :=
  match T with
  | TLeaf c _ p =>
    match c with
    | CFloat32 | CFloat64 =>
      let (v, w) := load_sse_vararg m v in
      match mask c w with Some w => Some (v, m, FWords w) | None => None end
    | CLongDouble =>
      Some ({| gp := gp v; fp := fp v; overflow := overflow v + 16; save := save v |}, m,
            FWords (load m (overflow v) 8 ++ load m (overflow v + 8) 8))
    | CMemory =>
      if 0 <? l_size (own T)
      then let (v, f) := load_memory_aggregate v (l_size (own T)) (lalign T) in Some (v, m, f)
      else None
    | CBuiltin => if p =? 0 then let (v, w) := load_integer_vararg m v in Some (v, m, FWords w) else None
    | CPad | CStruct | CUnion | CArray | CBits => None
    | _ =>
      let (v, w) := load_integer_vararg m v in
      match mask c w with Some w => Some (v, m, FWords w) | None => None end
    end
  | _ =>
    match classify T with
    | Some (PAgg k r size al) =>
      match allocate (entry_state false) (PAgg k r size al) with
      | Some (_, LQwords q) => load_register_aggregate m tmp v (map fst q) size al
      | Some (_, LStack _ _) => let (v, f) := load_memory_aggregate v size al in Some (v, m, f)
      | _ => None
      end
    | _ => None
    end
  end.
