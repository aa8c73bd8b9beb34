(** Model of flow control points, source/ast-translator/flow_control.c:26-160: jumps to a
    point that has no address yet are recorded as dependants and patched when the
    point is resolved.

    Simplifications: memory allocation always succeeds; points are named by numbers
    instead of addresses; the blocks of the module are named by numbers. *)

From Coq Require Import ZArith Bool List Lia.
Import ListNotations.
Open Scope Z_scope.

Section Flow.

(** struct kefir_irinstr, headers/kefir/ir/instr.h: an opcode and a 64-bit argument.
    Only the three opcodes patch_command knows are distinguished; [X] stands for all
    others. *)
Variable X : Type.
Inductive opcode := JMP | BRANCH | PUSHLABEL | OTHER (x : X).
Record instr := { op : opcode; arg : Z }.

Definition patchable (o : opcode) : bool :=
  match o with JMP | BRANCH | PUSHLABEL => true | OTHER _ => false end.

(** headers/kefir/ast-translator/flow_control.h:29-36: the dependants (block and index),
    or the address once resolved. *)
Inductive point := Pending (deps : list (nat * nat)) | Resolved (address : Z).

Inductive error := OutOfBounds | InvalidChange.
Inductive result (A : Type) := Ok (a : A) | Err (e : error).
Arguments Ok {A}. Arguments Err {A}.

Record state := { blocks : nat -> list instr; points : nat -> point }.

Definition upd {A} (f : nat -> A) (k : nat) (v : A) (n : nat) : A := if Nat.eqb n k then v else f n.

Fixpoint set_nth {A} (l : list A) (i : nat) (v : A) : list A :=
  match l, i with
  | [], _ => []
  | _ :: r, O => v :: r
  | x :: r, S i => x :: set_nth r i v
  end.

(** patch_command, flow_control.c:90-103 *)
Definition patch_command (B : nat -> list instr) (d : nat * nat) (value : Z) : result (nat -> list instr) :=
  let (b, i) := d in
  match nth_error (B b) i with
  | None => Err OutOfBounds
  | Some x => if patchable (op x) then Ok (upd B b (set_nth (B b) i {| op := op x; arg := value |}))
              else Err InvalidChange
  end.

(** kefir_irbuilder_block_append*, source/ir/builder.c:64-121 *)
Definition append (st : state) (b : nat) (x : instr) : state :=
  {| blocks := upd (blocks st) b (blocks st b ++ [x]); points := points st |}.

(** kefir_ast_translator_flow_control_point_reference, flow_control.c:105-133 *)
Definition reference (st : state) (p b i : nat) : result state :=
  if Nat.ltb i (length (blocks st b)) then
    match points st p with
    | Resolved a =>
      match patch_command (blocks st) (b, i) a with
      | Ok B => Ok {| blocks := B; points := points st |}
      | Err e => Err e
      end
    | Pending deps => Ok {| blocks := blocks st; points := upd (points st) p (Pending (deps ++ [(b, i)])) |}
    end
  else Err OutOfBounds.

(** the loop of flow_control.c:144-148 *)
Fixpoint patch_all (B : nat -> list instr) (deps : list (nat * nat)) (value : Z) : result (nat -> list instr) :=
  match deps with
  | [] => Ok B
  | d :: r => match patch_command B d value with Ok B' => patch_all B' r value | Err e => Err e end
  end.

(** kefir_ast_translator_flow_control_point_resolve, flow_control.c:135-154 *)
Definition resolve (st : state) (p : nat) (value : Z) : result state :=
  match points st p with
  | Resolved _ => Err InvalidChange
  | Pending deps =>
    match patch_all (blocks st) deps value with
    | Ok B => Ok {| blocks := B; points := upd (points st) p (Resolved value) |}
    | Err e => Err e
    end
  end.

(** The calls a translation makes, in order. *)
Inductive action :=
| Append (b : nat) (x : instr)
| Reference (p b i : nat)
| Resolve (p : nat) (value : Z).

Definition act (st : state) (a : action) : result state :=
  match a with
  | Append b x => Ok (append st b x)
  | Reference p b i => reference st p b i
  | Resolve p v => resolve st p v
  end.

Fixpoint run (st : state) (l : list action) : result state :=
  match l with
  | [] => Ok st
  | a :: r => match act st a with Ok st' => run st' r | Err e => Err e end
  end.

(** kefir_ast_translator_flow_control_point_init, flow_control.c:57-88 *)
Definition init : state := {| blocks := fun _ => []; points := fun _ => Pending [] |}.

End Flow.

Arguments JMP {X}. Arguments BRANCH {X}. Arguments PUSHLABEL {X}. Arguments OTHER {X}.
Arguments op {X}. Arguments arg {X}. Arguments Build_instr {X}. Arguments patchable {X}.
Arguments Ok {A}. Arguments Err {A}.
Arguments blocks {X}. Arguments points {X}. Arguments patch_command {X}. Arguments patch_all {X}.
Arguments append {X}. Arguments reference {X}. Arguments resolve {X}.
Arguments Append {X}. Arguments Reference {X}. Arguments Resolve {X}.
Arguments act {X}. Arguments run {X}. Arguments init {X}.
