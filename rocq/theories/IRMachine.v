(** The abstract stack machine of the IR, with the meaning each opcode has in the
    AMD64 runtime, source/runtime/amd64_sysv.s.

    A state is a program counter (an index into the function body, see
    source/codegen/amd64/system-v/instr.c: the body is a table of 16-byte
    (handler, argument) records and JMP/BRANCH arguments are
    body + 16 * index), an operand stack of 64-bit slots (top first) and memory.
    Simplifications: the operand stack is kept apart from memory (in the runtime
    it is the processor stack, addressed by rsp), and it is unbounded. *)

From Coq Require Import ZArith Lia Bool List.
From Verif Require Import Bits Memory.
Import ListNotations.
Open Scope Z_scope.

Inductive instr :=
| ONop | OJmp (t : nat) | OBranch (t : nat)
| OPush (v : Z) | OPop | OPick (n : nat) | OXchg (n : nat)
| OAdd | OAdd1 (v : Z) | OSub | OMul | ODiv | OMod | OUDiv | OUMod
| ONeg | ONot | OAnd | OOr | OXor | OShr | OSar | OShl
| OTrunc1 | OExt (bits : Z)
| OEq | OGt | OLt | OAbove | OBelow | OBAnd | OBOr | OBNot
| OOffsetPtr (off : Z) | OElementPtr (size : Z)
| OLoadU (n : nat) | OLoadS (n : nat) | OStore (n : nat)
| OBzero (n : nat) | OBcopy (n : nat)
| OExtU (off width : Z) | OExtS (off width : Z) | OInsBits (off width : Z)
| OGetLocals | OGetGlobal (id : nat)
| ORet.

Definition mstate : Type := (list Z * mem)%type.

Definition bit (b : bool) : Z := if b then 1 else 0.

(** shlx/shrx/sarx use the low 6 bits of the count. *)
Definition shl64 (x c : Z) : Z := u64 (x * 2 ^ (c mod 64)).
Definition shr64 (x c : Z) : Z := x / 2 ^ (c mod 64).
Definition sar64 (x c : Z) : Z := u64 (s64 x / 2 ^ (c mod 64)).

(** idiv with rdx:rax the sign-extended dividend (cqo): #DE on a zero divisor or a
    quotient that does not fit. *)
Definition idiv64 (x y : Z) : option (Z * Z) :=
  let a := s64 x in let b := s64 y in
  if b =? 0 then None
  else let q := Z.quot a b in
       if (- 2 ^ 63 <=? q) && (q <? 2 ^ 63) then Some (u64 q, u64 (Z.rem a b)) else None.

(** div with rdx = 0. *)
Definition udiv64 (x y : Z) : option (Z * Z) :=
  if y =? 0 then None else Some (x / y, x mod y).

(** xchg n: swap the top with the n-th slot. *)
Definition replace_nth (n : nat) (v : Z) (l : list Z) : list Z :=
  firstn n l ++ v :: skipn (S n) l.

Definition xchg (n : nat) (st : list Z) : option (list Z) :=
  match n, st with
  | O, _ :: _ => Some st
  | S k, top :: rest =>
    match nth_error rest k with
    | Some v => Some (v :: replace_nth k top rest)
    | None => None
    end
  | _, [] => None
  end.

(** bcopy copies forwards byte by byte (rep movsb with DF clear). *)
Fixpoint copy_bytes (n : nat) (m : mem) (dst src : Z) : mem :=
  match n with
  | O => m
  | S n => copy_bytes n (upd m (u64 dst) (m (u64 src) mod 256)) (dst + 1) (src + 1)
  end.

(** extubits / extsbits / insertbits, amd64_sysv.s:673-723. *)
Definition extubits (off width v : Z) : Z :=
  Z.land (shr64 v off) (u64 (shl64 1 width - 1)).
Definition extsbits (off width v : Z) : Z :=
  sar64 (shl64 v (u64 (64 - (width + off)))) (u64 (64 - width)).
Definition insertbits (off width field v : Z) : Z :=
  let v := shr64 (shl64 v (u64 (64 - width))) (u64 (64 - width - off)) in
  let mask := shl64 (u64 (shl64 1 width - 1)) off in
  Z.lor (Z.land field (u64 (Z.lnot mask))) v.

(** One instruction other than a jump. *)
Definition exec1 (G : renv) (i : instr) (st : mstate) : option mstate :=
  let (stk, m) := st in
  let un (f : Z -> Z) := match stk with x :: r => Some (f x :: r, m) | _ => None end in
  let bin (f : Z -> Z -> Z) :=
    match stk with y :: x :: r => Some (f x y :: r, m) | _ => None end in
  let bino (f : Z -> Z -> option Z) :=
    match stk with
    | y :: x :: r => match f x y with Some z => Some (z :: r, m) | None => None end
    | _ => None
    end in
  match i with
  | ONop => Some st                                                       (* :184 *)
  | OJmp _ | OBranch _ | ORet => None
  | OPush v => Some (u64 v :: stk, m)                                     (* :201 *)
  | OPop => match stk with _ :: r => Some (r, m) | _ => None end          (* :206 *)
  | OPick n => match nth_error stk n with Some v => Some (v :: stk, m) | None => None end  (* :210 *)
  | OXchg n => match xchg n stk with Some r => Some (r, m) | None => None end              (* :241 *)
  | OAdd => bin (fun x y => u64 (x + y))                                  (* :263 *)
  | OAdd1 v => un (fun x => u64 (x + v))                                  (* :270 *)
  | OSub => bin (fun x y => u64 (x - y))                                  (* :277 *)
  | OMul => bin (fun x y => u64 (x * y))                                  (* :284 *)
  | ODiv => bino (fun x y => option_map fst (idiv64 x y))                 (* :291 *)
  | OMod => bino (fun x y => option_map snd (idiv64 x y))                 (* :299 *)
  | OUDiv => bino (fun x y => option_map fst (udiv64 x y))                (* :307 *)
  | OUMod => bino (fun x y => option_map snd (udiv64 x y))                (* :315 *)
  | ONeg => un (fun x => u64 (- x))                                       (* :323 *)
  | ONot => un (fun x => u64 (Z.lnot x))                                  (* :329 *)
  | OAnd => bin Z.land                                                    (* :335 *)
  | OOr => bin Z.lor                                                      (* :342 *)
  | OXor => bin Z.lxor                                                    (* :349 *)
  | OShr => bin shr64                                                     (* :356 *)
  | OSar => bin sar64                                                     (* :363 *)
  | OShl => bin shl64                                                     (* :370 *)
  | OTrunc1 => un (fun x => bit (negb (x =? 0)))                          (* :377 *)
  | OExt w => un (fun x => u64 (s w x))                                   (* :386-402 *)
  | OEq => bin (fun x y => bit (x =? y))                                  (* :404 *)
  | OGt => bin (fun x y => bit (s64 y <? s64 x))                          (* :414 *)
  | OLt => bin (fun x y => bit (s64 x <? s64 y))                          (* :424 *)
  | OAbove => bin (fun x y => bit (y <? x))                               (* :434 *)
  | OBelow => bin (fun x y => bit (x <? y))                               (* :444 *)
  | OBAnd => bin (fun x y => bit (negb (Z.land x y =? 0)))                (* :454 *)
  | OBOr => bin (fun x y => bit (negb (Z.lor x y =? 0)))                  (* :464 *)
  | OBNot => un (fun x => bit (x =? 0))                                   (* :474 *)
  | OOffsetPtr off => un (fun x => u64 (x + off))                         (* :483 *)
  | OElementPtr sz => bin (fun x y => u64 (x + y * sz))                   (* :489 *)
  | OLoadU n => un (fun a => read m a n)                                  (* :497-579 *)
  | OLoadS n => un (fun a => u64 (s (8 * Z.of_nat n) (read m a n)))       (* :503, :515, :543 *)
  | OStore n =>                                                           (* :587-645 *)
    match stk with v :: a :: r => Some (r, store m a n v) | _ => None end
  | OBzero n =>                                                           (* :653 *)
    match stk with a :: r => Some (r, write m a (repeat 0 n)) | _ => None end
  | OBcopy n =>                                                           (* :666 *)
    match stk with src :: dst :: r => Some (r, copy_bytes n m dst src) | _ => None end
  | OExtU off w => un (extubits off w)                                    (* :673 *)
  | OExtS off w => un (extsbits off w)                                    (* :685 *)
  | OInsBits off w =>                                                     (* :699 *)
    match stk with v :: f :: r => Some (insertbits off w f v :: r, m) | _ => None end
  | OGetLocals => Some (u64 (lbase G) :: stk, m)                          (* :725 *)
  | OGetGlobal id => Some (u64 (gaddr G id) :: stk, m)                    (* push, :201 *)
  end.

Definition config : Type := (nat * list Z * mem)%type.

(** One machine step; [None] when stuck (trap, stack underflow, pc outside the
    code) or at RET, which leaves the function with its value on the stack
    (source/codegen/amd64/system-v/instr.c, epilogue). *)
Definition step (G : renv) (C : list instr) (c : config) : option config :=
  let '(pc, stk, m) := c in
  match nth_error C pc with
  | None => None
  | Some (OJmp t) => Some (t, stk, m)                                     (* :187 *)
  | Some (OBranch t) =>                                                   (* :195 *)
    match stk with
    | v :: r => Some (if v =? 0 then S pc else t, r, m)
    | [] => None
    end
  | Some i => match exec1 G i (stk, m) with Some (stk', m') => Some (S pc, stk', m') | None => None end
  end.

(** [steps n c c']: exactly [n] steps lead from [c] to [c']. *)
Inductive steps (G : renv) (C : list instr) : nat -> config -> config -> Prop :=
| steps_0 : forall c, steps G C 0 c c
| steps_S : forall n c c1 c2, step G C c = Some c1 -> steps G C n c1 c2 -> steps G C (S n) c c2.

Definition star (G : renv) (C : list instr) (c c' : config) : Prop := exists n, steps G C n c c'.

(** Straight-line execution. *)
Fixpoint exec_seq (G : renv) (l : list instr) (st : mstate) : option mstate :=
  match l with
  | [] => Some st
  | i :: l => match exec1 G i st with Some st' => exec_seq G l st' | None => None end
  end.

(** ** Facts *)

Lemma steps_trans : forall G C n1 n2 a b c,
  steps G C n1 a b -> steps G C n2 b c -> steps G C (n1 + n2) a c.
Proof. intros G C n1 n2 a b c H. revert n2 c. induction H; simpl; auto. intros. econstructor; eauto. Qed.

Lemma star_refl : forall G C c, star G C c c.
Proof. intros. exists O. constructor. Qed.

Lemma star_trans : forall G C a b c, star G C a b -> star G C b c -> star G C a c.
Proof. intros G C a b c [n H] [k H']. exists (n + k)%nat. eapply steps_trans; eauto. Qed.

Lemma star_step : forall G C a b c, step G C a = Some b -> star G C b c -> star G C a c.
Proof. intros G C a b c H [n H']. exists (S n). econstructor; eauto. Qed.

Lemma star_one : forall G C a b, step G C a = Some b -> star G C a b.
Proof. intros. eapply star_step; eauto. apply star_refl. Qed.

(** [code_at C pos l]: the instructions [l] sit at position [pos] of [C]. *)
Definition code_at (C : list instr) (pos : nat) (l : list instr) : Prop :=
  exists pre post, C = pre ++ l ++ post /\ length pre = pos.

Lemma code_at_app : forall C pos l1 l2,
  code_at C pos (l1 ++ l2) <-> code_at C pos l1 /\ code_at C (pos + length l1) l2.
Proof.
  intros C pos l1 l2. split.
  - intros (pre & post & -> & <-). split.
    + exists pre, (l2 ++ post). now rewrite <- app_assoc.
    + exists (pre ++ l1), post. rewrite app_length, <- !app_assoc. auto.
  - intros [(pre & post & E & L) (pre2 & post2 & E2 & L2)].
    exists pre, post2. split; [|exact L].
    assert (X : pre2 = pre ++ l1 /\ l2 ++ post2 = post).
    { subst C. subst pos. rewrite app_assoc in E2. symmetry in E2.
      assert (LL : length pre2 = length (pre ++ l1)) by (rewrite app_length; lia).
      clear - E2 LL. revert E2 LL. generalize (pre ++ l1) as p. intros p. revert pre2.
      induction p; destruct pre2; simpl; intros; try discriminate; auto.
      inversion E2. destruct (IHp pre2); auto. now subst. }
    destruct X as [-> X]. rewrite E, <- X, <- app_assoc. reflexivity.
Qed.

Lemma code_at_cons : forall C pos i l,
  code_at C pos (i :: l) <-> nth_error C pos = Some i /\ code_at C (S pos) l.
Proof.
  intros. change (i :: l) with ([i] ++ l). rewrite code_at_app. simpl.
  rewrite Nat.add_1_r. split; intros [H1 H2]; split; auto.
  - destruct H1 as (pre & post & -> & <-). rewrite nth_error_app2, Nat.sub_diag; auto.
  - apply nth_error_split in H1. destruct H1 as (pre & post & -> & L). exists pre, post. auto.
Qed.

Lemma code_at_nil : forall C pos, (pos <= length C)%nat -> code_at C pos [].
Proof.
  intros. exists (firstn pos C), (skipn pos C). rewrite firstn_skipn. split; auto.
  now apply firstn_length_le.
Qed.

Definition is_jump (i : instr) : bool := match i with OJmp _ | OBranch _ => true | _ => false end.

Lemma exec1_not_jump : forall G i st st', exec1 G i st = Some st' -> is_jump i = false.
Proof. intros G [] [stk m] st' H; auto; discriminate. Qed.

Lemma step_exec1 : forall G C pc i stk m stk' m',
  nth_error C pc = Some i -> exec1 G i (stk, m) = Some (stk', m') ->
  step G C (pc, stk, m) = Some (S pc, stk', m').
Proof.
  intros G C pc i stk m stk' m' H E.
  assert (J := exec1_not_jump _ _ _ _ E). unfold step. rewrite H, E.
  destruct i; try reflexivity; discriminate.
Qed.

Lemma seq_star : forall G C l pos stk m stk' m',
  code_at C pos l -> exec_seq G l (stk, m) = Some (stk', m') ->
  star G C (pos, stk, m) ((pos + length l)%nat, stk', m').
Proof.
  intros G C l. induction l as [|i l IH]; intros pos stk m stk' m' HC E; cbn [exec_seq length] in *.
  - inversion E; subst. rewrite Nat.add_0_r. apply star_refl.
  - apply code_at_cons in HC. destruct HC as [N HC].
    destruct (exec1 G i (stk, m)) as [[stk1 m1]|] eqn:X; [|discriminate].
    eapply star_step; [eapply step_exec1; eauto|].
    rewrite Nat.add_succ_r. apply (IH (S pos)); auto.
Qed.

Lemma exec_seq_app : forall G l1 l2 st,
  exec_seq G (l1 ++ l2) st =
  match exec_seq G l1 st with Some st' => exec_seq G l2 st' | None => None end.
Proof.
  induction l1; simpl; intros; auto. destruct (exec1 G a st); auto.
Qed.

(** Determinism. *)
Lemma steps_det : forall G C n a b c, steps G C n a b -> steps G C n a c -> b = c.
Proof.
  intros G C n a b c H. revert c. induction H; intros c' H'; inversion H'; subst; auto.
  rewrite H in H2. inversion H2; subst. auto.
Qed.
