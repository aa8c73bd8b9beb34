(** C55: the opcodes alloca and popscope move the operand stack, which lies below the
    storage of the arrays, and change neither operands nor other storage.

    Model of source/runtime/amd64_sysv.s:1097-1152. Memory holds bytes; addresses do not
    wrap around; the operand stack is between rsp and the base, [r14 - 8]. *)

From Coq Require Import ZArith Bool List Lia.
From Verif Require Import VlaModel PropVla.
Open Scope Z_scope.

Definition memory := Z -> Z.
Definition put (m : memory) (a v : Z) : memory := fun x => if x =? a then v else m x.

(** rep movsb with the direction flag clear and set: rcx, rsi and rdi *)
Fixpoint movs_up (n : nat) (m : memory) (src dst : Z) : memory :=
  match n with O => m | S n => movs_up n (put m dst (m src)) (src + 1) (dst + 1) end.
Fixpoint movs_down (n : nat) (m : memory) (src dst : Z) : memory :=
  match n with O => m | S n => movs_down n (put m dst (m src)) (src - 1) (dst - 1) end.

(** a quadword, little endian *)
Definition byte (v i : Z) : Z := v / 256 ^ i mod 256.
Definition push_word (m : memory) (rsp v : Z) : memory :=
  fun x => if (rsp - 8 <=? x) && (x <? rsp) then byte v (x - (rsp - 8)) else m x.
Definition word_at (m : memory) (a : Z) : Z :=
  m a + 256 * (m (a + 1) + 256 * (m (a + 2) + 256 * (m (a + 3) + 256 * (m (a + 4)
  + 256 * (m (a + 5) + 256 * (m (a + 6) + 256 * m (a + 7))))))).

Record cpu := { rsp : Z; base : Z; scope : Z; mem : memory }.

(** define_opcode alloca, 1097-1125: alignment and size are popped; [arg] is the argument
    of the instruction. *)
Definition op_alloca (arg : Z) (c : cpu) : cpu :=
  let align := word_at (mem c) (rsp c) in
  let size := word_at (mem c) (rsp c + 8) in
  let rsp1 := rsp c + 16 in
  let rax := alloca_address (base c) size align in
  let count := base c - rsp1 in
  let rdi := rax - count in
  let m := movs_up (Z.to_nat count) (mem c) rsp1 rdi in
  {| rsp := rdi - 8; base := rax; scope := if arg =? 0 then scope c else 0; mem := push_word m rdi rax |}.

(** define_opcode pushscope, 1127-1132 *)
Definition op_pushscope (c : cpu) : cpu :=
  {| rsp := rsp c - 8; base := base c; scope := base c; mem := push_word (mem c) (rsp c) (scope c) |}.

(** define_opcode popscope, 1134-1152 *)
Definition op_popscope (c : cpu) : cpu :=
  let rax := word_at (mem c) (rsp c) in
  let rsp1 := rsp c + 8 in
  if scope c =? 0 then {| rsp := rsp1; base := base c; scope := scope c; mem := mem c |}
  else
    let count := base c - rsp1 in
    let m := movs_down (Z.to_nat count) (mem c) (base c - 1) (scope c - 1) in
    (* rdi is decremented once more for every byte *)
    {| rsp := scope c - 1 - count + 1; base := scope c; scope := rax; mem := m |}.

Lemma up_other n : forall m src dst x, x < dst \/ dst + Z.of_nat n <= x -> movs_up n m src dst x = m x.
Proof.
  induction n as [|n IH]; intros m src dst x H; cbn [movs_up]; auto.
  rewrite IH by lia. unfold put. destruct (x =? dst) eqn:E; auto. apply Z.eqb_eq in E. lia.
Qed.
Lemma up_copies n : forall m src dst i, dst <= src -> 0 <= i < Z.of_nat n ->
  movs_up n m src dst (dst + i) = m (src + i).
Proof.
  induction n as [|n IH]; intros m src dst i D H; [lia|]. cbn [movs_up].
  destruct (Z.eq_dec i 0) as [->|N].
  - rewrite up_other by lia. unfold put. rewrite Z.add_0_r, Z.eqb_refl, Z.add_0_r. reflexivity.
  - replace (dst + i) with (dst + 1 + (i - 1)) by lia. rewrite IH by lia.
    unfold put. destruct (src + 1 + (i - 1) =? dst) eqn:E; [apply Z.eqb_eq in E; lia|]. f_equal. lia.
Qed.
Lemma down_other n : forall m src dst x, dst < x \/ x <= dst - Z.of_nat n -> movs_down n m src dst x = m x.
Proof.
  induction n as [|n IH]; intros m src dst x H; cbn [movs_down]; auto.
  rewrite IH by lia. unfold put. destruct (x =? dst) eqn:E; auto. apply Z.eqb_eq in E. lia.
Qed.
Lemma down_copies n : forall m src dst i, src <= dst -> 0 <= i < Z.of_nat n ->
  movs_down n m src dst (dst - i) = m (src - i).
Proof.
  induction n as [|n IH]; intros m src dst i D H; [lia|]. cbn [movs_down].
  destruct (Z.eq_dec i 0) as [->|N].
  - rewrite down_other by lia. unfold put. rewrite Z.sub_0_r, Z.eqb_refl, Z.sub_0_r. reflexivity.
  - replace (dst - i) with (dst - 1 - (i - 1)) by lia. rewrite IH by lia.
    unfold put. destruct (src - 1 - (i - 1) =? dst) eqn:E; [apply Z.eqb_eq in E; lia|]. f_equal. lia.
Qed.

Lemma byte_word v : 0 <= v < 256 ^ 8 ->
  byte v 0 + 256 * (byte v 1 + 256 * (byte v 2 + 256 * (byte v 3 + 256 * (byte v 4
  + 256 * (byte v 5 + 256 * (byte v 6 + 256 * byte v 7)))))) = v.
Proof.
  intros H. unfold byte.
  assert (S : forall i, 0 <= i -> v / 256 ^ i = v / 256 ^ i mod 256 + 256 * (v / 256 ^ (i + 1))).
  { intros i Hi. rewrite Z.pow_add_r by lia. change (256 ^ 1) with 256.
    rewrite <- Z.div_div by (try apply Z.pow_nonzero; lia).
    rewrite Z.add_comm. apply Z.div_mod. lia. }
  assert (E0 := S 0 ltac:(lia)). assert (E1 := S 1 ltac:(lia)). assert (E2 := S 2 ltac:(lia)).
  assert (E3 := S 3 ltac:(lia)). assert (E4 := S 4 ltac:(lia)). assert (E5 := S 5 ltac:(lia)).
  assert (E6 := S 6 ltac:(lia)). assert (E7 := S 7 ltac:(lia)).
  change (0 + 1) with 1 in E0. change (1 + 1) with 2 in E1. change (2 + 1) with 3 in E2.
  change (3 + 1) with 4 in E3. change (4 + 1) with 5 in E4. change (5 + 1) with 6 in E5.
  change (6 + 1) with 7 in E6. change (7 + 1) with 8 in E7.
  rewrite (Z.div_small v (256 ^ 8)) in E7 by lia. change (256 ^ 0) with 1 in *. rewrite Z.div_1_r in *. lia.
Qed.
Lemma push_word_at m a v : 0 <= v < 2 ^ 64 -> word_at (push_word m a v) (a - 8) = v.
Proof.
  intros H. unfold word_at, push_word.
  repeat match goal with |- context [(?x <=? ?y) && (?y <? ?z)] =>
    replace ((x <=? y) && (y <? z)) with true
      by (symmetry; apply andb_true_intro; split; [apply Z.leb_le|apply Z.ltb_lt]; lia) end.
  replace (a - 8 - (a - 8)) with 0 by lia. replace (a - 8 + 1 - (a - 8)) with 1 by lia.
  replace (a - 8 + 2 - (a - 8)) with 2 by lia. replace (a - 8 + 3 - (a - 8)) with 3 by lia.
  replace (a - 8 + 4 - (a - 8)) with 4 by lia. replace (a - 8 + 5 - (a - 8)) with 5 by lia.
  replace (a - 8 + 6 - (a - 8)) with 6 by lia. replace (a - 8 + 7 - (a - 8)) with 7 by lia.
  apply byte_word. exact H.
Qed.
Lemma push_other m a v x : x < a - 8 \/ a <= x -> push_word m a v x = m x.
Proof.
  intros H. unfold push_word. destruct (a - 8 <=? x) eqn:E1; auto. destruct (x <? a) eqn:E2; auto.
  apply Z.leb_le in E1. apply Z.ltb_lt in E2. lia.
Qed.

(** The operands, from the top of the stack, and everything else the function uses. *)
Definition operand (c : cpu) (i : Z) : Z := mem c (rsp c + i).

Theorem c55_alloca_operands arg c size n :
  word_at (mem c) (rsp c) = 2 ^ n -> 0 <= n -> word_at (mem c) (rsp c + 8) = size -> 0 <= size ->
  rsp c + 16 <= base c ->
  let c' := op_alloca arg c in
  0 <= base c' < 2 ^ 64 ->
  (* the result is on the stack, above the operands that were below size and alignment *)
  word_at (mem c') (rsp c') = base c' /\
  base c' - (rsp c' + 8) = base c - (rsp c + 16) /\
  (forall i, 0 <= i < base c - (rsp c + 16) -> operand c' (8 + i) = operand c (16 + i)) /\
  (* the storage above the old base is unchanged, the new area is below it and aligned *)
  (forall a, base c <= a -> mem c' a = mem c a) /\
  base c' + size <= base c /\ (2 ^ n | base c').
Proof.
  intros A N SZ P R c' B. unfold c' in *. clear c'. unfold op_alloca in *. cbn [rsp base scope mem operand] in *.
  rewrite A, SZ in *. destruct (c55_aligned (base c) size n N) as (D1 & D2 & D3 & D4).
  set (rax := alloca_address (base c) size (2 ^ n)) in *.
  set (count := base c - (rsp c + 16)) in *.
  split; [apply push_word_at; exact B|]. split; [lia|]. split; [|split; [|split; [lia|exact D1]]].
  - intros i Hi. unfold operand. cbn [rsp mem].
    replace (rax - count - 8 + (8 + i)) with (rax - count + i) by lia.
    rewrite push_other by lia. rewrite up_copies by lia. f_equal. lia.
  - intros a Ha. rewrite push_other by lia. rewrite up_other by lia. reflexivity.
Qed.

Theorem c55_pushscope_operands c :
  0 <= scope c < 2 ^ 64 ->
  let c' := op_pushscope c in
  word_at (mem c') (rsp c') = scope c /\ scope c' = base c /\ base c' = base c /\
  (forall i, 0 <= i -> operand c' (8 + i) = operand c i).
Proof.
  intros B c'. unfold c', op_pushscope. cbn [rsp base scope mem].
  split; [apply push_word_at; exact B|]. split; [reflexivity|]. split; [reflexivity|].
  intros i H. unfold operand. cbn [rsp mem]. rewrite push_other by lia. f_equal. lia.
Qed.

Theorem c55_popscope_operands c :
  rsp c + 8 <= base c -> (scope c <> 0 -> base c <= scope c) ->
  let c' := op_popscope c in
  base c' = (if scope c =? 0 then base c else scope c) /\
  scope c' = (if scope c =? 0 then scope c else word_at (mem c) (rsp c)) /\
  base c' - rsp c' = base c - (rsp c + 8) /\
  (forall i, 0 <= i < base c - (rsp c + 8) -> operand c' i = operand c (8 + i)) /\
  (* the storage above the new base is unchanged *)
  (forall a, base c' <= a -> mem c' a = mem c a).
Proof.
  intros R S c'. unfold c', op_popscope.
  destruct (scope c =? 0) eqn:E; cbn [rsp base scope mem]; repeat (split; [first [reflexivity|lia]|]).
  - split; auto. intros i Hi. unfold operand. cbn [rsp mem]. f_equal. lia.
  - apply Z.eqb_neq in E. specialize (S E). set (count := base c - (rsp c + 8)) in *. split.
    + intros i Hi. unfold operand. cbn [rsp mem].
      replace (scope c - 1 - count + 1 + i) with (scope c - 1 - (count - 1 - i)) by lia.
      rewrite down_copies by lia. f_equal. lia.
    + intros a Ha. rewrite down_other by lia. reflexivity.
Qed.

(* an operand stack of 24 bytes: size 20 and alignment 8 below the base 1000 *)
Definition sample_cpu : cpu :=
  {| rsp := 976; base := 1000; scope := 0;
     mem := fun a => if a =? 976 then 8 else if a =? 984 then 20 else if 992 <=? a then a mod 256 else 0 |}.
Example alloca_met :
  word_at (mem sample_cpu) (rsp sample_cpu) = 2 ^ 3 /\ word_at (mem sample_cpu) (rsp sample_cpu + 8) = 20 /\
  rsp sample_cpu + 16 <= base sample_cpu /\ base (op_alloca 0 sample_cpu) = 976 /\
  rsp (op_alloca 0 sample_cpu) = 960 /\ word_at (mem (op_alloca 0 sample_cpu)) 960 = 976 /\
  operand (op_alloca 0 sample_cpu) 9 = operand sample_cpu 17.
Proof. vm_compute. repeat split; discriminate. Qed.
Example popscope_met :
  let c := op_pushscope (op_alloca 0 {| rsp := 976; base := 1000; scope := 0; mem := mem sample_cpu |}) in
  rsp c + 8 <= base c /\ base c <= scope c /\ scope c <> 0.
Proof. vm_compute. repeat split; discriminate. Qed.

Print Assumptions c55_alloca_operands.
Print Assumptions c55_pushscope_operands.
Print Assumptions c55_popscope_operands.
