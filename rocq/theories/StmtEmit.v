(** The statement translator as the code performs it: instructions are appended one after
    another, jumps are appended without a target and registered with a flow control
    point, points are resolved at the current index.  FlowModel.v models the points.

    StmtCompile.v computes all targets in advance; PropEmit.v shows that both
    give the same code. *)

From Coq Require Import ZArith Bool List Lia.
From Verif Require Import Bits CTypes TypeConvModel Memory CSem CStmt IRMachine ExprCompile StmtCompile StmtProofs.
From Verif Require FlowModel PropFlow.
Import ListNotations.
Open Scope Z_scope.

(** Instructions of IRMachine.v as opcode and argument. *)
Definition enc (x : instr) : FlowModel.instr instr :=
  match x with
  | OJmp t => {| FlowModel.op := FlowModel.JMP; FlowModel.arg := Z.of_nat t |}
  | OBranch t => {| FlowModel.op := FlowModel.BRANCH; FlowModel.arg := Z.of_nat t |}
  | x => {| FlowModel.op := FlowModel.OTHER x; FlowModel.arg := 0 |}
  end.

Definition is_jump (x : instr) : bool := match x with OJmp _ | OBranch _ => true | _ => false end.

(** Calls of the translator: append an instruction; append a jump and refer to a point
    (kefir_ast_translator_flow_control_point_reference with CURRENT_INDEX - 1); resolve a
    point at CURRENT_INDEX. *)
Inductive item := I (x : instr) | JJ (p : nat) | JB (p : nat) | R (p : nat).

Fixpoint acts (pos : nat) (l : list item) : list (FlowModel.action instr) :=
  match l with
  | [] => []
  | I x :: r => FlowModel.Append 0 (enc x) :: acts (S pos) r
  | JJ p :: r => FlowModel.Append 0 (enc (OJmp 0)) :: FlowModel.Reference p 0 pos :: acts (S pos) r
  | JB p :: r => FlowModel.Append 0 (enc (OBranch 0)) :: FlowModel.Reference p 0 pos :: acts (S pos) r
  | R p :: r => FlowModel.Resolve p (Z.of_nat pos) :: acts pos r
  end.

(** The points of the enclosing statements.  Points are created by the analyzer for
    every flow control structure (source/ast/flow_control.c); here they are numbered in
    the order of the statements: odd numbers, and even numbers for named labels. *)
Record penv := { pbrk : nat; pcont : nat; pdef : nat; pcase : Z -> nat }.
Definition fresh (k : nat) : nat := 2 * k + 1.
Definition pt (F : penv) (L : lab) : nat :=
  match L with LName l => 2 * l | LCase v => pcase F v | LDefault => pdef F end.

Fixpoint idx (v : Z) (l : list Z) : nat :=
  match l with [] => 0%nat | w :: r => if v =? w then 0%nat else S (idx v r) end.

(** Number of points of a statement. *)
Fixpoint pcount (s : stmt) : nat :=
  match s with
  | SSkip | SExpr _ | SBreak | SContinue | SGoto _ | SReturn _ => 0
  | SSeq a b => pcount a + pcount b
  | SIf _ a => 1 + pcount a
  | SIfElse _ a b => 2 + pcount a + pcount b
  | SWhile _ a | SDo a _ | SFor _ _ a => 2 + pcount a
  | SSwitch _ a => 2 + length (cases a) + pcount a
  | SLab _ a => pcount a
  end%nat.

Section Emit.
Variable S : senv.
Variable rty : option cty.
Local Notation slen := (slen S rty).

(** nodes/switch_statement.c:44-66 *)
Fixpoint edispatch (F : penv) (q : nat) (l : list Z) : list item :=
  match l with
  | [] => []
  | v :: r => [I (OPick 0); I (OPush v); I OEq; I OBNot; I (OBranch (q + 7)); I OPop; JJ (pcase F v)]
              ++ edispatch F (q + 7) r
  end.

Definition code (pos : nat) (e : expr) : list item := map I (compile S RV pos e).

(** [pos] is the current index of the block, [k] the number of the next point. *)
Fixpoint semit (F : penv) (pos k : nat) (s : stmt) : list item :=
  match s with
  | SSkip => []
  | SExpr e => code pos e ++ [I OPop]
  | SSeq a b => semit F pos k a ++ semit F (pos + slen pos a) (k + pcount a) b
  | SIf c a =>                                              (* nodes/conditional_statement.c:28-66 *)
    code pos c ++ [I OBNot; JB (fresh k)]
    ++ semit F (pos + (clen S pos c + 2)) (k + 1) a ++ [R (fresh k)]
  | SIfElse c a b =>
    let p1 := pos + (clen S pos c + 2) in
    code pos c ++ [I OBNot; JB (fresh k)]
    ++ semit F p1 (k + 2) a ++ [JJ (fresh (k + 1)); R (fresh k)]
    ++ semit F (p1 + slen p1 a + 1) (k + 2 + pcount a) b ++ [R (fresh (k + 1))]
  | SWhile c a =>                                           (* nodes/while_statement.c:27-63 *)
    let F' := {| pbrk := fresh k; pcont := fresh (k + 1); pdef := pdef F; pcase := pcase F |} in
    R (fresh (k + 1)) :: code pos c ++ [I OBNot; JB (fresh k)]
    ++ semit F' (pos + (clen S pos c + 2)) (k + 2) a ++ [JJ (fresh (k + 1)); R (fresh k)]
  | SDo a c =>                                              (* nodes/do_while_statement.c:28-58 *)
    let F' := {| pbrk := fresh k; pcont := fresh (k + 1); pdef := pdef F; pcase := pcase F |} in
    semit F' pos (k + 2) a ++ R (fresh (k + 1)) :: code (pos + slen pos a) c ++ [I (OBranch pos); R (fresh k)]
  | SFor c t a =>                                           (* nodes/for_statement.c:27-100 *)
    let F' := {| pbrk := fresh k; pcont := fresh (k + 1); pdef := pdef F; pcase := pcase F |} in
    let p := pos + match c with Some c => clen S pos c + 2 | None => 0 end in
    match c with Some c => code pos c ++ [I OBNot; JB (fresh k)] | None => [] end
    ++ semit F' p (k + 2) a
    ++ R (fresh (k + 1)) :: match t with Some t => code (p + slen p a) t ++ [I OPop] | None => [] end
    ++ [I (OJmp pos); R (fresh k)]
  | SSwitch e a =>                                          (* nodes/switch_statement.c:28-91 *)
    let F' := {| pbrk := fresh k; pcont := pcont F; pdef := fresh (k + 1);
                 pcase := fun v => fresh (k + 2 + idx v (cases a)) |} in
    code pos e ++ edispatch F' (pos + clen S pos e) (sort_cases (cases a))
    ++ JJ (if has LDefault a then fresh (k + 1) else fresh k)
    :: semit F' (pos + (clen S pos e + 7 * length (cases a) + 1)) (k + 2 + length (cases a)) a
    ++ [R (fresh k)]
  | SLab L a => R (pt F L) :: semit F pos k a               (* nodes/labeled_statement.c:27, case_statement.c:27 *)
  | SBreak => [JJ (pbrk F)]                                 (* jump.c:88-92 *)
  | SContinue => [JJ (pcont F)]
  | SGoto l => [JJ (2 * l)]
  | SReturn None => [I ORet]
  | SReturn (Some e) => code pos e ++ map I (ret_conv S rty e) ++ [I ORet]
  end%nat.

Definition femit (body : stmt) : list item :=
  semit {| pbrk := 1; pcont := 1; pdef := 1; pcase := fun _ => 1%nat |} 0 1 body.

(** What the code does: all the calls, starting with an empty block. *)
Definition translate_body (body : stmt) : FlowModel.result (FlowModel.state instr) :=
  FlowModel.run FlowModel.init (acts 0 (femit body)).

End Emit.

(** ** Calls and their effect *)

Definition final (P : nat -> nat) (x : item) : list instr :=
  match x with I x => [x] | JJ p => [OJmp (P p)] | JB p => [OBranch (P p)] | R _ => [] end.
Definition finals (P : nat -> nat) (l : list item) : list instr := flat_map (final P) l.

Lemma finals_app : forall P a b, finals P (a ++ b) = finals P a ++ finals P b.
Proof. intros. apply flat_map_app. Qed.
Lemma finals_I : forall P l, finals P (map I l) = l.
Proof. unfold finals. induction l; cbn; auto. now rewrite IHl. Qed.
Lemma finals_length : forall P Q l, length (finals P l) = length (finals Q l).
Proof. unfold finals. induction l as [|[x|p|p|p] l IH]; cbn; auto. Qed.

(** Point [p] is resolved at [v] by the calls [l] started at index [pos]. *)
Fixpoint marked (pos : nat) (l : list item) (p v : nat) : Prop :=
  match l with
  | [] => False
  | R q :: r => (q = p /\ v = pos) \/ marked pos r p v
  | _ :: r => marked (S pos) r p v
  end.

Lemma marked_app : forall a b pos p v,
  marked pos (a ++ b) p v <-> marked pos a p v \/ marked (pos + length (finals (fun _ => 0%nat) a)) b p v.
Proof.
  unfold finals. induction a as [|[x|q|q|q] a IH]; intros b pos p v; cbn [app marked finals flat_map final length].
  - rewrite Nat.add_0_r. tauto.
  - rewrite IH. cbn. rewrite Nat.add_succ_r. reflexivity.
  - rewrite IH. cbn. rewrite Nat.add_succ_r. reflexivity.
  - rewrite IH. cbn. rewrite Nat.add_succ_r. reflexivity.
  - rewrite IH. cbn. tauto.
Qed.
Lemma marked_I : forall l pos p v, ~ marked pos (map I l) p v.
Proof. induction l; cbn; intros; auto. Qed.

Lemma placed_marked : forall l pos p v, PropFlow.placed (acts pos l) p v <-> exists n, v = Z.of_nat n /\ marked pos l p n.
Proof.
  unfold PropFlow.placed. induction l as [|[x|q|q|q] l IH]; intros pos p v; cbn [acts In marked].
  - split; [intros []|intros (n & _ & [])].
  - rewrite IH. split; [intros [H|H]; [discriminate|auto]|auto].
  - rewrite IH. split; [intros [H|[H|H]]; [discriminate|discriminate|auto]|auto].
  - rewrite IH. split; [intros [H|[H|H]]; [discriminate|discriminate|auto]|auto].
  - rewrite IH. split.
    + intros [H|(n & E & M)]; [injection H as <- <-; exists pos; auto|exists n; auto].
    + intros (n & E & [[<- ->]|M]); [left; subst; auto|right; exists n; auto].
Qed.

Fixpoint plain_items (l : list item) : list item :=
  match l with [] => [] | R _ :: r => plain_items r | x :: r => x :: plain_items r end.

Lemma finals_plain : forall P l, finals P l = finals P (plain_items l).
Proof. unfold finals. induction l as [|[x|q|q|q] l IH]; cbn; try rewrite IH; auto. Qed.
Lemma finals_nth : forall P l i, nth_error (finals P l) i =
  match nth_error (plain_items l) i with
  | Some (I x) => Some x | Some (JJ p) => Some (OJmp (P p)) | Some (JB p) => Some (OBranch (P p)) | _ => None end.
Proof.
  intros P l. rewrite finals_plain. unfold finals. induction l as [|[x|q|q|q] l IH]; intro i; cbn; auto; destruct i; cbn; auto.
Qed.

Lemma emitted_finals : forall l pos, PropFlow.emitted (acts pos l) 0 = map enc (finals (fun _ => 0%nat) l).
Proof. unfold finals. induction l as [|[x|q|q|q] l IH]; intro pos; cbn [acts PropFlow.emitted Nat.eqb finals flat_map final app map]; auto; now rewrite IH. Qed.

Definition jump_to (x : item) (p : nat) : Prop := x = JJ p \/ x = JB p.

Lemma refers_plain : forall l pos p i, PropFlow.refers (acts pos l) p 0 i <->
  exists j x, i = (pos + j)%nat /\ nth_error (plain_items l) j = Some x /\ jump_to x p.
Proof.
  unfold PropFlow.refers. induction l as [|x l IH]; intros pos p i.
  - cbn. split; [intros []|intros (j & x & _ & H & _)]. destruct j; discriminate.
  - assert (K : forall y q, y = JJ q \/ y = JB q ->
      ((FlowModel.Reference q 0 pos = FlowModel.Reference p 0 i :> FlowModel.action instr \/ In (FlowModel.Reference p 0%nat i) (acts (S pos) l)) <->
       exists j x, i = (pos + j)%nat /\ nth_error (y :: plain_items l) j = Some x /\ jump_to x p)).
    { intros y q Y. rewrite IH. split.
      - intros [H|(j & x0 & -> & N & J)]; [injection H as <- <-; exists 0%nat, y|exists (S j), x0]; (split; [lia|]); auto.
      - intros ([|j] & x0 & -> & N & J).
        + left. cbn in N. injection N as <-. rewrite Nat.add_0_r. unfold jump_to in J. destruct Y; subst y; destruct J; congruence.
        + right. exists j, x0. split; [lia|]. auto. }
    destruct x as [y|q|q|q]; cbn [acts In plain_items].
    + rewrite IH. split.
      * intros [H|(j & x0 & -> & N & J)]; [discriminate|]. exists (S j), x0. split; [lia|auto].
      * intros ([|j] & x0 & -> & N & J); [cbn in N; injection N as <-; destruct J; discriminate|].
        right. exists j, x0. split; [lia|auto].
    + rewrite <- (K (JJ q) q) by auto. split; [intros [H|H]; [discriminate|auto]|auto].
    + rewrite <- (K (JB q) q) by auto. split; [intros [H|H]; [discriminate|auto]|auto].
    + rewrite IH. split; [intros [H|H]; [discriminate|auto]|auto].
Qed.

Lemma nth_error_ext : forall (A : Type) (l l' : list A), (forall i, nth_error l i = nth_error l' i) -> l = l'.
Proof.
  induction l as [|x l IH]; intros [|y l'] H; auto; try (specialize (H 0%nat); discriminate).
  f_equal; [specialize (H 0%nat); cbn in H; congruence|]. apply IH. intro i. apply (H (S i)).
Qed.

(** If all calls succeed and every point used is resolved, the block holds the
    instructions with the places of the points. *)
Lemma calls_code : forall l st P, FlowModel.run FlowModel.init (acts 0 l) = FlowModel.Ok st ->
  (forall p n, marked 0 l p n -> P p = n) ->
  (forall x p, In x l -> jump_to x p -> exists n, marked 0 l p n) ->
  FlowModel.blocks st 0%nat = map enc (finals P l).
Proof.
  intros l st P RUN AG DEF. destruct (PropFlow.c29_backpatching _ _ _ RUN 0%nat) as [LEN FI].
  rewrite emitted_finals in LEN, FI.
  apply nth_error_ext. intro i. destruct (nth_error (FlowModel.blocks st 0%nat) i) as [y|] eqn:NY.
  2:{ symmetry. apply nth_error_None. apply nth_error_None in NY. rewrite LEN in NY. rewrite map_length in *.
      now rewrite (finals_length P (fun _ => 0%nat)). }
  destruct (nth_error (map enc (finals (fun _ => 0%nat) l)) i) as [x|] eqn:NX.
  2:{ apply nth_error_None in NX. rewrite <- LEN in NX. apply nth_error_None in NX. congruence. }
  destruct (FI i x y NX NY) as [A B]. rewrite nth_error_map, finals_nth in *.
  destruct (nth_error (plain_items l) i) as [z|] eqn:NZ; [|discriminate].
  assert (INZ : In z l).
  { apply nth_error_In in NZ. clear - NZ. induction l as [|[x|p|p|p] l IH]; cbn in *; intuition auto. }
  assert (UQ : forall p q, jump_to z p -> PropFlow.refers (acts 0 l) q 0 i -> q = p).
  { intros p q J H. apply refers_plain in H. destruct H as (j & z' & -> & N & J'). cbn in NZ. rewrite NZ in N. injection N as <-.
    destruct J, J'; congruence. }
  assert (JMP : forall p, jump_to z p -> y = {| FlowModel.op := FlowModel.op x; FlowModel.arg := Z.of_nat (P p) |}).
  { intros p J. destruct (DEF z p INZ J) as [n M]. rewrite (AG _ _ M).
    apply (A p (Z.of_nat n)).
    - apply refers_plain. exists i, z. auto.
    - apply placed_marked. eauto.
    - intros q Q. apply (UQ p q J Q). }
  destruct z as [z|p|p|p]; cbn in *.
  - injection NX as <-. rewrite B; auto. intros p v H. exfalso. apply refers_plain in H.
    destruct H as (j & z' & -> & N & J'). cbn in NZ. rewrite NZ in N. injection N as <-. destruct J'; discriminate.
  - injection NX as <-. rewrite (JMP p) by (left; auto). reflexivity.
  - injection NX as <-. rewrite (JMP p) by (right; auto). reflexivity.
  - discriminate.
Qed.

(** ** The two descriptions of the translation agree *)

Section Agree.
Variable S : senv.
Variable rty : option cty.
Local Notation slen := (slen S rty).
Local Notation scomp := (scomp S rty).
Local Notation semit := (semit S rty).
Local Notation lpos := (lpos S rty).
Local Notation P0 := (fun _ : nat => 0%nat).

Lemma code_finals : forall P pos e, finals P (code S pos e) = compile S RV pos e.
Proof. intros. apply finals_I. Qed.
Lemma code_marked : forall pos' pos e p v, ~ marked pos' (code S pos e) p v.
Proof. intros. apply marked_I. Qed.

Lemma edispatch_finals : forall P F l q, finals P (edispatch F q l) = dispatch q l (fun v => P (pcase F v)).
Proof. unfold finals. induction l; intros; cbn; auto. now rewrite IHl. Qed.
Lemma edispatch_marked : forall F l q pos p v, ~ marked pos (edispatch F q l) p v.
Proof. induction l; intros; cbn; auto. Qed.

Lemma fin_len_app : forall P a b, length (finals P (a ++ b)) = (length (finals P a) + length (finals P b))%nat.
Proof. intros. rewrite finals_app. apply app_length. Qed.
Lemma fin_len_cons : forall P x b, length (finals P (x :: b)) = (length (finals P [x]) + length (finals P b))%nat.
Proof. intros. apply (fin_len_app P [x] b). Qed.
Lemma code_len : forall P pos e, length (finals P (code S pos e)) = clen S pos e.
Proof. intros. now rewrite code_finals. Qed.

Ltac lens := repeat (rewrite fin_len_app || rewrite code_len || rewrite edispatch_finals || rewrite finals_I ||
  rewrite dispatch_length || rewrite sort_length ||
  match goal with |- context [finals ?P (?x :: ?b)] =>
    lazymatch b with [] => fail | _ => rewrite (fin_len_cons P x b) end end);
  cbn [finals flat_map final app length].

Lemma semit_length : forall s P F pos k, length (finals P (semit F pos k s)) = slen pos s.
Proof.
  induction s; intros P F pos k; cbn [StmtEmit.semit StmtCompile.slen]; cbv zeta; auto.
  - lens. auto.
  - lens. rewrite IHs1, IHs2. auto.
  - lens. rewrite IHs. lia.
  - lens. rewrite IHs1, IHs2. lia.
  - lens. rewrite IHs. lia.
  - lens. rewrite IHs. lia.
  - destruct c as [c|], t as [t|]; lens; rewrite IHs; lia.
  - lens. rewrite IHs. lia.
  - lens. rewrite IHs. lia.
  - destruct e; lens; auto. lia.
Qed.

Lemma mk_l : forall a b pos p v, marked pos a p v -> marked pos (a ++ b) p v.
Proof. intros. apply marked_app. auto. Qed.
Lemma mk_r : forall a b pos pos' p v, pos' = (pos + length (finals P0 a))%nat -> marked pos' b p v -> marked pos (a ++ b) p v.
Proof. intros. apply marked_app. subst. auto. Qed.
Lemma mk_cons : forall x b pos pos' p v, pos' = (pos + length (finals P0 [x]))%nat -> marked pos' b p v -> marked pos (x :: b) p v.
Proof. intros. apply (mk_r [x] b pos pos'); auto. Qed.
Lemma mk_here : forall q b pos p v, p = q -> v = pos -> marked pos (R q :: b) p v.
Proof. intros. left. auto. Qed.

Ltac len := lens; rewrite ?semit_length; lia.
(** Find the part of the calls where the point is resolved. *)
Ltac find_mark tac :=
  first [ tac
        | apply mk_here; [reflexivity|first [reflexivity|len]]
        | apply mk_l; find_mark tac
        | eapply mk_r; [reflexivity|find_mark tac]
        | eapply mk_cons; [reflexivity|find_mark tac] ].
Ltac pos_eq := idtac; match goal with H : marked ?a ?l ?p ?v |- marked ?b ?l ?p ?v => replace b with a by len; exact H end.



Lemma lab_eqb_true : forall a b, lab_eqb a b = true -> a = b.
Proof.
  intros [x|x|] [y|y|]; cbn; try discriminate; auto; intro H; [apply Nat.eqb_eq in H|apply Z.eqb_eq in H]; now subst.
Qed.

(** Labels are resolved where [lpos] says. *)
Lemma lpos_marked : forall s L F pos k q, lpos pos s L = Some q -> marked pos (semit F pos k s) (pt F L) q.
Proof.
  induction s; intros L F pos k q H; cbn [StmtCompile.lpos StmtEmit.semit] in *; cbv zeta in *; try discriminate.
  - destruct (lpos pos s1 L) eqn:E.
    + injection H as <-. apply (IHs1 L F pos k) in E. find_mark pos_eq.
    + apply (IHs2 L F _ (k + pcount s1)%nat) in H. find_mark pos_eq.
  - apply (IHs L F _ (k + 1)%nat) in H. find_mark pos_eq.
  - destruct (lpos _ s1 L) eqn:E.
    + injection H as <-. apply (IHs1 L F _ (k + 2)%nat) in E. find_mark pos_eq.
    + apply (IHs2 L F _ (k + 2 + pcount s1)%nat) in H. find_mark pos_eq.
  - set (F' := {| pbrk := _ |}). apply (IHs L F' _ (k + 2)%nat) in H. change (pt F' L) with (pt F L) in H. find_mark pos_eq.
  - set (F' := {| pbrk := _ |}). apply (IHs L F' _ (k + 2)%nat) in H. change (pt F' L) with (pt F L) in H. find_mark pos_eq.
  - set (F' := {| pbrk := _ |}). apply (IHs L F' _ (k + 2)%nat) in H. change (pt F' L) with (pt F L) in H.
    destruct c; find_mark pos_eq.
  - set (F' := {| pbrk := _ |}). destruct L as [l| |]; try discriminate H. cbn [is_name] in H.
    apply (IHs (LName l) F' _ (k + 2 + length (cases s))%nat) in H.
    change (pt F' (LName l)) with (pt F (LName l)) in H. find_mark pos_eq.
  - destruct (lab_eqb l L) eqn:E.
    + injection H as <-. apply lab_eqb_true in E. subst l. left. auto.
    + apply (IHs L F _ k) in H. find_mark pos_eq.
Qed.

Lemma dispatch_ext : forall l q f g, (forall v, In v l -> f v = g v) -> dispatch q l f = dispatch q l g.
Proof.
  induction l; intros; cbn [dispatch]; auto. rewrite (H a) by (left; auto). rewrite (IHl _ f g); auto. intros; apply H; right; auto.
Qed.

Ltac simp := unfold unless; repeat (rewrite finals_app || rewrite code_finals || rewrite finals_I || rewrite <- app_assoc);
  cbn [finals flat_map final app]; fold (finals).
Ltac sub AG := intros; apply AG; find_mark pos_eq.

Lemma finals_cons_R : forall P p l, finals P (R p :: l) = finals P l.
Proof. reflexivity. Qed.
Lemma finals_cons_J : forall P p l, finals P (JJ p :: l) = OJmp (P p) :: finals P l.
Proof. reflexivity. Qed.
Lemma finals_cons_B : forall P p l, finals P (JB p :: l) = OBranch (P p) :: finals P l.
Proof. reflexivity. Qed.
Lemma finals_cons_I : forall P x l, finals P (I x :: l) = x :: finals P l.
Proof. reflexivity. Qed.
Lemma finals_nil : forall P, finals P [] = [].
Proof. reflexivity. Qed.

Hint Rewrite finals_app code_finals finals_I finals_cons_R finals_cons_J finals_cons_B finals_cons_I finals_nil : fin.
Hint Rewrite <- app_assoc : fin.

Lemma emit_correct : forall s labels br co F E pos k P, swf S rty labels br co s = true ->
  (forall p n, marked pos (semit F pos k s) p n -> P p = n) ->
  (br = true -> P (pbrk F) = brk E) -> (co = true -> P (pcont F) = cont E) ->
  (forall l, labels l = true -> P (2 * l)%nat = labs E l) ->
  finals P (semit F pos k s) = scomp E pos s.
Proof.
  induction s; intros labels br co F E pos k P WF AG HB HC HL; cbn [swf] in WF; cbn [StmtEmit.semit StmtCompile.scomp] in *; cbv zeta in *;
    repeat match goal with H : _ && _ = true |- _ => apply andb_prop in H; destruct H end;
    unfold unless; autorewrite with fin; cbn [app].
  - reflexivity.
  - reflexivity.
  - f_equal.
    + eapply IHs1; eauto. sub AG.
    + eapply IHs2; eauto. sub AG.
  - rewrite (AG (fresh k) (pos + (clen S pos c + 2) + slen (pos + (clen S pos c + 2)) s)%nat) by (find_mark pos_eq).
    rewrite app_nil_r. do 3 f_equal. eapply IHs; eauto. sub AG.
  - set (p1 := (pos + (clen S pos c + 2))%nat) in *. set (p2 := (p1 + slen p1 s1 + 1)%nat) in *.
    rewrite (AG (fresh k) p2) by (unfold p2, p1 in *; find_mark pos_eq).
    rewrite (AG (fresh (k + 1)) (p2 + slen p2 s2)%nat) by (unfold p2, p1 in *; find_mark pos_eq).
    rewrite app_nil_r. do 3 f_equal. f_equal; [|f_equal].
    + eapply IHs1; eauto. unfold p1 in *. sub AG.
    + eapply IHs2; eauto. unfold p2, p1 in *. sub AG.
  - set (F' := {| pbrk := _ |}) in *. set (p := (pos + (clen S pos c + 2))%nat) in *. set (fin := (p + slen p s + 1)%nat) in *.
    assert (A1 : P (fresh k) = fin) by (apply AG; unfold fin, p in *; find_mark pos_eq).
    assert (A2 : P (fresh (k + 1)) = pos) by (apply AG; unfold fin, p in *; find_mark pos_eq).
    rewrite A1, A2. do 3 f_equal. f_equal. eapply IHs; eauto. unfold p in *. sub AG.
  - set (F' := {| pbrk := _ |}) in *. set (p := (pos + slen pos s)%nat) in *. set (fin := (p + clen S p c + 1)%nat) in *.
    assert (A1 : P (fresh k) = fin) by (apply AG; unfold fin, p in *; find_mark pos_eq).
    assert (A2 : P (fresh (k + 1)) = p) by (apply AG; unfold fin, p in *; find_mark pos_eq).
    f_equal. eapply IHs; eauto. unfold p in *. sub AG.
  - set (F' := {| pbrk := _ |}) in *. set (p := (pos + match c with Some c => clen S pos c + 2 | None => 0 end)%nat) in *.
    set (q := (p + slen p s)%nat) in *. set (fin := (q + match t with Some t => clen S q t + 1 | None => 0 end + 1)%nat) in *.
    assert (A1 : P (fresh k) = fin) by (apply AG; unfold fin, q, p in *; destruct c, t; find_mark pos_eq).
    assert (A2 : P (fresh (k + 1)) = q) by (apply AG; unfold q, p in *; destruct c; find_mark pos_eq).
    assert (BD : finals P (semit F' p (k + 2) s) = scomp {| brk := fin; cont := q; labs := labs E |} p s).
    { eapply IHs; eauto. unfold p in *. intros ? ? M. apply AG. destruct c; find_mark pos_eq. }
    rewrite BD. f_equal; [|f_equal; f_equal].
    + destruct c; autorewrite with fin; cbn [app]; auto. now rewrite A1.
    + destruct t; autorewrite with fin; reflexivity.
  - set (F' := {| pbrk := _ |}) in *. set (p := (pos + (clen S pos e + 7 * length (cases s) + 1))%nat) in *.
    set (fin := (p + slen p s)%nat) in *.
    assert (A1 : P (fresh k) = fin) by (apply AG; unfold fin, p in *; find_mark pos_eq).
    assert (AL : forall L r, lpos p s L = Some r -> P (pt F' L) = r).
    { intros L r X. apply (lpos_marked s L F' p (k + 2 + length (cases s))) in X. apply AG. unfold p in *. find_mark pos_eq. }
    f_equal. rewrite edispatch_finals, app_nil_r. f_equal; [|f_equal].
    + apply dispatch_ext. intros v I0. apply (proj1 (sort_in _ _)) in I0. apply cases_has in I0.
      destruct (has_some S rty s (LCase v) p I0) as [r X]. unfold at_label. rewrite X. apply (AL (LCase v) r X).
    + f_equal. unfold at_label. destruct (has LDefault s) eqn:HD.
      * destruct (has_some S rty s LDefault p HD) as [r X]. rewrite X. apply (AL LDefault r X).
      * rewrite (has_none S rty s LDefault p HD). exact A1.
    + eapply IHs; eauto. unfold p in *. sub AG.
  - eapply IHs; eauto. sub AG.
  - now rewrite HB.
  - now rewrite HC.
  - now rewrite HL.
  - destruct e; autorewrite with fin; reflexivity.
Qed.

Lemma in_code : forall pos e x p, In x (code S pos e) -> ~ jump_to x p.
Proof. intros pos e x p H [J|J]; subst; apply in_map_iff in H; destruct H as (y & E & _); discriminate. Qed.

(** Every jump refers to a point that is resolved in the statement, or to one of the
    enclosing statements. *)
Lemma emit_defined : forall s labels br co F pos k x p, swf S rty labels br co s = true ->
  In x (semit F pos k s) -> jump_to x p ->
  (exists n, marked pos (semit F pos k s) p n) \/ (br = true /\ p = pbrk F) \/ (co = true /\ p = pcont F) \/
  (exists l, labels l = true /\ p = (2 * l)%nat).
Proof.
  assert (J1 : forall p q, jump_to (JJ p) q -> q = p) by (intros p q [X|X]; congruence).
  assert (J2 : forall p q, jump_to (JB p) q -> q = p) by (intros p q [X|X]; congruence).
  assert (J3 : forall x q, ~ jump_to (I x) q) by (intros x q [X|X]; discriminate).
  assert (J4 : forall x q, ~ jump_to (R x) q) by (intros x q [X|X]; discriminate).
  Ltac cases_in J1 J2 J3 J4 :=
    repeat match goal with
    | H : In _ (_ ++ _) |- _ => apply in_app_or in H; destruct H as [H|H]
    | H : In _ (_ :: _) |- _ => destruct H as [H|H]; [subst|]
    | H : In _ [] |- _ => destruct H
    | H : In _ (code _ _ _), J : jump_to _ _ |- _ => exfalso; eapply in_code; eauto; fail
    | J : jump_to (I _) _ |- _ => exfalso; eapply J3; eauto; fail
    | J : jump_to (R _) _ |- _ => exfalso; eapply J4; eauto; fail
    | J : jump_to (JJ _) _ |- _ => apply J1 in J; subst
    | J : jump_to (JB _) _ |- _ => apply J2 in J; subst
    end.
  Ltac here := left; eexists; find_mark pos_eq.
  Ltac rec IH WF :=
    match goal with HI : In _ (StmtEmit.semit _ _ _ _ _ _), J : jump_to _ _ |- _ =>
      destruct (IH _ _ _ _ _ _ _ _ WF HI J) as [[n M]|[[? ->]|[[? ->]|(? & ? & ->)]]];
      [left; exists n; find_mark pos_eq| | |right; right; right; eauto] end.
  induction s; intros labels br co F pos k x p WF HI J; cbn [swf] in WF; cbn [StmtEmit.semit] in *; cbv zeta in *;
    repeat match goal with H : _ && _ = true |- _ => apply andb_prop in H; destruct H end;
    cases_in J1 J2 J3 J4.
  - rec IHs1 H; auto.
  - rec IHs2 H0; auto.
  - here.
  - rec IHs H0; auto.
  - here.
  - rec IHs1 H1; auto.
  - here.
  - rec IHs2 H0; auto.
  - here.
  - rec IHs H0; cbn [pbrk pcont]; here.
  - here.
  - rec IHs H0; cbn [pbrk pcont]; here.
  - destruct c as [c|]; [|destruct HI]; cases_in J1 J2 J3 J4. destruct t; here.
  - destruct c as [c|], t as [t|]; rec IHs H0; cbn [pbrk pcont]; here.
  - destruct t as [t|]; [|destruct HI]; cases_in J1 J2 J3 J4.
  - assert (DD : forall F' l q, In x (edispatch F' q l) -> exists v, In v l /\ p = pcase F' v).
    { intros F' l. induction l as [|v l IHl]; intros q HI'; [destruct HI'|]. cbn [edispatch] in HI'. cases_in J1 J2 J3 J4.
      - exists v. split; [left|]; auto.
      - destruct (IHl _ HI') as (w & ? & ?). exists w. split; [right|]; auto. }
    apply DD in HI. destruct HI as (v & IV & ->). set (F' := {| pbrk := _ |}) in *.
    apply (proj1 (sort_in _ _)) in IV. apply cases_has in IV. set (p := (pos + (clen S pos e + 7 * length (cases s) + 1))%nat) in *.
    destruct (has_some S rty s (LCase v) p IV) as [r X].
    apply (lpos_marked s (LCase v) F' p (k + 2 + length (cases s))) in X. unfold p in *. left. exists r. find_mark pos_eq.
  - destruct (has LDefault s) eqn:HD.
    + set (F' := {| pbrk := _ |}) in *. set (p := (pos + (clen S pos e + 7 * length (cases s) + 1))%nat) in *.
      destruct (has_some S rty s LDefault p HD) as [r X].
      apply (lpos_marked s LDefault F' p (k + 2 + length (cases s))) in X. unfold p in *. left. exists r. find_mark pos_eq.
    + here.
  - rec IHs H0; cbn [pbrk pcont]; auto; here.
  - rec IHs WF; auto.
  - auto.
  - auto.
  - right; right; right; eauto.
  - destruct e; cases_in J1 J2 J3 J4. apply in_map_iff in HI. destruct HI as (y & <- & _). exfalso; eapply J3; eauto.
Qed.

(** ** The translated function *)

(** When all calls of the translation of a function body succeed, the block holds
    [fun_code]. *)
Theorem emitted_code : forall body st, fun_wf S rty body = true -> translate_body S rty body = FlowModel.Ok st ->
  FlowModel.blocks st 0%nat = map enc (fun_code S rty body).
Proof.
  intros body st WF RUN. unfold translate_body, femit in RUN. set (F := {| pbrk := _ |}) in *.
  set (l := semit F 0 1 body) in *.
  set (P := fun p => match FlowModel.points st p with FlowModel.Resolved v => Z.to_nat v | _ => 0%nat end).
  assert (AG : forall p n, marked 0 l p n -> P p = n).
  { intros p n M. pose proof (PropFlow.inv_run _ _ [] FlowModel.init st (PropFlow.inv_init _) RUN) as INV. cbn [app] in INV.
    assert (PL : PropFlow.placed (acts 0 l) p (Z.of_nat n)) by (apply placed_marked; eauto).
    apply (PropFlow.i_res _ _ _ INV) in PL. unfold P. rewrite PL. apply Nat2Z.id. }
  unfold fun_wf in WF.
  assert (LB : forall l0, has (LName l0) body = true -> exists r, lpos 0 body (LName l0) = Some r /\ P (2 * l0)%nat = r).
  { intros l0 H. destruct (has_some S rty body (LName l0) 0 H) as [r X]. exists r. split; auto.
    apply (lpos_marked body (LName l0) F 0 1) in X. apply AG. exact X. }
  rewrite (calls_code l st P RUN AG).
  - f_equal. unfold fun_code. eapply emit_correct; eauto; try discriminate.
    intros l0 H. cbn [labs]. unfold at_label. destruct (LB l0 H) as (r & X & Y). now rewrite X.
  - intros x p HI J. destruct (emit_defined _ _ _ _ _ _ _ _ _ WF HI J) as [M|[[? _]|[[? _]|(l0 & H & ->)]]]; try discriminate; auto.
    destruct (has_some S rty body (LName l0) 0 H) as [r X].
    apply (lpos_marked body (LName l0) F 0 1) in X. eauto.
Qed.

(** *** Success *)

(** The labels of [s] that are visible in [s]: names, and the case and default labels
    outside nested switches. *)
Fixpoint labels_of (s : stmt) : list lab :=
  match s with
  | SSkip | SExpr _ | SBreak | SContinue | SGoto _ | SReturn _ => []
  | SSeq a b | SIfElse _ a b => labels_of a ++ labels_of b
  | SIf _ a | SWhile _ a | SDo a _ | SFor _ _ a => labels_of a
  | SSwitch _ a => filter is_name (labels_of a)
  | SLab l a => l :: labels_of a
  end.

(** C17 6.8.1p3, 6.8.4.2p3: names unique in the function, cases in their switch. *)
Fixpoint unique_in_switches (s : stmt) : Prop :=
  match s with
  | SSkip | SExpr _ | SBreak | SContinue | SGoto _ | SReturn _ => True
  | SSeq a b | SIfElse _ a b => unique_in_switches a /\ unique_in_switches b
  | SIf _ a | SWhile _ a | SDo a _ | SFor _ _ a | SLab _ a => unique_in_switches a
  | SSwitch _ a => NoDup (labels_of a) /\ unique_in_switches a
  end.
Definition unique_labels (body : stmt) : Prop := NoDup (labels_of body) /\ unique_in_switches body.

Fixpoint mpts (l : list item) : list nat :=
  match l with [] => [] | R p :: r => p :: mpts r | _ :: r => mpts r end.
Lemma mpts_app : forall a b, mpts (a ++ b) = mpts a ++ mpts b.
Proof. induction a as [|[x|p|p|p] a IH]; intros; cbn; rewrite ?IH; auto. Qed.
Lemma mpts_I : forall l, mpts (map I l) = [].
Proof. induction l; cbn; auto. Qed.
Lemma mpts_code : forall pos e, mpts (code S pos e) = [].
Proof. intros. apply mpts_I. Qed.
Lemma mpts_edispatch : forall F l q, mpts (edispatch F q l) = [].
Proof. induction l; intros; cbn; auto. Qed.

Definition between (k n p : nat) : Prop := exists j, p = fresh j /\ (k <= j < k + n)%nat.

Lemma mpts_of : forall s F pos k p, In p (mpts (semit F pos k s)) -> between k (pcount s) p \/ exists L, In L (labels_of s) /\ p = pt F L.
Proof.
  assert (W : forall k n k' n' p, (k' <= k)%nat -> (k + n <= k' + n')%nat -> between k n p -> between k' n' p).
  { intros k n k' n' p A B (j & -> & C). exists j. split; auto. lia. }
  assert (B0 : forall k n j, (k <= j < k + n)%nat -> between k n (fresh j)) by (intros; eexists; eauto).
  Ltac parts := repeat match goal with
    | H : In _ (_ ++ _) |- _ => apply in_app_or in H; destruct H as [H|H]
    | H : In _ (_ :: _) |- _ => destruct H as [H|H]; [subst|]
    | H : In _ [] |- _ => destruct H
    end.
  induction s; intros F pos k p H; cbn [StmtEmit.semit pcount labels_of] in *; cbv zeta in *;
    repeat (rewrite mpts_app in H || rewrite mpts_code in H || rewrite mpts_edispatch in H || cbn [mpts app] in H); parts.
  - apply IHs1 in H. destruct H as [H|(L & A & B)]; [left; eapply W; [| |exact H]; lia|right; exists L; rewrite in_app_iff; auto].
  - apply IHs2 in H. destruct H as [H|(L & A & B)]; [left; eapply W; [| |exact H]; lia|right; exists L; rewrite in_app_iff; auto].
  - apply IHs in H. destruct H as [H|(L & A & B)]; [left; eapply W; [| |exact H]; lia|right; exists L; auto].
  - left. apply B0. lia.
  - apply IHs1 in H. destruct H as [H|(L & A & B)]; [left; eapply W; [| |exact H]; lia|right; exists L; rewrite in_app_iff; auto].
  - left. apply B0. lia.
  - apply IHs2 in H. destruct H as [H|(L & A & B)]; [left; eapply W; [| |exact H]; lia|right; exists L; rewrite in_app_iff; auto].
  - left. apply B0. lia.
  - left. apply B0. lia.
  - apply IHs in H. destruct H as [H|(L & A & B)]; [left; eapply W; [| |exact H]; lia|right; exists L; auto].
  - left. apply B0. lia.
  - apply IHs in H. destruct H as [H|(L & A & B)]; [left; eapply W; [| |exact H]; lia|right; exists L; auto].
  - left. apply B0. lia.
  - left. apply B0. lia.
  - destruct c; [rewrite mpts_app, mpts_code in H|]; destruct H.
  - apply IHs in H. destruct H as [H|(L & A & B)]; [left; eapply W; [| |exact H]; lia|right; exists L; auto].
  - left. apply B0. lia.
  - destruct t; [rewrite mpts_app, mpts_code in H|]; destruct H.
  - left. apply B0. lia.
  - apply IHs in H. destruct H as [H|(L & A & B)]; [left; eapply W; [| |exact H]; lia|].
    destruct L as [l|v|]; cbn [pt pcase pdef] in B.
    + right. exists (LName l). split; auto. apply filter_In. auto.
    + left. rewrite B. apply B0. assert (IV : In v (cases s)).
      { clear - A. induction s; cbn [labels_of cases] in *; rewrite ?in_app_iff in *; try tauto.
        - apply filter_In in A. destruct A; discriminate.
        - destruct A as [->|A]; cbn; auto. }
      clear - IV. assert (idx v (cases s) < length (cases s))%nat; [|lia].
      induction (cases s) as [|w r IH]; [destruct IV|]. cbn. destruct (Z.eqb_spec v w); [lia|].
      destruct IV as [E|IV]; [congruence|]. apply IH in IV. lia.
    + left. rewrite B. apply B0. lia.
  - left. apply B0. lia.
  - right. exists l. split; [left|]; auto.
  - apply IHs in H. destruct H as [H|(L & A & B)]; [left; eapply W; [| |exact H]; lia|right; exists L; split; [right|]; auto].
  - destruct e; cbn in H; [|contradiction]. repeat (rewrite mpts_app in H || rewrite mpts_code in H || rewrite mpts_I in H). destruct H.
Qed.

(** The points of the visible labels are distinct and not among those from [k] on. *)
Definition env_ok (F : penv) (k : nat) (ls : list lab) : Prop :=
  (forall L L', In L ls -> In L' ls -> pt F L = pt F L' -> L = L') /\
  (forall L, In L ls -> is_name L = false -> exists j, pt F L = fresh j /\ (j < k)%nat).

Lemma env_sub : forall F k k' ls ls', env_ok F k ls -> incl ls' ls -> (k <= k')%nat -> env_ok F k' ls'.
Proof.
  intros F k k' ls ls' [A B] I0 LE. split; [intros; apply A; auto|].
  intros L HI N. destruct (B L (I0 _ HI) N) as (j & X & Y). exists j. split; auto. lia.
Qed.

Lemma between_label : forall F k n ls L p, env_ok F k ls -> In L ls -> between k n p -> p = pt F L -> False.
Proof.
  intros F k n ls L p [_ B] I0 (j & -> & R0) E. destruct L as [l|v|].
  - cbn in E. unfold fresh in E. lia.
  - destruct (B _ I0 eq_refl) as (j' & X & Y). rewrite X in E. unfold fresh in E. lia.
  - destruct (B _ I0 eq_refl) as (j' & X & Y). rewrite X in E. unfold fresh in E. lia.
Qed.

Lemma nodup_app : forall A (a b : list A), NoDup a -> NoDup b -> (forall x, In x a -> In x b -> False) -> NoDup (a ++ b).
Proof.
  induction a; intros b NA NB D; cbn; auto. inversion NA; subst. constructor.
  - rewrite in_app_iff. intros [X|X]; [auto|]. apply (D a); [left|]; auto.
  - apply IHa; auto. intros x X Y. apply (D x); [right|]; auto.
Qed.
Lemma nodup_app_inv : forall A (a b : list A), NoDup (a ++ b) -> NoDup a /\ NoDup b /\ (forall x, In x a -> In x b -> False).
Proof.
  induction a; intros b N; cbn in N.
  - split; [constructor|]. split; auto.
  - inversion N; subst. destruct (IHa _ H2) as (A1 & A2 & A3). rewrite in_app_iff in H1. split; [constructor; tauto|]. split; auto.
    intros x [->|X] Y; [tauto|eauto].
Qed.
Lemma nodup_snoc : forall A (a : list A) x, NoDup a -> ~ In x a -> NoDup (a ++ [x]).
Proof.
  intros. apply nodup_app; auto; [constructor; [intros []|constructor]|]. intros y Y [->|[]]. auto.
Qed.

Lemma not_fresh : forall s F pos k j, env_ok F k (labels_of s) -> (j < k)%nat ->
  (forall L, In L (labels_of s) -> pt F L <> fresh j) -> ~ In (fresh j) (mpts (semit F pos k s)).
Proof.
  intros s F pos k j EO LT ND H. apply mpts_of in H. destruct H as [(i & E & R0)|(L & A & B)].
  - unfold fresh in E. lia.
  - apply (ND L A). auto.
Qed.

Lemma pt_fresh : forall F k ls L j, env_ok F k ls -> In L ls -> (k <= j)%nat -> pt F L <> fresh j.
Proof.
  intros F k ls L j EO I0 LE E. eapply (between_label F k (j - k + 1)); eauto. exists j. split; auto. lia.
Qed.

Lemma nodup_mpts : forall s F pos k, NoDup (labels_of s) -> unique_in_switches s -> env_ok F k (labels_of s) ->
  NoDup (mpts (semit F pos k s)).
Proof.
  Ltac nf EO := eapply not_fresh; [eapply env_sub; [exact EO| |]; [intros ? ?; rewrite ?in_app_iff; auto|lia]|lia|
     intros ? ?; eapply pt_fresh; [exact EO|rewrite ?in_app_iff; auto|lia]].
  induction s; intros F pos k N U EO; cbn [StmtEmit.semit labels_of unique_in_switches] in *; cbv zeta in *;
    repeat (rewrite mpts_app || rewrite mpts_code || rewrite mpts_edispatch || cbn [mpts app]); try (constructor; fail).
  - apply nodup_app_inv in N. destruct N as (N1 & N2 & N3). destruct U as [U1 U2]. apply nodup_app.
    + apply IHs1; auto. eapply env_sub; [exact EO| |lia]. intros ? ?; rewrite in_app_iff; auto.
    + apply IHs2; auto. eapply env_sub; [exact EO| |lia]. intros ? ?; rewrite in_app_iff; auto.
    + intros p H1 H2. pose proof H2 as H2'. apply mpts_of in H1. apply mpts_of in H2.
      destruct H1 as [H1|(L1 & A1 & B1)], H2 as [H2|(L2 & A2 & B2)].
      * destruct H1 as (j & E & R1), H2 as (j' & E' & R2). unfold fresh in *. lia.
      * eapply between_label; [exact EO| |exact H1|exact B2]. rewrite in_app_iff; auto.
      * eapply (between_label F k (pcount s1 + pcount s2)); [exact EO| | |exact B1]; [rewrite in_app_iff; auto|].
        destruct H2 as (j & E & R2). exists j. split; auto. lia.
      * apply (N3 L1); auto. assert (L1 = L2); [|now subst]. apply EO; rewrite ?in_app_iff; auto. congruence.
  - apply nodup_snoc; [apply IHs; auto; eapply env_sub; [exact EO|apply incl_refl|lia]|nf EO].
  - apply nodup_app_inv in N. destruct N as (N1 & N2 & N3). destruct U as [U1 U2]. apply nodup_app.
    + apply IHs1; auto. eapply env_sub; [exact EO| |lia]. intros ? ?; rewrite in_app_iff; auto.
    + constructor.
      * rewrite in_app_iff. intros [H|[H|[]]]; [revert H; nf EO|unfold fresh in H; lia].
      * apply nodup_snoc; [apply IHs2; auto; eapply env_sub; [exact EO| |lia]; intros ? ?; rewrite in_app_iff; auto|nf EO].
    + intros p H1 [H2|H2].
      * subst p. revert H1. nf EO.
      * rewrite in_app_iff in H2. destruct H2 as [H2|[<-|[]]].
        2:{ revert H1. nf EO. }
        apply mpts_of in H1. apply mpts_of in H2.
        destruct H1 as [H1|(L1 & A1 & B1)], H2 as [H2|(L2 & A2 & B2)].
        -- destruct H1 as (j & E & R1), H2 as (j' & E' & R2). unfold fresh in *. lia.
        -- eapply (between_label F k (2 + pcount s1)); [exact EO| | |exact B2]; [rewrite in_app_iff; auto|].
           destruct H1 as (j & E & R2). exists j. split; auto. lia.
        -- eapply (between_label F k (2 + pcount s1 + pcount s2)); [exact EO| | |exact B1]; [rewrite in_app_iff; auto|].
           destruct H2 as (j & E & R2). exists j. split; auto. lia.
        -- apply (N3 L1); auto. assert (L1 = L2); [|now subst]. apply EO; rewrite ?in_app_iff; auto. congruence.
  - set (F' := {| pbrk := _ |}). assert (EO' : env_ok F' k (labels_of s)) by exact EO. constructor.
    + rewrite in_app_iff. intros [H|[H|[]]]; [revert H; nf EO'|unfold fresh in H; lia].
    + apply nodup_snoc; [apply IHs; auto; eapply env_sub; [exact EO'|apply incl_refl|lia]|nf EO'].
  - set (F' := {| pbrk := _ |}). assert (EO' : env_ok F' k (labels_of s)) by exact EO. apply nodup_app.
    + apply IHs; auto; eapply env_sub; [exact EO'|apply incl_refl|lia].
    + constructor; [|constructor; [intros []|constructor]]. intros [H|[]]. unfold fresh in H; lia.
    + intros p H1 [<-|[<-|[]]]; revert H1; nf EO'.
  - set (F' := {| pbrk := _ |}). assert (EO' : env_ok F' k (labels_of s)) by exact EO.
    assert (M1 : mpts match c with Some c => code S pos c ++ [I OBNot; JB (fresh k)] | None => [] end = [])
      by (destruct c; rewrite ?mpts_app, ?mpts_code; auto).
    set (q := (_ + slen _ s)%nat).
    assert (M2 : mpts match t with Some t => code S q t ++ [I OPop] | None => [] end = [])
      by (destruct t; rewrite ?mpts_app, ?mpts_code; auto).
    rewrite M1, M2. cbn [app]. apply nodup_app.
    + apply IHs; auto; eapply env_sub; [exact EO'|apply incl_refl|lia].
    + constructor; [|constructor; [intros []|constructor]]. intros [H|[]]. unfold fresh in H; lia.
    + intros p H1 [<-|[<-|[]]]; revert H1; nf EO'.
  - destruct U as [U1 U2]. set (F' := {| pbrk := _ |}).
    assert (IX : forall l v, In v l -> (idx v l < length l)%nat).
    { induction l as [|w r IH]; intros v0 IV; [destruct IV|]. cbn. destruct (Z.eqb_spec v0 w); [lia|].
      destruct IV as [E|IV]; [congruence|]. apply IH in IV. lia. }
    assert (INJ : forall l v w, In v l -> In w l -> idx v l = idx w l -> v = w).
    { induction l as [|x r IH]; intros v w IV IW E; [destruct IV|]. cbn in E.
      destruct (Z.eqb_spec v x), (Z.eqb_spec w x); try congruence.
      destruct IV as [?|IV], IW as [?|IW]; try congruence. apply IH; auto. }
    assert (CS : forall s v, In (LCase v) (labels_of s) -> In v (cases s)).
    { clear. induction s; cbn [labels_of cases]; intros v A; rewrite ?in_app_iff in *; try tauto; auto.
      - destruct A as [A|A]; auto.
      - destruct A as [A|A]; auto.
      - apply filter_In in A. destruct A; discriminate.
      - destruct A as [->|A]; cbn; auto. }
    assert (EO' : env_ok F' (k + 2 + length (cases s)) (labels_of s)).
    { split.
      - intros [l|v|] [l'|v'|] I1 I2 E; cbn in E; unfold fresh in E; try lia; auto.
        + f_equal. lia.
        + f_equal. apply (INJ (cases s)); auto. lia.
      - intros [l|v|] I1 NN; cbn; try discriminate; eexists; (split; [reflexivity|]).
        + apply CS in I1. apply IX in I1. lia.
        + lia. }
    apply nodup_snoc; [apply IHs; auto|].
    eapply not_fresh; [exact EO'|lia|]. intros [l|v|] I1; cbn; unfold fresh; lia.
  - inversion N; subst. constructor.
    + intro H. apply mpts_of in H. destruct H as [H|(L & A & B)].
      * eapply between_label; [exact EO|left; reflexivity|exact H|reflexivity].
      * assert (l = L); [|now subst]. apply EO; auto; [left|right]; auto.
    + apply IHs; auto. eapply env_sub; [exact EO| |lia]. intros ? ?; right; auto.
  - destruct e; cbn; [|constructor]. repeat (rewrite mpts_app || rewrite mpts_code || rewrite mpts_I). constructor.
Qed.

Lemma well_used_snoc : forall (l : list (FlowModel.action instr)) a, PropFlow.well_used l ->
  match a with
  | FlowModel.Append _ _ => True
  | FlowModel.Reference p b i => exists x, nth_error (PropFlow.emitted l b) i = Some x /\ FlowModel.patchable (FlowModel.op x) = true
  | FlowModel.Resolve p v => forall w, ~ PropFlow.placed l p w
  end -> PropFlow.well_used (l ++ [a]).
Proof.
  intros l a [A B] H. split.
  - intros l1 l2 p b i E. destruct l2 as [|y l2 _] using rev_ind.
    + apply app_inj_tail in E. destruct E as [<- ->]. exact H.
    + rewrite app_comm_cons, app_assoc in E. apply app_inj_tail in E. destruct E as [-> _]. eapply A. reflexivity.
  - intros l1 l2 p v E. destruct l2 as [|y l2 _] using rev_ind.
    + apply app_inj_tail in E. destruct E as [<- ->]. exact H.
    + rewrite app_comm_cons, app_assoc in E. apply app_inj_tail in E. destruct E as [-> _]. eapply B. reflexivity.
Qed.

Lemma well_used_acts : forall l pos pre, length (PropFlow.emitted pre 0) = pos -> PropFlow.well_used pre ->
  NoDup (mpts l) -> (forall p, In p (mpts l) -> forall w, ~ PropFlow.placed pre p w) -> PropFlow.well_used (pre ++ acts pos l).
Proof.
  assert (SN : forall (pre : list (FlowModel.action instr)) a r, pre ++ a :: r = (pre ++ [a]) ++ r) by (intros; now rewrite <- app_assoc).
  assert (PS : forall pre (a : FlowModel.action instr) p w, PropFlow.placed (pre ++ [a]) p w -> PropFlow.placed pre p w \/ a = FlowModel.Resolve p w).
  { intros pre a p w H. unfold PropFlow.placed in *. rewrite in_app_iff in H. cbn in H. tauto. }
  induction l as [|x l IH]; intros pos pre LE W N D; cbn [acts]; [now rewrite app_nil_r|].
  assert (JC : forall j p, FlowModel.patchable (FlowModel.op (enc j)) = true -> (forall q, In q (mpts l) -> forall w, ~ PropFlow.placed pre q w) -> NoDup (mpts l) ->
    PropFlow.well_used (pre ++ FlowModel.Append 0 (enc j) :: FlowModel.Reference p 0 pos :: acts (Datatypes.S pos) l)).
  { intros j p PJ D' N'. rewrite SN, SN. apply IH; auto.
    - rewrite !PropFlow.emitted_app. cbn. rewrite app_nil_r, app_length. cbn. lia.
    - apply well_used_snoc; [apply well_used_snoc; auto|]. rewrite PropFlow.emitted_app. cbn. exists (enc j).
      rewrite nth_error_app2 by lia. rewrite LE, Nat.sub_diag. auto.
    - intros q Q w H. apply PS in H. destruct H as [H|H]; [|discriminate]. apply PS in H. destruct H as [H|H]; [|discriminate].
      eapply D'; eauto. }
  destruct x as [x|p|p|p]; cbn [mpts] in *.
  - rewrite SN. apply IH; auto.
    + rewrite PropFlow.emitted_app. cbn. rewrite app_length. cbn. lia.
    + apply well_used_snoc; auto.
    + intros q Q w H. apply PS in H. destruct H as [H|H]; [|discriminate]. eapply D; eauto.
  - apply JC; auto.
  - apply JC; auto.
  - inversion N; subst. rewrite SN. apply IH; auto.
    + rewrite PropFlow.emitted_app. cbn. rewrite app_nil_r. auto.
    + apply well_used_snoc; auto. apply D. left; auto.
    + intros q Q w H. apply PS in H. destruct H as [H|H]; [eapply D; [right|]; eauto|]. injection H as -> _. contradiction.
Qed.

(** With unique labels the translation of a body never fails. *)
Theorem translation_succeeds : forall body, unique_labels body -> (forall L, In L (labels_of body) -> is_name L = true) ->
  exists st, translate_body S rty body = FlowModel.Ok st.
Proof.
  intros body [N U] NM. apply PropFlow.c29_succeeds. apply (well_used_acts _ 0 []).
  - reflexivity.
  - split; intros l1 l2 p b; [intros i|]; intro E; destruct l1; discriminate.
  - apply nodup_mpts; auto. split.
    + intros L L' I1 I2 E. apply NM in I1, I2. destruct L, L'; try discriminate. cbn in E. f_equal. lia.
    + intros L I1 X. apply NM in I1. congruence.
  - intros p _ w [].
Qed.

End Agree.
