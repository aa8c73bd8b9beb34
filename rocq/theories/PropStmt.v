(** Properties C27, C28 and C30: translated statements.

    The specification is [cexec] and [cfun] (CStmt.v), the program is [fun_code] and
    [scomp] (StmtCompile.v) run on the machine of IRMachine.v. *)

From Coq Require Import ZArith Lia Bool List Arith.
From Verif Require Import Bits CTypes TypeConvModel Memory CSem CStmt IRMachine ExprCompile ArithProofs ExprSide ExprProofs PropExpr StmtCompile StmtProofs.
Import ListNotations.
Open Scope Z_scope.

(** ** Outcomes a statement can have *)

Lemma outcomes : forall S G rty labels n md s m r, cexec S G rty n md s m r ->
  forall br co, swf S rty labels br co s = true ->
  match r with
  | RDone OBrk _ => br = true
  | RDone OCont _ => co = true
  | RDone (OGoto l) _ => labels l = true
  | _ => True
  end.
Proof.
  assert (BN : forall r (P : nat -> Prop) br co, match r with
      | RDone OBrk _ => True | RDone OCont _ => co = true | RDone (OGoto l) _ => P l | _ => True end ->
      match brk_norm r with RDone OBrk _ => br = true | RDone OCont _ => co = true | RDone (OGoto l) _ => P l | _ => True end).
  { intros [[]| |] P br co H; cbn; auto. }
  intros S G rty labels n md s m r H. induction H; intros br co W; cbn [swf] in *;
    repeat match goal with X : _ && _ = true |- _ => apply andb_true_iff in X; destruct X end; auto;
    try (eapply IHcexec; eauto; fail); try (eapply IHcexec2; eauto; fail).
  - specialize (IHcexec true co ltac:(auto)). apply (BN r (fun l => labels l = true)). destruct r as [[]| |]; auto.
  - specialize (IHcexec true co ltac:(auto)). apply (BN r (fun l => labels l = true)). destruct r as [[]| |]; auto.
  - specialize (IHcexec true true ltac:(auto)). destruct r as [[]| |]; cbn in *; auto; discriminate.
  - apply IHcexec2. apply andb_true_iff; split; auto.
  - specialize (IHcexec true true ltac:(auto)). destruct r as [[]| |]; cbn in *; auto; discriminate.
  - apply IHcexec2. rewrite !andb_true_iff; auto.
  - apply IHcexec. rewrite !andb_true_iff; auto.
Qed.

(** ** C27 *)

(** Leaving the function: by reaching the end of its code, or at a RET with the value
    on top of the operand stack. *)
Definition final (C : list instr) (o : outcome) (m : mem) (c : config) : Prop :=
  match o with
  | ONorm => exists stk, c = (length C, stk, m)
  | OReturn None => exists p stk, nth_error C p = Some ORet /\ c = (p, stk, m)
  | OReturn (Some v) => exists p stk, nth_error C p = Some ORet /\ c = (p, u64 v :: stk, m)
  | _ => False
  end.

Lemma final_stops : forall G C o m c, final C o m c -> step G C c = None.
Proof.
  intros G C o m c H. destruct o as [| | | |[v|]]; cbn in H; try contradiction.
  - destruct H as [stk ->]. apply at_end.
  - destruct H as (p & stk & N & ->). unfold step. now rewrite N.
  - destruct H as (p & stk & N & ->). unfold step. now rewrite N.
Qed.

Lemma function_sim : forall S G rty body, fun_wf S rty body = true -> stmt_ok S rty body = true ->
  forall n md pc m stk, spos S rty md 0 body = Some pc ->
  let C := fun_code S rty body in
  cfun S G rty body n md m RUB \/
  (exists o m' c, cfun S G rty body n md m (RDone o m') /\ final C o m' c /\ star G C (pc, stk, m) c) \/
  (cfun S G rty body n md m RTimeout /\ atleast G C n (pc, stk, m)).
Proof.
  intros S G rty body WF OK n. induction n as [n IH] using lt_wf_ind. intros md pc m stk HP C.
  unfold fun_code in C. set (E := {| brk := _; cont := _; labs := _ |}) in C.
  assert (HC : code_at C 0 (scomp S rty E 0 body)) by (exists [], []; rewrite app_nil_r; auto).
  assert (LC : length C = slen S rty 0 body) by apply scomp_length.
  destruct (stmt_correct S G rty body _ _ _ WF OK n md E C 0%nat pc m stk HC HP) as [U|[(o & m' & lk & X & Y & _)|[X Y]]].
  - left. constructor; auto. discriminate.
  - pose proof (outcomes _ _ _ _ _ _ _ _ _ X _ _ WF) as OC. cbn in OC.
    destruct o; try discriminate OC.
    + right; left. exists ONorm, m', (length C, lk ++ stk, m'). split; [constructor; auto; discriminate|].
      split; [cbn; eauto|]. cbn [exits Nat.add] in Y. rewrite LC. exact Y.
    + cbn [exits labs E] in Y. destruct (has_some S rty body (LName l) 0 OC) as [q Q].
      assert (L : at_label S rty 0 body (LName l) 0 = q) by (unfold at_label; now rewrite Q).
      unfold E in Y. cbn [labs] in Y. rewrite L in Y.
      destruct n as [|n].
      * right; right. split; [eapply f_goto_time; eauto|apply atleast_0].
      * destruct (IH n ltac:(lia) (Some (LName l)) q m' (lk ++ stk) Q) as [U|[(o2 & m2 & c2 & X2 & F2 & Y2)|[X2 Y2]]].
        -- left. eapply f_goto; eauto.
        -- right; left. exists o2, m2, c2. split; [eapply f_goto; eauto|]. split; auto.
           eapply star_trans; [apply star1_star; exact Y|exact Y2].
        -- right; right. split; [eapply f_goto; eauto|]. eapply atleast_star1; [exact Y|exact Y2].
    + right; left. cbn [exits] in Y. destruct Y as (p & N & Y).
      eexists (OReturn v), m', _. split; [constructor; auto; discriminate|]. split; [|exact Y].
      destruct v; cbn; eauto.
  - right; right. split; auto. constructor; auto. discriminate.
Qed.

(** A function body without undefined behaviour: if its code stops, it stops where C
    does, with a memory and a return value C allows; if it never stops, C allows it
    never to stop.  [stmt_ok] asks that compound assignments and conditional operators
    have operand types in the sets of C25 and C26, and that case constants have values
    of the promoted type of their switch (C30). *)
Theorem c27_statements_partial : forall S G rty body m stk,
  fun_wf S rty body = true -> stmt_ok S rty body = true ->
  (forall n, ~ cfun S G rty body n None m RUB) ->
  let C := fun_code S rty body in
  (forall k c, steps G C k (0%nat, stk, m) c -> step G C c = None ->
     exists n o m', cfun S G rty body n None m (RDone o m') /\ final C o m' c) /\
  ((forall k, exists c, steps G C k (0%nat, stk, m) c) -> forall n, cfun S G rty body n None m RTimeout).
Proof.
  intros S G rty body m stk WF OK NU C. split.
  - intros k c ST STOP.
    destruct (function_sim S G rty body WF OK (Datatypes.S k) None 0%nat m stk eq_refl) as [U|[(o & m' & c' & X & F & Y)|[X Y]]].
    + exfalso. eapply NU; eauto.
    + exists (Datatypes.S k), o, m'. split; auto. destruct Y as [j Y].
      assert (c = c') by (eapply steps_end; eauto; eapply final_stops; eauto). subst c'. exact F.
    + exfalso. destruct Y as (j & c' & L & Y). fold C in Y. clear - ST STOP L Y.
      revert j c' L Y. induction ST; intros j c' L Y; inversion Y; subst; try lia; try congruence.
      match goal with A : step _ _ ?x = Some _, B : step _ _ ?x = Some _ |- _ => rewrite A in B; injection B as -> end.
      eapply IHST; [exact STOP| |eassumption]. lia.
  - intros INF n. destruct (function_sim S G rty body WF OK n None 0%nat m stk eq_refl) as [U|[(o & m' & c' & X & F & Y)|[X Y]]]; auto.
    + exfalso. eapply NU; eauto.
    + exfalso. destruct Y as [j Y]. apply final_stops with (G := G) in F. fold C in Y. destruct (INF (Datatypes.S j)) as [c ST].
      clear - Y F ST. revert c ST. fold C in F. induction Y; intros c' ST; inversion ST; subst; try congruence.
      match goal with A : step _ _ ?x = Some _, B : step _ _ ?x = Some _ |- _ => rewrite A in B; injection B as -> end.
      eapply IHY; eauto.
Qed.

(** The machine never gets stuck half-way, and stops if no permitted C execution goes
    on for ever. *)
Theorem c27_terminates_partial : forall S G rty body m stk n,
  fun_wf S rty body = true -> stmt_ok S rty body = true ->
  ~ cfun S G rty body n None m RUB -> ~ cfun S G rty body n None m RTimeout ->
  let C := fun_code S rty body in
  exists o m' c, star G C (0%nat, stk, m) c /\ step G C c = None /\
    cfun S G rty body n None m (RDone o m') /\ final C o m' c.
Proof.
  intros S G rty body m stk n WF OK NU NT C.
  destruct (function_sim S G rty body WF OK n None 0%nat m stk eq_refl) as [U|[(o & m' & c' & X & F & Y)|[X Y]]]; try contradiction.
  exists o, m', c'. split; [exact Y|]. split; [eapply final_stops; eauto|]. auto.
Qed.

(** With expressions free of compound assignment and ?:, and no switch, there is no
    side condition except on returned arrays. *)
Fixpoint plain_stmt (s : stmt) : bool :=
  match s with
  | SSkip | SBreak | SContinue | SGoto _ | SReturn None => true
  | SExpr e => plain e
  | SSeq a b => plain_stmt a && plain_stmt b
  | SIf c a | SWhile c a | SDo a c => plain c && plain_stmt a
  | SIfElse c a b => plain c && plain_stmt a && plain_stmt b
  | SFor c t a => match c with Some c => plain c | None => true end && match t with Some t => plain t | None => true end && plain_stmt a
  | SSwitch _ _ => false
  | SLab _ a => plain_stmt a
  | SReturn (Some e) => plain e
  end.

Lemma plain_stmt_ok : forall S rty s, match rty with Some (TInt _) => False | _ => True end -> plain_stmt s = true -> stmt_ok S rty s = true.
Proof.
  intros S rty s R. induction s; cbn [plain_stmt stmt_ok]; intro H; auto;
    repeat match goal with X : _ && _ = true |- _ => apply andb_true_iff in X; destruct X end; rewrite ?andb_true_iff; auto using plain_ok.
  - split; [split|]; auto; [destruct c|destruct t]; cbn; auto using plain_ok.
  - discriminate.
  - destruct e; auto. rewrite andb_true_iff. split; [now apply plain_ok|]. unfold ret_ok. destruct rty as [[]|]; auto.
Qed.

(** *** Concrete case *)
(** for (i = 0;; i++) { if (i > 3) break; continue; } goto out; out: return i; *)
Definition exi : expr := ELocal 0 (TInt IInt).
Definition ex_body : stmt :=
  SSeq (SForI (EAssign exi (EConst IInt 0)) None (Some (EIncDec false true exi))
          (SSeq (SIf (EBin BGt exi (EConst IInt 3)) SBreak) SContinue))
  (SSeq (SGoto 7) (SLab (LName 7) (SReturn (Some exi)))).
Example ex_body_ok : fun_wf S0 (Some (TInt ILong)) ex_body = true /\ stmt_ok S0 (Some (TInt ILong)) ex_body = true.
Proof. split; reflexivity. Qed.

(** if (1) goto out; out: return 5; has no undefined execution. *)
Definition ex_body2 : stmt := SSeq (SIf (EConst IInt 1) (SGoto 0)) (SLab (LName 0) (SReturn (Some (EConst IInt 5)))).
Example ex_body2_ok : fun_wf S0 (Some (TInt IInt)) ex_body2 = true /\ stmt_ok S0 (Some (TInt IInt)) ex_body2 = true.
Proof. split; reflexivity. Qed.
Example ex_body2_defined : forall n m, ~ cfun S0 G0 (Some (TInt IInt)) ex_body2 n None m RUB.
Proof.
  assert (CC : forall i w m r, ceval S0 G0 RV (EConst i w) m r -> r = Some (w, m)) by (intros i w m r E; inv E; [discriminate|reflexivity]).
  intros n m H. unfold ex_body2 in H.
  repeat match goal with
     | X : cexec _ _ _ _ _ (SSeq _ _) _ _ |- _ => inv X
     | X : cexec _ _ _ _ _ (SIf _ _) _ _ |- _ => inv X
     | X : cexec _ _ _ _ _ (SGoto _) _ _ |- _ => inv X
     | X : cexec _ _ _ _ _ (SLab _ _) _ _ |- _ => inv X
     | X : cexec _ _ _ _ _ (SReturn _) _ _ |- _ => inv X
     | X : here _ _ = true |- _ => discriminate X
     | X : ceval _ _ RV (EConst _ _) _ _ |- _ => apply CC in X; try discriminate X
     | X : cfun _ _ _ _ _ _ _ _ |- _ => inv X end.
Qed.

(** ** C28: the operand stack *)

Theorem c28_expression_one_slot : forall S G e t m, ctype_of S e = Some t -> expr_ok S e = true -> ~ ceval S G RV e m None ->
  forall pos, exists code slot m', translate S pos e = Some code /\ forall stk, runs G pos code stk m (slot :: stk) m'.
Proof.
  intros S G e t m T OK NU pos. destruct (c22_expression_value_and_effects S G e t m T OK NU) as (v & m' & _ & _ & K).
  destruct (K pos) as (code & TE & R). exists code, (u64 v), m'. auto.
Qed.

(** [balanced s]: wherever the code of [s] is placed and however it is entered, on every
    way out (its end, break, continue, goto, return) the stack has its original
    content, apart from the returned value. *)
Definition balanced (S : senv) (rty : option cty) (s : stmt) : Prop :=
  forall G n md E C pos pc m stk, code_at C pos (scomp S rty E pos s) -> spos S rty md pos s = Some pc ->
  ~ cexec S G rty n md s m RUB -> ~ cexec S G rty n md s m RTimeout ->
  exists o m', cexec S G rty n md s m (RDone o m') /\
    exits G C E (pos + slen S rty pos s) (pc, stk, m) o stk m'.

Theorem c28_statement_balance_partial : forall S rty labels br co s,
  swf S rty labels br co s = true -> stmt_ok S rty s = true -> noswitch s = true -> balanced S rty s.
Proof.
  intros S rty labels br co s WF OK NS G n md E C pos pc m stk HC HP NU NT.
  destruct (stmt_correct S G rty s _ _ _ WF OK n md E C pos pc m stk HC HP) as [U|[(o & m' & lk & X & Y & Z)|[X Y]]]; try contradiction.
  exists o, m'. split; auto. rewrite (Z NS) in Y. exact Y.
Qed.

Example c28_balance_case : swf S0 None (fun _ => true) true true ex_body = false /\
  swf S0 (Some (TInt ILong)) (fun _ => true) true true ex_body = true /\ noswitch ex_body = true.
Proof. repeat split. Qed.

(** switch (1) {} leaves its operand on the stack. *)
Theorem c28_statement_balance_refuted : ~ balanced S0 None (SSwitch (EConst IInt 1) SSkip).
Proof.
  intro H. specialize (H G0 0%nat None {| brk := 0; cont := 0; labs := fun _ => 0%nat |}
     (scomp S0 None {| brk := 0; cont := 0; labs := fun _ => 0%nat |} 0 (SSwitch (EConst IInt 1) SSkip)) 0%nat 0%nat m0 []).
  assert (CC : forall i w m r, ceval S0 G0 RV (EConst i w) m r -> r = Some (w, m)) by (intros i w m r E; inv E; [discriminate|reflexivity]).
  assert (XC : forall r, cexec S0 G0 None 0 None (SSwitch (EConst IInt 1) SSkip) m0 r -> r = RDone ONorm m0).
  { intros r X. inv X.
    - match goal with X : ceval _ _ _ _ _ _ |- _ => apply CC in X; discriminate X end.
    - match goal with X : selects _ _ _ _ |- _ => inv X; [contradiction|discriminate] end.
    - match goal with X : ceval _ _ _ _ _ _ |- _ => apply CC in X; inv X end. reflexivity. }
  destruct H as (o & m' & X & Y); auto.
  - eexists [], []. rewrite app_nil_r. split; reflexivity.
  - intro X. apply XC in X. discriminate.
  - intro X. apply XC in X. discriminate.
  - apply XC in X. inv X. cbn in Y. destruct Y as [k Y].
    assert (Z : steps G0 [OPush 1; OJmp 2] 2 (0%nat, [], m0) (2%nat, [1], m0)).
    { eapply steps_S; [reflexivity|]. eapply steps_S; [reflexivity|]. apply steps_0. }
    assert (Q := steps_end _ _ _ _ _ _ _ Y Z eq_refl eq_refl). inv Q.
Qed.

(** In a loop it grows the stack without bound: while (1) switch (2) {} *)
Definition ex_leak : stmt := SWhile (EConst IInt 1) (SSwitch (EConst IInt 2) SSkip).
Theorem c28_leak_unbounded : forall n, exists k,
  steps G0 (fun_code S0 None ex_leak) k (0%nat, [], m0) (0%nat, repeat 2 n, m0).
Proof.
  induction n as [|n [k IH]].
  - exists O. constructor.
  - exists (k + 6)%nat. eapply steps_trans; [exact IH|]. cbn [repeat].
    do 6 (eapply steps_S; [reflexivity|]). apply steps_0.
Qed.
Example ex_leak_ok : fun_wf S0 None ex_leak = true /\ stmt_ok S0 None ex_leak = true.
Proof. split; reflexivity. Qed.

(** ** C30: switch dispatch *)

(** The index of a label in the code of a switch body; the place after the switch if no
    label is selected. *)
Definition goes_to (S : senv) (rty : option cty) (pos : nat) (e : expr) (a : stmt) (L : option lab) (pc : nat) : Prop :=
  let p := (pos + (clen S pos e + 7 * length (cases a) + 1))%nat in
  match L with Some L => lpos S rty p a L = Some pc | None => pc = (p + slen S rty p a)%nat end.

(** The full statement of C30 for a controlling expression of type [i]. *)
Definition dispatch_correct (S : senv) (rty : option cty) (e : expr) (a : stmt) (i : ity) : Prop :=
  forall G E C pos m stk, code_at C pos (scomp S rty E pos (SSwitch e a)) -> ~ ceval S G RV e m None ->
  exists v m1 L pc stk', ceval S G RV e m (Some (v, m1)) /\ selects (c_promote i) a v L /\
    goes_to S rty pos e a L pc /\ star G C (pos, stk, m) (pc, stk', m1).

Theorem c30_dispatch_partial : forall S rty e a t i, ctype_of S e = Some t -> decay t = TInt i -> expr_ok S e = true ->
  (forall w, In w (cases a) -> in_range (c_promote i) w) -> dispatch_correct S rty e a i.
Proof.
  intros S rty e a t i CT DT OE CR G E C pos m stk HC NU. cbn [scomp] in HC. cbv zeta in HC.
  apply code_at_app in HC. destruct HC as [H1 H2]. fold (clen S pos e) in H2.
  set (q := (pos + clen S pos e)%nat) in *. set (p := (pos + (clen S pos e + 7 * length (cases a) + 1))%nat) in *.
  set (fin := (p + slen S rty p a)%nat) in *.
  apply code_at_app in H2. destruct H2 as [H2 H3]. rewrite dispatch_length, sort_length in H3.
  apply code_at_cons in H3. destruct H3 as [NJ H3].
  destruct (compile_correct S G e t CT OE) as [H _]. destruct (H m) as [U|(v & m1 & EV & R & K)]; [contradiction|].
  cbn [vr] in R. rewrite DT in R. cbn [vrange] in R. apply promote_range in R. set (pt := c_promote i) in *.
  assert (CV : forall w, In w (cases a) -> cconv pt w = w) by (intros; apply cconv_id; auto).
  pose proof (K pos stk C H1) as ST. fold (clen S pos e) in ST. fold q in ST.
  destruct (in_dec Z.eq_dec v (cases a)) as [IN|NI].
  - destruct (has_some S rty a (LCase v) p (cases_has _ _ IN)) as [pc PC].
    exists v, m1, (Some (LCase v)), pc, stk. split; auto. split; [apply sel_case; auto|]. split; [exact PC|].
    eapply star_trans; [exact ST|].
    pose proof (dispatch_hit G C _ q _ v stk m1 H2 (proj2 (sort_in _ _) IN)) as D.
    assert (T : at_label S rty p a (LCase v) 0 = pc) by (unfold at_label; now rewrite PC).
    cbv beta in D. rewrite T in D. apply D. intros w HW EQ. apply (proj1 (sort_in _ _)) in HW.
    exact (u64_inj_range pt w v (CR w HW) R EQ).
  - assert (NS : forall w, In w (cases a) -> cconv pt w <> v) by (intros w HW EQ; rewrite CV in EQ by auto; congruence).
    assert (D : star G C (q, u64 v :: stk, m1) (at_label S rty p a LDefault fin, u64 v :: stk, m1)).
    { eapply star_trans; [eapply dispatch_miss; [exact H2|]|].
      - intros w HW EQ. apply (proj1 (sort_in _ _)) in HW. apply NI. replace v with w; auto. exact (u64_inj_range pt w v (CR w HW) R EQ).
      - rewrite sort_length. apply star_jmp. exact NJ. }
    unfold at_label in D. destruct (has LDefault a) eqn:HD.
    + destruct (has_some S rty a LDefault p HD) as [pc PC]. rewrite PC in D.
      exists v, m1, (Some LDefault), pc, (u64 v :: stk). split; auto. split; [now apply sel_default|]. split; [exact PC|].
      eapply star_trans; eauto.
    + rewrite (has_none S rty a LDefault p HD) in D.
      exists v, m1, None, fin, (u64 v :: stk). split; auto. split; [now apply sel_none|]. split; [reflexivity|].
      eapply star_trans; eauto.
Qed.

(** Under the same condition the selected label is the only one. *)
Theorem c30_selection_unique : forall p a v L L', (forall w, In w (cases a) -> in_range p w) ->
  selects p a v L -> selects p a v L' -> L = L'.
Proof.
  intros p a v L L' CR [w I E|N D|N D] [w' I' E'|N' D'|N' D']; try reflexivity; try congruence;
    try (exfalso; eapply N; eauto; fail); try (exfalso; eapply N'; eauto; fail).
  rewrite cconv_id in E, E' by auto. congruence.
Qed.

(** switch (i) { case 3: ; case -2: { while (1) case 5: break; } default: ; } *)
Definition ex_sw : stmt :=
  SSeq (SLab (LCase 3) SSkip) (SSeq (SLab (LCase (-2)) (SWhile (EConst IInt 1) (SLab (LCase 5) SBreak))) (SLab LDefault SSkip)).
Example c30_case : forall w, In w (cases ex_sw) -> in_range (c_promote IShort) w.
Proof. intros w H. cbn in H. apply in_rangeb_spec. intuition (subst; reflexivity). Qed.

(** An out-of-range constant is not converted: switch (0xffffffffu) { case -1: ; } *)
Theorem c30_dispatch_refuted :
  ~ dispatch_correct S0 None (EConst IUInt 4294967295) (SLab (LCase (-1)) (SExpr (EConst IInt 0))) IUInt.
Proof.
  intro H. set (a := SLab _ _) in H. set (E := {| brk := 0; cont := 0; labs := fun _ => 0%nat |}).
  specialize (H G0 E (scomp S0 None E 0 (SSwitch (EConst IUInt 4294967295) a)) 0%nat m0 []).
  assert (CC : forall i w m r, ceval S0 G0 RV (EConst i w) m r -> r = Some (w, m)) by (intros i w m r X; inv X; [discriminate|reflexivity]).
  destruct H as (v & m1 & L & pc & stk' & EV & SEL & GO & ST).
  - exists [], []. rewrite app_nil_r. auto.
  - intro U. apply CC in U. discriminate.
  - apply CC in EV. inv EV.
    assert (L = Some (LCase (-1))).
    { inv SEL.
      - cbn in H. destruct H as [<-|[]]. reflexivity.
      - exfalso. apply (H (-1)); [cbn; auto|reflexivity].
      - exfalso. apply (H (-1)); [cbn; auto|reflexivity]. }
    subst L. cbn in GO. inv GO.
    (* the machine jumps over the body *)
    destruct ST as [k ST]. cbn in ST.
    repeat (inversion ST as [|? ? ? ? S1 S2]; clear ST; subst; cbn in S1; injection S1 as <-; rename S2 into ST).
    inversion ST as [|? ? ? ? S1 S2]; clear ST; subst; discriminate S1.
Qed.

Print Assumptions c27_statements_partial.
Print Assumptions c27_terminates_partial.
Print Assumptions c28_expression_one_slot.
Print Assumptions c28_statement_balance_partial.
Print Assumptions c28_statement_balance_refuted.
Print Assumptions c28_leak_unbounded.
Print Assumptions c30_dispatch_partial.
Print Assumptions c30_dispatch_refuted.
Print Assumptions c30_selection_unique.
