(** Correctness of the statement translation. *)

From Coq Require Import ZArith Lia Bool List Arith Wf_nat.
From Verif Require Import Bits CTypes TypeConvModel Memory CSem CStmt IRMachine ExprCompile ArithProofs ExprSide ExprProofs StmtCompile.
Import ListNotations.
Open Scope Z_scope.

(** ** Side conditions *)

(** Every case constant is a value of the promoted type of its switch, so that its
    conversion (6.8.4.2p5) changes nothing; the translator compares the unconverted
    constant. *)
Definition case_ok (S : senv) (e : expr) (a : stmt) : bool :=
  match ctype_of S e with
  | Some t => match decay t with TInt i => forallb (in_rangeb (c_promote i)) (cases a) | _ => false end
  | None => false
  end.

Definition oexpr_ok (S : senv) (e : option expr) : bool := match e with Some e => expr_ok S e | None => true end.

(** Returning an array from a function returning _Bool is left unconverted. *)
Definition ret_ok (S : senv) (rty : option cty) (e : expr) : bool :=
  match rty, ctype_of S e with
  | Some (TInt _), Some (TArr _ _) => false
  | _, _ => true
  end.

Fixpoint stmt_ok (S : senv) (rty : option cty) (s : stmt) : bool :=
  match s with
  | SSkip | SBreak | SContinue | SGoto _ => true
  | SExpr e => expr_ok S e
  | SSeq a b => stmt_ok S rty a && stmt_ok S rty b
  | SIf c a | SWhile c a | SDo a c => expr_ok S c && stmt_ok S rty a
  | SIfElse c a b => expr_ok S c && stmt_ok S rty a && stmt_ok S rty b
  | SFor c t a => oexpr_ok S c && oexpr_ok S t && stmt_ok S rty a
  | SSwitch e a => expr_ok S e && case_ok S e a && stmt_ok S rty a
  | SLab _ a => stmt_ok S rty a
  | SReturn None => true
  | SReturn (Some e) => expr_ok S e && ret_ok S rty e
  end.

Fixpoint noswitch (s : stmt) : bool :=
  match s with
  | SSwitch _ _ => false
  | SSeq a b | SIfElse _ a b => noswitch a && noswitch b
  | SIf _ a | SWhile _ a | SDo a _ | SFor _ _ a | SLab _ a => noswitch a
  | _ => true
  end.

(** ** Layout *)

Lemma ins_length : forall v l, length (ins v l) = Datatypes.S (length l).
Proof. induction l; cbn [ins]; auto. destruct (_ <=? _); cbn [length]; auto. Qed.

Lemma sort_length : forall l, length (sort_cases l) = length l.
Proof. induction l; cbn; auto. rewrite ins_length. f_equal. exact IHl. Qed.

Lemma ins_in : forall v l x, In x (ins v l) <-> x = v \/ In x l.
Proof.
  induction l; cbn [ins]; intro x.
  - cbn. intuition.
  - destruct (_ <=? _); cbn [In]; [|rewrite IHl]; intuition.
Qed.

Lemma sort_in : forall l x, In x (sort_cases l) <-> In x l.
Proof. induction l; cbn; [tauto|]. intro x. rewrite ins_in. fold (sort_cases l). rewrite IHl. intuition. Qed.

Section Layout.
Variable S : senv.
Variable rty : option cty.

Lemma dispatch_length : forall l q t, length (dispatch q l t) = (7 * length l)%nat.
Proof. induction l; intros; cbn [dispatch]; auto. rewrite app_length, IHl. cbn [length case_code]. lia. Qed.

Lemma unless_length : forall pos c t, length (unless S pos c t) = (clen S pos c + 2)%nat.
Proof. intros. unfold unless, clen. rewrite app_length. reflexivity. Qed.

Lemma scomp_length : forall s E pos, length (scomp S rty E pos s) = slen S rty pos s.
Proof.
  induction s; intros E pos; cbn [scomp slen]; cbv zeta;
    try destruct c; try destruct t; try destruct e;
    repeat (rewrite ?app_length, ?unless_length, ?IHs, ?IHs1, ?IHs2, ?dispatch_length, ?sort_length; cbn [length]);
    unfold clen; lia.
Qed.

Lemma has_lpos : forall s L pos, if has L s then exists p, lpos S rty pos s L = Some p else lpos S rty pos s L = None.
Proof.
  induction s; intros L pos; cbn [has lpos]; cbv zeta; auto; try apply IHs.
  - specialize (IHs1 L pos). destruct (has L s1); cbn [orb].
    + destruct IHs1 as [p ->]. eauto.
    + rewrite IHs1. apply IHs2.
  - match goal with |- context [lpos _ _ ?p s1 L] => specialize (IHs1 L p) end. destruct (has L s1); cbn [orb].
    + destruct IHs1 as [p ->]. eauto.
    + rewrite IHs1. apply IHs2.
  - destruct (is_name L); cbn [andb]; auto; apply IHs.
  - destruct (lab_eqb l L); cbn [orb]; eauto; apply IHs.
Qed.

Lemma has_some : forall s L pos, has L s = true -> exists p, lpos S rty pos s L = Some p.
Proof. intros s L pos H. pose proof (has_lpos s L pos) as X. now rewrite H in X. Qed.
Lemma has_none : forall s L pos, has L s = false -> lpos S rty pos s L = None.
Proof. intros s L pos H. pose proof (has_lpos s L pos) as X. now rewrite H in X. Qed.
Lemma lpos_has : forall s L pos p, lpos S rty pos s L = Some p -> has L s = true.
Proof. intros s L pos p H. destruct (has L s) eqn:E; auto. apply (has_none _ _ pos) in E. congruence. Qed.

End Layout.

Lemma cases_has : forall s w, In w (cases s) -> has (LCase w) s = true.
Proof.
  induction s; cbn [cases has]; intros w H; try contradiction; auto.
  - apply in_app_or in H. apply orb_true_iff. destruct H; auto.
  - apply in_app_or in H. apply orb_true_iff. destruct H; auto.
  - apply in_app_or in H. apply orb_true_iff. destruct H; auto. left.
    destruct l; cbn in H; try contradiction. destruct H as [->|[]]. cbn. apply Z.eqb_refl.
Qed.

(** ** Running for at least [k] steps *)
Definition atleast (G : renv) (C : list instr) (k : nat) (c : config) : Prop :=
  exists j c', (k <= j)%nat /\ steps G C j c c'.

Lemma atleast_0 : forall G C c, atleast G C 0 c.
Proof. intros. exists O, c. split; auto. constructor. Qed.

Lemma atleast_star : forall G C k a b, star G C a b -> atleast G C k b -> atleast G C k a.
Proof.
  intros G C k a b [n H] (j & c & L & R). exists (n + j)%nat, c. split; [lia|]. eapply steps_trans; eauto.
Qed.

Lemma atleast_step : forall G C k a b, step G C a = Some b -> atleast G C k b -> atleast G C (S k) a.
Proof.
  intros G C k a b H (j & c & L & R). exists (S j), c. split; [lia|]. econstructor; eauto.
Qed.

Definition star1 (G : renv) (C : list instr) (a b : config) : Prop := exists n, steps G C (S n) a b.

Lemma star_star1 : forall G C a b c, star G C a b -> star1 G C b c -> star1 G C a c.
Proof. intros G C a b c [n H] [k K]. exists (n + k)%nat. rewrite <- Nat.add_succ_r. eapply steps_trans; eauto. Qed.

Lemma star1_star : forall G C a b, star1 G C a b -> star G C a b.
Proof. intros G C a b [n H]. exists (S n). auto. Qed.

Lemma star1_trans : forall G C a b c, star1 G C a b -> star G C b c -> star1 G C a c.
Proof. intros G C a b c [n H] [k K]. exists (n + k)%nat. rewrite <- Nat.add_succ_l. eapply steps_trans; eauto. Qed.

Lemma atleast_star1 : forall G C k a b, star1 G C a b -> atleast G C k b -> atleast G C (S k) a.
Proof.
  intros G C k a b [n H] X. inversion H; subst. eapply atleast_step; eauto. eapply atleast_star; eauto. eexists; eauto.
Qed.

Lemma atleast_le : forall G C k j a, (j <= k)%nat -> atleast G C k a -> atleast G C j a.
Proof. intros G C k j a L (i & c & H & X). exists i, c. split; [lia|auto]. Qed.

Lemma jmp1 : forall G C pc t stk m, nth_error C pc = Some (OJmp t) -> star1 G C (pc, stk, m) (t, stk, m).
Proof. intros. exists O. eapply steps_S; [|constructor]. unfold step. now rewrite H. Qed.

(** ** Outcomes on the machine *)

(** Where control goes for an outcome, [fin] being the index after the statement. *)
Definition exits (G : renv) (C : list instr) (E : tenv) (fin : nat) (c : config) (o : outcome) (stk : list Z) (m : mem) : Prop :=
  match o with
  | ONorm => star G C c (fin, stk, m)
  | OBrk => star1 G C c (brk E, stk, m)
  | OCont => star1 G C c (cont E, stk, m)
  | OGoto l => star1 G C c (labs E l, stk, m)
  | OReturn v => exists p, nth_error C p = Some ORet /\
      star G C c (p, match v with Some v => u64 v :: stk | None => stk end, m)
  end.

Lemma exits_star : forall G C E fin a b o stk m, star G C a b -> exits G C E fin b o stk m -> exits G C E fin a o stk m.
Proof.
  intros G C E fin a b o stk m H X. destruct o; cbn [exits] in *; try (eapply star_trans; eauto; fail); try (eapply star_star1; eauto; fail).
  destruct X as (p & N & X). exists p. split; auto. eapply star_trans; eauto.
Qed.

Lemma exits_env : forall G C E E' fin fin' a o stk m, exits G C E fin a o stk m ->
  (o = ONorm -> fin = fin') -> (o = OBrk -> brk E = brk E') -> (o = OCont -> cont E = cont E') ->
  labs E = labs E' -> exits G C E' fin' a o stk m.
Proof.
  intros G C E E' fin fin' a o stk m H F B K L. destruct o; cbn [exits] in *; auto.
  - now rewrite <- F.
  - now rewrite <- B.
  - now rewrite <- K.
  - now rewrite <- L.
Qed.

Section Correct.
Variable S : senv.
Variable G : renv.
Variable rty : option cty.

Notation cexec := (cexec S G rty).
Notation slen := (slen S rty).
Notation lpos := (lpos S rty).
Notation scomp := (scomp S rty).
Notation exits := (exits G).
Notation atleast := (atleast G).

Definition spos (md : option lab) (pos : nat) (s : stmt) : option nat :=
  match md with None => Some pos | Some L => lpos pos s L end.

Lemma spos_here : forall md pos s p, spos md pos s = Some p -> here md s = true.
Proof. intros [L|] pos s p H; cbn in *; auto. eapply lpos_has; eauto. Qed.

(** The simulation statement for [s] with iteration bound [n]. *)
Definition sim (n : nat) (md : option lab) (s : stmt) (E : tenv) (C : list instr) (fin : nat) (c : nat * list Z) (m : mem) : Prop :=
  let (pc, stk) := c in
  cexec n md s m RUB \/
  (exists o m' lk, cexec n md s m (RDone o m') /\ exits C E fin (pc, stk, m) o (lk ++ stk) m' /\
     (noswitch s = true -> lk = [])) \/
  (cexec n md s m RTimeout /\ atleast C n (pc, stk, m)).

Definition sgood (n : nat) (s : stmt) : Prop :=
  forall md E C pos pc m stk, code_at C pos (scomp E pos s) -> spos md pos s = Some pc ->
  sim n md s E C (pos + slen pos s) (pc, stk) m.

(** Conditions and effects on the machine. *)
Lemma scalar_good : forall e, typed_scalar S e = true -> expr_ok S e = true ->
  forall m, ceval S G RV e m None \/
    exists v m', ceval S G RV e m (Some (v, m')) /\ - 2 ^ 64 < v < 2 ^ 64 /\
      forall pos stk, run_at G pos (compile S RV pos e) stk m (u64 v :: stk) m'.
Proof.
  intros e T OK m. unfold typed_scalar in T. destruct (ctype_of S e) as [t|] eqn:CT; [|discriminate].
  destruct (compile_correct S G e t CT OK) as [H _]. destruct (H m) as [U|(v & m' & EV & R & K)]; [auto|].
  right. exists v, m'. pose proof (vr_bound _ _ _ R). split; [auto|]. split; [lia|auto].
Qed.

(** unless: falls through when the condition holds, jumps otherwise. *)
Lemma unless_run : forall C pos c t stk m v m', - 2 ^ 64 < v < 2 ^ 64 ->
  (forall pos stk, run_at G pos (compile S RV pos c) stk m (u64 v :: stk) m') ->
  code_at C pos (unless S pos c t) ->
  exists j, steps G C (Datatypes.S j) (pos, stk, m) (if v =? 0 then t else (pos + (clen S pos c + 2))%nat, stk, m').
Proof.
  intros C pos c t stk m v m' B K HC. unfold unless in HC. apply code_at_app in HC. destruct HC as [H1 H2].
  apply code_at_cons in H2. destruct H2 as [N1 H2]. apply code_at_cons in H2. destruct H2 as [N2 _].
  destruct (K pos stk C H1) as [j X]. exists (j + 1)%nat.
  replace (Datatypes.S (j + 1)) with (j + 2)%nat by lia. eapply steps_trans; [exact X|].
  eapply steps_S; [eapply step_exec1; [exact N1|reflexivity]|].
  eapply steps_S; [unfold step; rewrite N2; reflexivity|].
  rewrite (u64_zero v) by lia. unfold clen. destruct (v =? 0); cbn [bit Z.eqb].
  - constructor.
  - match goal with |- steps _ _ _ (?x, _, _) (?y, _, _) => replace y with x by lia end. constructor.
Qed.

Lemma effect_run : forall C pos e stk m v m',
  (forall pos stk, run_at G pos (compile S RV pos e) stk m (u64 v :: stk) m') ->
  code_at C pos (compile S RV pos e ++ [OPop]) ->
  star G C (pos, stk, m) ((pos + (clen S pos e + 1))%nat, stk, m').
Proof.
  intros C pos e stk m v m' K HC.
  pose proof (run_app_seq G pos (compile S RV pos e) [OPop] stk m _ _ stk m' (K pos stk) eq_refl C HC) as X.
  rewrite app_length in X. exact X.
Qed.

(** Composition. *)
Lemma sim_star : forall n md s E C fin pc stk m pc0 stk0 m0,
  star G C (pc0, stk0, m0) (pc, stk, m) -> stk0 = stk -> m0 = m ->
  sim n md s E C fin (pc, stk) m -> sim n md s E C fin (pc0, stk0) m0.
Proof.
  intros n md s E C fin pc stk m pc0 stk0 m0 H -> -> [U|[(o & m' & lk & X & Y & Z)|[X Y]]].
  - left; auto.
  - right; left. exists o, m', lk. split; auto. split; auto. eapply exits_star; eauto.
  - right; right. split; auto. eapply atleast_star; eauto.
Qed.

Lemma code_len : forall C pos E s rest, code_at C pos (scomp E pos s ++ rest) ->
  code_at C pos (scomp E pos s) /\ code_at C (pos + slen pos s) rest.
Proof. intros. apply code_at_app in H. rewrite scomp_length in H. exact H. Qed.

Lemma code_unless : forall C pos c t rest, code_at C pos (unless S pos c t ++ rest) ->
  code_at C pos (unless S pos c t) /\ code_at C (pos + (clen S pos c + 2)) rest.
Proof. intros. apply code_at_app in H. rewrite unless_length in H. exact H. Qed.

Ltac done_ o m lk := right; left; exists o, m, lk.

Lemma good_seq : forall n a b, sgood n a -> sgood n b -> sgood n (SSeq a b).
Proof.
  intros n a b HA HB md E C pos pc m stk HC HP. cbn [StmtCompile.scomp] in HC. apply code_len in HC. destruct HC as [H1 H2].
  cbn [StmtCompile.slen]. rewrite Nat.add_assoc.
  assert (CB : forall m stk, sim n None b E C (pos + slen pos a + slen (pos + slen pos a) b) ((pos + slen pos a)%nat, stk) m).
  { intros. apply (HB None E C _ _ m0 stk0 H2). reflexivity. }
  destruct (here md a) eqn:HE.
  - assert (PA : spos md pos a = Some pc).
    { destruct md as [L|]; cbn in *; auto. destruct (has_some S rty a L pos HE) as [p P]. rewrite P in *. auto. }
    destruct (HA md E C pos pc m stk H1 PA) as [U|[(o & m' & lk & X & Y & Z)|[X Y]]].
    + left. eapply x_seq_stop; eauto.
    + destruct (is_norm (RDone o m')) as [q|] eqn:IN.
      * destruct o; try discriminate. cbn [is_norm] in IN. injection IN as <-. cbn [StmtProofs.exits] in Y.
        destruct (CB m' (lk ++ stk)) as [U|[(o2 & m2 & lk2 & X2 & Y2 & Z2)|[X2 Y2]]].
        -- left. eapply x_seq_next; eauto.
        -- done_ o2 m2 (lk2 ++ lk). split; [eapply x_seq_next; eauto|]. split.
           ++ rewrite <- app_assoc. eapply exits_star; eauto.
           ++ cbn [noswitch]. intro NS. apply andb_true_iff in NS. destruct NS. rewrite Z, Z2 by auto. reflexivity.
        -- right; right. split; [eapply x_seq_next; eauto|]. eapply atleast_star; eauto.
      * done_ o m' lk. split; [eapply x_seq_stop; eauto|]. split.
        -- eapply exits_env; eauto. intros ->. discriminate.
        -- cbn [noswitch]. intro NS. apply andb_true_iff in NS. destruct NS. auto.
    + right; right. split; [eapply x_seq_stop; eauto|auto].
  - destruct md as [L|]; [|discriminate]. cbn [here] in HE.
    cbn [spos StmtCompile.lpos] in HP. rewrite (has_none S rty a L pos HE) in HP.
    destruct (HB (Some L) E C _ pc m stk H2 HP) as [U|[(o & m' & lk & X & Y & Z)|[X Y]]].
    + left. eapply x_seq_skip; eauto.
    + done_ o m' lk. split; [eapply x_seq_skip; eauto|]. split; auto.
      cbn [noswitch]. intro NS. apply andb_true_iff in NS. destruct NS. auto.
    + right; right. split; [eapply x_seq_skip; eauto|auto].
Qed.

Lemma good_if : forall n c a, typed_scalar S c = true -> expr_ok S c = true -> sgood n a -> sgood n (SIf c a).
Proof.
  intros n c a TC OC HA md E C pos pc m stk HC HP. cbn [StmtCompile.scomp] in HC. cbv zeta in HC. apply code_unless in HC.
  destruct HC as [H1 H2]. set (p := (pos + (clen S pos c + 2))%nat) in *.
  replace (pos + slen pos (SIf c a))%nat with (p + slen p a)%nat by (cbn [StmtCompile.slen]; cbv zeta; fold p; lia).
  destruct md as [L|].
  - cbn [spos StmtCompile.lpos] in HP. fold p in HP.
    destruct (HA (Some L) E C p pc m stk H2 HP) as [U|[(o & m' & lk & X & Y & Z)|[X Y]]].
    + left. now apply x_if_in.
    + done_ o m' lk. split; [now apply x_if_in|]. split; auto.
    + right; right. split; [now apply x_if_in|auto].
  - cbn in HP. injection HP as <-. destruct (scalar_good c TC OC m) as [U|(v & m1 & EV & B & K)].
    + left. now apply x_if_ub.
    + destruct (unless_run C pos c _ stk m v m1 B K H1) as [j ST]. fold p in ST.
      destruct (Z.eqb_spec v 0) as [->|NZ].
      * done_ ONorm m1 (@nil Z). split; [now apply x_if_0|]. split; auto. cbn. eexists; exact ST.
      * destruct (HA None E C p p m1 stk H2 eq_refl) as [U|[(o & m' & lk & X & Y & Z)|[X Y]]].
        -- left. eapply x_if_1; eauto.
        -- done_ o m' lk. split; [eapply x_if_1; eauto|]. split; auto. eapply exits_star; eauto. eexists; exact ST.
        -- right; right. split; [eapply x_if_1; eauto|]. eapply atleast_star; [eexists; exact ST|auto].
Qed.

Lemma good_ife : forall n c a b, typed_scalar S c = true -> expr_ok S c = true -> sgood n a -> sgood n b -> sgood n (SIfElse c a b).
Proof.
  intros n c a b TC OC HA HB md E C pos pc m stk HC HP. cbn [StmtCompile.scomp] in HC. cbv zeta in HC. apply code_unless in HC.
  destruct HC as [H1 H2]. set (p := (pos + (clen S pos c + 2))%nat) in *.
  apply code_len in H2. destruct H2 as [H2 H3]. apply code_at_cons in H3. destruct H3 as [NJ H3].
  set (p2 := (p + slen p a + 1)%nat) in *. replace (Datatypes.S (p + slen p a)) with p2 in H3 by (subst p2; lia).
  replace (pos + slen pos (SIfElse c a b))%nat with (p2 + slen p2 b)%nat by (cbn [StmtCompile.slen]; cbv zeta; fold p; fold p2; lia).
  assert (CA : forall md' pc' m1, spos md' p a = Some pc' ->
     cexec n md' a m1 RUB \/
     (exists o m' lk, cexec n md' a m1 (RDone o m') /\ exits C E (p2 + slen p2 b) (pc', stk, m1) o (lk ++ stk) m' /\ (noswitch (SIfElse c a b) = true -> lk = [])) \/
     (cexec n md' a m1 RTimeout /\ atleast C n (pc', stk, m1))).
  { intros md' pc' m1 P. destruct (HA md' E C p pc' m1 stk H2 P) as [U|[(o & m' & lk & X & Y & Z)|[X Y]]]; auto.
    done_ o m' lk. split; auto. split.
    - destruct o; cbn [StmtProofs.exits] in *; auto.
      eapply star_trans; [exact Y|]. apply star_jmp. exact NJ.
    - cbn [noswitch]. intro NS. apply andb_true_iff in NS. destruct NS. auto. }
  assert (CB : forall md' pc' m1, spos md' p2 b = Some pc' ->
     cexec n md' b m1 RUB \/
     (exists o m' lk, cexec n md' b m1 (RDone o m') /\ exits C E (p2 + slen p2 b) (pc', stk, m1) o (lk ++ stk) m' /\ (noswitch (SIfElse c a b) = true -> lk = [])) \/
     (cexec n md' b m1 RTimeout /\ atleast C n (pc', stk, m1))).
  { intros md' pc' m1 P. destruct (HB md' E C p2 pc' m1 stk H3 P) as [U|[(o & m' & lk & X & Y & Z)|[X Y]]]; auto.
    done_ o m' lk. split; auto. split; auto.
    cbn [noswitch]. intro NS. apply andb_true_iff in NS. destruct NS. auto. }
  clear HA HB. destruct md as [L|].
  - cbn [spos StmtCompile.lpos] in HP. cbv zeta in HP. fold p in HP. fold p2 in HP.
    destruct (has L a) eqn:HL.
    + destruct (has_some S rty a L p HL) as [q Q]. rewrite Q in HP. injection HP as <-.
      destruct (CA (Some L) q m Q) as [U|[(o & m' & lk & X & Y & Z)|[X Y]]].
      * left. now apply x_ife_in1.
      * done_ o m' lk. split; [now apply x_ife_in1|auto].
      * right; right. split; [now apply x_ife_in1|auto].
    + rewrite (has_none S rty a L p HL) in HP.
      destruct (CB (Some L) pc m HP) as [U|[(o & m' & lk & X & Y & Z)|[X Y]]].
      * left. now apply x_ife_in2.
      * done_ o m' lk. split; [now apply x_ife_in2|auto].
      * right; right. split; [now apply x_ife_in2|auto].
  - cbn in HP. injection HP as <-. destruct (scalar_good c TC OC m) as [U|(v & m1 & EV & B & K)].
    + left. now apply x_ife_ub.
    + destruct (unless_run C pos c _ stk m v m1 B K H1) as [j ST]. fold p in ST.
      destruct (Z.eqb_spec v 0) as [->|NZ].
      * destruct (CB None p2 m1 eq_refl) as [U|[(o & m' & lk & X & Y & Z)|[X Y]]].
        -- left. eapply x_ife_0; eauto.
        -- done_ o m' lk. split; [eapply x_ife_0; eauto|]. split; auto. eapply exits_star; eauto. eexists; exact ST.
        -- right; right. split; [eapply x_ife_0; eauto|]. eapply atleast_star; [eexists; exact ST|auto].
      * destruct (CA None p m1 eq_refl) as [U|[(o & m' & lk & X & Y & Z)|[X Y]]].
        -- left. eapply x_ife_1; eauto.
        -- done_ o m' lk. split; [eapply x_ife_1; eauto|]. split; auto. eapply exits_star; eauto. eexists; exact ST.
        -- right; right. split; [eapply x_ife_1; eauto|]. eapply atleast_star; [eexists; exact ST|auto].
Qed.

(** Loops tested at the top, abstractly: [test] is the entry of the loop, [p] the
    start of the body, [q] where continue goes, [fin] the end. *)
Lemma good_loop : forall c t a C E p q fin pos,
  (forall n, sgood n a) ->
  code_at C p (scomp {| brk := fin; cont := q; labs := labs E |} p a) ->
  (* the test *)
  (forall m stk, ctest S G c m None \/ exists b m1, ctest S G c m (Some (b, m1)) /\
     star G C (pos, stk, m) (if b then p else fin, stk, m1)) ->
  (* the tail and the jump back, from the end of the body or from continue *)
  (forall c0 m stk, star G C c0 ((p + slen p a)%nat, stk, m) \/ star1 G C c0 (q, stk, m) ->
     ceffect S G t m None \/ exists m1, ceffect S G t m (Some m1) /\ star1 G C c0 (pos, stk, m1)) ->
  forall n md pc m stk, (match md with None => pc = pos | Some L => lpos p a L = Some pc end) ->
  cexec n md (SFor c t a) m RUB \/
  (exists o m' lk, cexec n md (SFor c t a) m (RDone o m') /\ exits C E fin (pc, stk, m) o (lk ++ stk) m' /\ (noswitch a = true -> lk = [])) \/
  (cexec n md (SFor c t a) m RTimeout /\ atleast C n (pc, stk, m)).
Proof.
  intros c t a C E p q fin pos HA HC TEST TAIL. induction n as [|n IH]; intros md pc m stk HP.
  - right; right. split; [apply x_for_time|apply atleast_0].
  - (* from the body *)
    assert (BODY : forall pc m1, enters S G md c m m1 -> spos md p a = Some pc ->
      cexec (Datatypes.S n) md (SFor c t a) m RUB \/
      (exists o m' lk, cexec (Datatypes.S n) md (SFor c t a) m (RDone o m') /\ exits C E fin (pc, stk, m1) o (lk ++ stk) m' /\ (noswitch a = true -> lk = [])) \/
      (cexec (Datatypes.S n) md (SFor c t a) m RTimeout /\ atleast C (Datatypes.S n) (pc, stk, m1))).
    { clear pc HP. intros pc m1 EN HP.
      destruct (HA (Datatypes.S n) md _ C p pc m1 stk HC HP) as [U|[(o & m' & lk & X & Y & Z)|[X Y]]].
      - left. eapply (x_for_stop _ _ _ _ _ _ _ _ _ _ RUB); eauto.
      - destruct (loop_next (RDone o m')) as [m2|] eqn:LN.
        + assert (YQ : star G C (pc, stk, m1) ((p + slen p a)%nat, lk ++ stk, m2) \/ star1 G C (pc, stk, m1) (q, lk ++ stk, m2)).
          { destruct o; try discriminate; cbn [loop_next] in LN; injection LN as <-; cbn [StmtProofs.exits brk cont] in Y; auto. }
          destruct (TAIL _ m2 (lk ++ stk) YQ) as [U|(m3 & EF & ST)].
          * left. eapply x_for_tail_ub; eauto.
          * destruct (IH None pos m3 (lk ++ stk) eq_refl) as [U|[(o2 & m4 & lk2 & X2 & Y2 & Z2)|[X2 Y2]]].
            -- left. eapply x_for_next; eauto.
            -- done_ o2 m4 (lk2 ++ lk). split; [eapply x_for_next; eauto|]. split.
               ++ rewrite <- app_assoc. eapply exits_star; [apply star1_star; exact ST|]. auto.
               ++ intro NS. rewrite Z, Z2 by auto. reflexivity.
            -- right; right. split; [eapply x_for_next; eauto|].
               eapply atleast_star1; eauto.
        + done_ (match o with OBrk => ONorm | o => o end) m' lk. split; [|split; auto].
          * replace (RDone (match o with OBrk => ONorm | o => o end) m') with (brk_norm (RDone o m')) by (destruct o; reflexivity).
            eapply x_for_stop; eauto.
          * destruct o; try discriminate; cbn [StmtProofs.exits brk] in *; auto. now apply star1_star.
      - right; right. split; auto. eapply (x_for_stop _ _ _ _ _ _ _ _ _ _ RTimeout); eauto. }
    destruct md as [L|].
    + apply BODY; auto. reflexivity.
    + subst pc. destruct (TEST m stk) as [U|(b & m1 & T & ST)].
      * left. now apply x_for_ub.
      * destruct b.
        -- destruct (BODY p m1 T eq_refl) as [U|[(o & m' & lk & X & Y & Z)|[X Y]]].
           ++ left; auto.
           ++ done_ o m' lk. split; auto. split; auto. eapply exits_star; eauto.
           ++ right; right. split; auto. eapply atleast_star; eauto.
        -- done_ ONorm m1 (@nil Z). split; [now apply x_for_done|]. split; auto.
Qed.

Lemma test_some : forall C pos c fin, typed_scalar S c = true -> expr_ok S c = true ->
  code_at C pos (unless S pos c fin) ->
  forall m stk, ctest S G (Some c) m None \/ exists b m1, ctest S G (Some c) m (Some (b, m1)) /\
     star G C (pos, stk, m) (if b then (pos + (clen S pos c + 2))%nat else fin, stk, m1).
Proof.
  intros C pos c fin TC OC HC m stk. destruct (scalar_good c TC OC m) as [U|(v & m1 & EV & B & K)].
  - left. now constructor.
  - right. exists (negb (v =? 0)), m1. split; [now constructor|].
    destruct (unless_run C pos c fin stk m v m1 B K HC) as [j ST]. destruct (v =? 0); eexists; exact ST.
Qed.

Lemma good_for : forall n c t a, typed_opt S c = true -> typed_opt S t = true -> oexpr_ok S c = true -> oexpr_ok S t = true ->
  (forall n, sgood n a) -> sgood n (SFor c t a).
Proof.
  intros n c t a TC TT OC OT HA md E C pos pc m stk HC HP. cbn [StmtCompile.scomp] in HC. cbv zeta in HC.
  set (lc := match c with Some c => (clen S pos c + 2)%nat | None => O end) in *.
  set (p := (pos + lc)%nat) in *. set (q := (p + slen p a)%nat) in *.
  set (lt := match t with Some t => (clen S q t + 1)%nat | None => O end) in *.
  set (fin := (q + lt + 1)%nat) in *.
  replace (pos + slen pos (SFor c t a))%nat with fin
    by (cbn [StmtCompile.slen]; cbv zeta; fold lc; fold p; fold q; fold lt; subst fin q p; lia).
  assert (HCC : code_at C pos match c with Some c => unless S pos c fin | None => [] end /\
    code_at C p (scomp {| brk := fin; cont := q; labs := labs E |} p a ++ match t with Some t => compile S RV q t ++ [OPop] | None => [] end ++ [OJmp pos])).
  { destruct c; subst lc; [apply code_unless in HC; exact HC|].
    apply code_at_app in HC. cbn [length] in HC. exact HC. }
  clear HC. destruct HCC as [H1 H2]. apply code_len in H2. fold q in H2. destruct H2 as [H2 H3].
  apply code_at_app in H3. destruct H3 as [H3 H4]. apply code_at_cons in H4. destruct H4 as [NJ _].
  refine (good_loop c t a C E p q fin pos HA H2 _ _ n md pc m stk _).
  - destruct c as [c|]; intros m1 stk1.
    + apply test_some; auto.
    + right. exists true, m1. split; [constructor|]. subst p lc. rewrite Nat.add_0_r. apply star_refl.
  - intros c0 m1 stk1 YY. assert (YQ : star G C c0 (q, stk1, m1)) by (destruct YY; auto using star1_star). clear YY. destruct t as [t|].
    + destruct (scalar_good t TT OT m1) as [U|(v & m2 & EV & B & K)]; [left; now constructor|].
      right. exists m2. split; [econstructor; eauto|].
      eapply star_star1; [exact YQ|]. eapply star_star1; [exact (effect_run C q t stk1 m1 v m2 K H3)|].
      rewrite app_length in NJ. cbn [length] in NJ. fold (clen S q t) in NJ. apply jmp1. exact NJ.
    + right. exists m1. split; [constructor|]. eapply star_star1; [exact YQ|]. apply jmp1.
      cbn [length] in NJ. rewrite Nat.add_0_r in NJ. exact NJ.
  - destruct md; cbn in HP; auto. injection HP as <-. reflexivity.
Qed.

Lemma good_while : forall n c a, typed_scalar S c = true -> expr_ok S c = true -> (forall n, sgood n a) -> sgood n (SWhile c a).
Proof.
  intros n c a TC OC HA md E C pos pc m stk HC HP. cbn [StmtCompile.scomp] in HC. cbv zeta in HC. apply code_unless in HC.
  destruct HC as [H1 H2]. set (p := (pos + (clen S pos c + 2))%nat) in *. set (fin := (p + slen p a + 1)%nat) in *.
  apply code_len in H2. destruct H2 as [H2 H3]. apply code_at_cons in H3. destruct H3 as [NJ _].
  replace (pos + slen pos (SWhile c a))%nat with fin by (cbn [StmtCompile.slen]; cbv zeta; fold p; subst fin p; lia).
  assert (X : sim n md (SFor (Some c) None a) E C fin (pc, stk) m).
  { refine (good_loop (Some c) None a C E p pos fin pos HA H2 _ _ n md pc m stk _).
    - intros m1 stk1. apply test_some; auto.
    - intros c0 m1 stk1 YY. right. exists m1. split; [constructor|]. destruct YY as [Y|Y]; auto.
      eapply star_star1; [exact Y|]. apply jmp1. exact NJ.
    - destruct md; cbn in HP; auto. injection HP as <-. reflexivity. }
  destruct X as [U|[(o & m' & lk & X & Y & Z)|[X Y]]].
  - left. now apply x_while.
  - done_ o m' lk. split; [now apply x_while|auto].
  - right; right. split; [now apply x_while|auto].
Qed.

Lemma good_do : forall n c a, typed_scalar S c = true -> expr_ok S c = true -> (forall n, sgood n a) -> sgood n (SDo a c).
Proof.
  intros n c a TC OC HA md E C pos pc m stk HC HP. cbn [StmtCompile.scomp] in HC. cbv zeta in HC.
  set (p := (pos + slen pos a)%nat) in *. set (fin := (p + clen S p c + 1)%nat) in *.
  apply code_len in HC. fold p in HC. destruct HC as [H1 H2]. apply code_at_app in H2. destruct H2 as [H2 H3].
  fold (clen S p c) in H3. apply code_at_cons in H3. destruct H3 as [NB _].
  replace (pos + slen pos (SDo a c))%nat with fin by (cbn [StmtCompile.slen]; cbv zeta; fold p; subst fin p; lia).
  assert (HP' : spos md pos a = Some pc) by (destruct md; exact HP). clear HP.
  revert md pc m stk HP'. induction n as [|n IH]; intros md pc m stk HP.
  - right; right. split; [apply x_do_time|apply atleast_0].
  - destruct (HA (Datatypes.S n) md _ C pos pc m stk H1 HP) as [U|[(o & m' & lk & X & Y & Z)|[X Y]]].
    + left. eapply (x_do_stop _ _ _ _ _ _ _ _ RUB); eauto.
    + destruct (loop_next (RDone o m')) as [m1|] eqn:LN.
      * assert (YQ : star G C (pc, stk, m) (p, lk ++ stk, m1)).
        { destruct o; try discriminate; cbn [loop_next] in LN; injection LN as <-; cbn [StmtProofs.exits brk cont] in Y; auto.
          now apply star1_star. }
        destruct (scalar_good c TC OC m1) as [U|(v & m2 & EV & B & K)].
        -- left. eapply x_do_ub; eauto.
        -- assert (ST : star1 G C (pc, stk, m) (if v =? 0 then fin else pos, lk ++ stk, m2)).
           { eapply star_star1; [exact YQ|]. eapply star_star1; [apply K; exact H2|]. exists O.
             eapply steps_S; [|constructor]. unfold step. fold (clen S p c). rewrite NB. rewrite u64_zero by lia.
             replace fin with (Datatypes.S (p + clen S p c)) by (subst fin; lia). destruct (v =? 0); reflexivity. }
           destruct (Z.eqb_spec v 0) as [->|NZ].
           ++ done_ ONorm m2 lk. split; [eapply x_do_done; eauto|]. split; auto. now apply star1_star.
           ++ destruct (IH None pos m2 (lk ++ stk) eq_refl) as [U|[(o2 & m4 & lk2 & X2 & Y2 & Z2)|[X2 Y2]]].
              ** left. eapply x_do_next; eauto.
              ** done_ o2 m4 (lk2 ++ lk). split; [eapply x_do_next; eauto|]. split.
                 --- rewrite <- app_assoc. eapply exits_star; [apply star1_star; exact ST|]. auto.
                 --- intro NS. rewrite Z, Z2 by auto. reflexivity.
              ** right; right. split; [eapply x_do_next; eauto|]. eapply atleast_star1; eauto.
      * done_ (match o with OBrk => ONorm | o => o end) m' lk. split; [|split; auto].
        -- replace (RDone (match o with OBrk => ONorm | o => o end) m') with (brk_norm (RDone o m')) by (destruct o; reflexivity).
           eapply x_do_stop; eauto.
        -- destruct o; try discriminate; cbn [StmtProofs.exits brk] in *; auto. now apply star1_star.
    + right; right. split; auto. eapply (x_do_stop _ _ _ _ _ _ _ _ RTimeout); eauto.
Qed.

(** Dispatch. *)
Lemma dispatch_hit : forall C l q tgt v stk m, code_at C q (dispatch q l tgt) ->
  In v l -> (forall w, In w l -> u64 w = u64 v -> w = v) ->
  star G C (q, u64 v :: stk, m) (tgt v, stk, m).
Proof.
  intros C. induction l as [|w l IH]; intros q tgt v stk m HC HI INJ; [contradiction|].
  cbn [dispatch] in HC. apply code_at_app in HC. destruct HC as [H1 H2].
  unfold case_code in H1. cbn [length] in H2.
  repeat (let N := fresh "N" in apply code_at_cons in H1; destruct H1 as [N H1]).
  assert (ST : star G C (q, u64 v :: stk, m) (if u64 v =? u64 w then (q + 5)%nat else (q + 7)%nat, u64 v :: stk, m)).
  { do 4 (eapply star_step; [eapply step_exec1; [eassumption|reflexivity]|]).
    eapply star_step; [unfold step; rewrite N3; reflexivity|].
    destruct (u64 v =? u64 w); cbn [bit Z.eqb]; apply star_here; lia. }
  destruct (Z.eqb_spec (u64 v) (u64 w)) as [EQ|NE].
  - assert (w = v) by (apply INJ; [left; auto|auto]). subst w.
    eapply star_trans; [exact ST|]. replace (q + 5)%nat with (Datatypes.S (Datatypes.S (Datatypes.S (Datatypes.S (Datatypes.S q))))) by lia.
    eapply star_step; [eapply step_exec1; [eassumption|reflexivity]|]. apply star_jmp. assumption.
  - eapply star_trans; [exact ST|]. apply IH; auto.
    + destruct HI as [->|]; [congruence|auto].
    + intros. apply INJ; auto. now right.
Qed.

Lemma dispatch_miss : forall C l q tgt v stk m, code_at C q (dispatch q l tgt) ->
  (forall w, In w l -> u64 w <> u64 v) ->
  star G C (q, u64 v :: stk, m) ((q + 7 * length l)%nat, u64 v :: stk, m).
Proof.
  intros C. induction l as [|w l IH]; intros q tgt v stk m HC NI.
  - cbn [length]. apply star_here. lia.
  - cbn [dispatch] in HC. apply code_at_app in HC. destruct HC as [H1 H2].
    unfold case_code in H1. cbn [length] in H2.
    repeat (let N := fresh "N" in apply code_at_cons in H1; destruct H1 as [N H1]).
    assert (ST : star G C (q, u64 v :: stk, m) ((q + 7)%nat, u64 v :: stk, m)).
    { do 4 (eapply star_step; [eapply step_exec1; [eassumption|reflexivity]|]).
      eapply star_step; [unfold step; rewrite N3; reflexivity|].
      destruct (Z.eqb_spec (u64 v) (u64 w)) as [EQ|NE]; [exfalso; apply (NI w); [left; auto|auto]|].
      cbn [bit Z.eqb]. apply star_refl. }
    eapply star_trans; [exact ST|]. cbn [length]. replace (q + 7 * Datatypes.S (length l))%nat with (q + 7 + 7 * length l)%nat by lia.
    apply (IH (q + 7)%nat tgt); auto. intros. apply NI. now right.
Qed.

Lemma promote_range : forall i v, in_range i v -> in_range (c_promote i) v.
Proof.
  intros i v H. eapply represents_all_range; eauto. revert i v H.
  assert (X : forall i, represents_all i (c_promote i) = true) by (apply all_ity_forall; vm_compute; reflexivity). auto.
Qed.

Lemma u64_inj_range : forall p v w, in_range p v -> in_range p w -> u64 v = u64 w -> v = w.
Proof.
  intros p v w HV HW E.
  assert (X : (u64 v =? u64 w) = (v =? w)).
  { apply u64_eqb. destruct (isigned p) eqn:SP.
    - left. split; eapply in_range_signed; eauto.
    - right. split; eapply in_range_unsigned; eauto. }
  rewrite E, Z.eqb_refl in X. symmetry in X. now apply Z.eqb_eq in X.
Qed.

Lemma good_switch : forall n e a, typed_int S e = true -> expr_ok S e = true -> case_ok S e a = true ->
  sgood n a -> sgood n (SSwitch e a).
Proof.
  intros n e a TE OE OC HA md E C pos pc m stk HC HP. cbn [StmtCompile.scomp] in HC. cbv zeta in HC.
  apply code_at_app in HC. destruct HC as [H1 H2]. fold (clen S pos e) in H2.
  set (q := (pos + clen S pos e)%nat) in *. set (p := (pos + (clen S pos e + 7 * length (cases a) + 1))%nat) in *.
  set (fin := (p + slen p a)%nat) in *.
  apply code_at_app in H2. destruct H2 as [H2 H3]. rewrite dispatch_length, sort_length in H3.
  apply code_at_cons in H3. destruct H3 as [NJ H3].
  replace (Datatypes.S (q + 7 * length (cases a))) with p in H3 by (subst p q; lia).
  replace (pos + slen pos (SSwitch e a))%nat with fin by (cbn [StmtCompile.slen]; cbv zeta; fold p; subst fin p; lia).
  (* leaving the body *)
  assert (OUT : forall L pc m stk, lpos p a L = Some pc ->
     cexec n (Some L) a m RUB \/
     (exists o m' lk, cexec n (Some L) a m (RDone o m') /\
        exits C E fin (pc, stk, m) (match o with OBrk => ONorm | o => o end) (lk ++ stk) m') \/
     (cexec n (Some L) a m RTimeout /\ atleast C n (pc, stk, m))).
  { clear pc m stk HP. intros L pc m stk HP.
    destruct (HA (Some L) _ C p pc m stk H3 HP) as [U|[(o & m' & lk & X & Y & Z)|[X Y]]]; auto.
    right; left. exists o, m', lk. split; auto.
    destruct o; cbn [StmtProofs.exits brk cont labs] in *; auto. now apply star1_star. }
  assert (BN : forall o m', brk_norm (RDone o m') = RDone (match o with OBrk => ONorm | o => o end) m') by (intros [] ?; reflexivity).
  destruct md as [L|].
  - cbn [spos StmtCompile.lpos] in HP. fold p in HP. destruct (is_name L) eqn:IL; [|discriminate].
    destruct (OUT L pc m stk HP) as [U|[(o & m' & lk & X & Y)|[X Y]]].
    + left. apply (x_sw_in _ _ _ _ _ _ _ _ RUB). auto.
    + done_ (match o with OBrk => ONorm | o => o end) m' lk. split; [|split; [auto|discriminate]].
      rewrite <- BN. now apply x_sw_in.
    + right; right. split; auto. now apply (x_sw_in _ _ _ _ _ _ _ _ RTimeout).
  - cbn in HP. injection HP as <-.
    unfold typed_int in TE. unfold case_ok in OC. destruct (ctype_of S e) as [t|] eqn:CT; [|discriminate].
    destruct (decay t) as [i| | |] eqn:DT; try discriminate.
    destruct (compile_correct S G e t CT OE) as [H _]. destruct (H m) as [U|(v & m1 & EV & R & K)].
    { left. now apply x_sw_ub. }
    cbn [vr] in R. rewrite DT in R. cbn [vrange] in R. apply promote_range in R. set (pt := c_promote i) in *.
    assert (RT : rtype S e (TInt i)) by (exists t; auto).
    rewrite forallb_forall in OC.
    assert (CR : forall w, In w (cases a) -> in_range pt w) by (intros w HW; apply in_rangeb_spec, OC, HW).
    assert (CV : forall w, In w (cases a) -> cconv pt w = w) by (intros; apply cconv_id; auto).
    pose proof (K pos stk C H1) as ST. fold (clen S pos e) in ST. fold q in ST.
    (* control reaches label L with stack stk' *)
    assert (GO : forall L pc stk', lpos p a L = Some pc -> selects pt a v (Some L) ->
       (exists lk0, stk' = lk0 ++ stk) -> star G C (q, u64 v :: stk, m1) (pc, stk', m1) ->
       sim n None (SSwitch e a) E C fin (pos, stk) m).
    { intros L pc stk' HP SEL [lk0 ->] ST2.
      assert (ST3 : star G C (pos, stk, m) (pc, lk0 ++ stk, m1)) by (eapply star_trans; eauto).
      destruct (OUT L pc m1 (lk0 ++ stk) HP) as [U|[(o & m' & lk & X & Y)|[X Y]]].
      - left. apply (x_sw _ _ _ _ _ _ _ _ _ _ _ RUB RT EV SEL). auto.
      - done_ (match o with OBrk => ONorm | o => o end) m' (lk ++ lk0). split; [|split; [|discriminate]].
        + rewrite <- BN. eapply x_sw; eauto.
        + rewrite <- app_assoc. eapply exits_star; eauto.
      - right; right. split; [|eapply atleast_star; eauto].
        apply (x_sw _ _ _ _ _ _ _ _ _ _ _ RTimeout RT EV SEL). auto. }
    destruct (in_dec Z.eq_dec v (cases a)) as [IN|NI].
    + destruct (has_some S rty a (LCase v) p (cases_has _ _ IN)) as [pc PC].
      apply (GO (LCase v) pc stk PC).
      * apply sel_case; auto.
      * exists []. reflexivity.
      * pose proof (dispatch_hit C _ q _ v stk m1 H2 (proj2 (sort_in _ _) IN)) as D.
        assert (T : at_label S rty p a (LCase v) 0 = pc) by (unfold at_label; now rewrite PC).
        cbv beta in D. rewrite T in D. apply D. intros w HW EQ. apply (proj1 (sort_in _ _)) in HW.
        exact (u64_inj_range pt w v (CR w HW) R EQ).
    + assert (NS : forall w, In w (cases a) -> cconv pt w <> v) by (intros w HW EQ; rewrite CV in EQ by auto; congruence).
      assert (D : star G C (q, u64 v :: stk, m1) (at_label S rty p a LDefault fin, u64 v :: stk, m1)).
      { eapply star_trans; [eapply dispatch_miss; [exact H2|]|].
        - intros w HW EQ. apply (proj1 (sort_in _ _)) in HW. apply NI. replace v with w; auto. exact (u64_inj_range pt w v (CR w HW) R EQ).
        - rewrite sort_length. apply star_jmp. exact NJ. }
      destruct (has LDefault a) eqn:HD.
      * destruct (has_some S rty a LDefault p HD) as [pc PC].
        apply (GO LDefault pc (u64 v :: stk) PC).
        -- now apply sel_default.
        -- exists [u64 v]. reflexivity.
        -- unfold at_label in D. rewrite PC in D. exact D.
      * done_ ONorm m1 [u64 v]. split; [|split; [|discriminate]].
        -- eapply x_sw_none; eauto. now apply sel_none.
        -- cbn [StmtProofs.exits app]. eapply star_trans; [exact ST|].
           unfold at_label in D. rewrite (has_none S rty a LDefault p HD) in D. exact D.
Qed.

Lemma good_return : forall n e, match rty, ctype_of S e with Some t, Some te => scalar t && assignable t (decay te) | _, _ => false end = true ->
  expr_ok S e = true -> ret_ok S rty e = true -> sgood n (SReturn (Some e)).
Proof.
  intros n e TE OE RO md E C pos pc m stk HC HP. destruct md as [L|]; [discriminate|]. cbn in HP. injection HP as <-.
  cbn [StmtCompile.scomp] in HC. unfold ret_conv in HC. unfold ret_ok in RO.
  destruct rty as [t|] eqn:RE; [|discriminate]. destruct (ctype_of S e) as [te|] eqn:CT; [|discriminate].
  apply andb_true_iff in TE. destruct TE as [SC AS].
  destruct (compile_correct S G e te CT OE) as [H _]. destruct (H m) as [U|(v & m1 & EV & R & K)].
  { left. now apply x_return_ub. }
  cbn [vr] in R.
  done_ (OReturn (Some (cconv_ty t v))) m1 (@nil Z). split; [eapply x_return_val; eauto|]. split; [|auto].
  cbn [StmtProofs.exits app].
  rewrite app_assoc in HC. apply code_at_app in HC. destruct HC as [H1 H2]. apply code_at_cons in H2. destruct H2 as [NR _].
  eexists. split; [exact NR|].
  refine (run_app_seq G pos _ _ stk m _ _ (u64 (cconv_ty t v) :: stk) m1 (K pos stk) _ C H1).
  pose proof (ty_sim S e te CT) as [TS LVT]. rewrite (tsim_scalar _ _ TS).
  destruct (scalar te) eqn:SE.
  - apply kconv_ok; auto. apply tsim_vrange with (c := te); auto. destruct te; try discriminate; exact R.
  - (* array *)
    cbn [exec_seq]. destruct te; try discriminate; cbn [decay] in *.
    + destruct t; try discriminate. cbn [vrange] in R. cbn [cconv_ty]. rewrite u64_u64. reflexivity.
    + destruct t as [[]| | |]; discriminate.
Qed.

(** ** The simulation *)
Theorem stmt_correct : forall s labels br co, swf S rty labels br co s = true -> stmt_ok S rty s = true -> forall n, sgood n s.
Proof.
  induction s; intros labels br co WF OK; cbn [swf stmt_ok] in *;
    repeat match goal with H : _ && _ = true |- _ => apply andb_true_iff in H; destruct H end.
  - intros n md E C pos pc m stk HC HP. destruct md; [discriminate|]. injection HP as <-.
    done_ ONorm m (@nil Z). split; [constructor|]. split; auto. cbn. apply star_here. lia.
  - intros n md E C pos pc m stk HC HP. destruct md; [discriminate|]. injection HP as <-.
    destruct (scalar_good e WF OK m) as [U|(v & m1 & EV & B & K)].
    + left. now constructor.
    + done_ ONorm m1 (@nil Z). split; [econstructor; eauto|]. split; auto. cbn. eapply effect_run; eauto.
  - intro n. apply good_seq; eauto.
  - intro n. apply good_if; eauto.
  - intro n. apply good_ife; eauto.
  - intro n. apply good_while; eauto.
  - intro n. apply good_do; eauto.
  - intro n. apply good_for; eauto.
  - intro n. apply good_switch; eauto.
  - intros n md E C pos pc m stk HC HP. cbn [StmtCompile.scomp StmtCompile.slen] in *.
    specialize (IHs labels br co WF OK n).
    destruct md as [L|].
    + cbn [spos StmtCompile.lpos] in HP. destruct (lab_eqb l L) eqn:EL.
      * injection HP as <-. destruct (IHs None E C pos pos m stk HC eq_refl) as [U|[(o & m' & lk & X & Y & Z)|[X Y]]].
        -- left. now apply x_lab_at.
        -- done_ o m' lk. split; [now apply x_lab_at|auto].
        -- right; right. split; [now apply x_lab_at|auto].
      * destruct (IHs (Some L) E C pos pc m stk HC HP) as [U|[(o & m' & lk & X & Y & Z)|[X Y]]].
        -- left. now apply x_lab_in.
        -- done_ o m' lk. split; [now apply x_lab_in|auto].
        -- right; right. split; [now apply x_lab_in|auto].
    + injection HP as <-. destruct (IHs None E C pos pos m stk HC eq_refl) as [U|[(o & m' & lk & X & Y & Z)|[X Y]]].
      * left. now apply x_lab.
      * done_ o m' lk. split; [now apply x_lab|auto].
      * right; right. split; [now apply x_lab|auto].
  - intros n md E C pos pc m stk HC HP. destruct md; [discriminate|]. injection HP as <-.
    done_ OBrk m (@nil Z). split; [constructor|]. split; auto. cbn in *. apply code_at_cons in HC. apply jmp1, HC.
  - intros n md E C pos pc m stk HC HP. destruct md; [discriminate|]. injection HP as <-.
    done_ OCont m (@nil Z). split; [constructor|]. split; auto. cbn in *. apply code_at_cons in HC. apply jmp1, HC.
  - intros n md E C pos pc m stk HC HP. destruct md; [discriminate|]. injection HP as <-.
    done_ (OGoto l) m (@nil Z). split; [constructor|]. split; auto. cbn in *. apply code_at_cons in HC. apply jmp1, HC.
  - destruct e as [e|].
    + apply andb_true_iff in OK. destruct OK. intro n. apply good_return; auto.
    + intros n md E C pos pc m stk HC HP. destruct md; [discriminate|]. injection HP as <-.
      done_ (OReturn None) m (@nil Z). split; [constructor|]. split; auto. cbn in *. apply code_at_cons in HC.
      exists pos. split; [apply HC|]. apply star_refl.
Qed.

End Correct.
