(** C29: back-patching of jumps. *)

From Coq Require Import ZArith Bool List Lia.
From Verif Require Import FlowModel.
Import ListNotations.
Open Scope Z_scope.

Section C29.
Variable Opc : Type.
Local Notation instr := (instr Opc).
Local Notation action := (action Opc).
Local Notation state := (state Opc).

(** ** Specification

    What a list of calls means, without any state: the instructions emitted into a
    block, the label an instruction was emitted for, the place of a label. *)

Fixpoint emitted (l : list action) (b : nat) : list instr :=
  match l with
  | [] => []
  | Append b' x :: r => if Nat.eqb b b' then x :: emitted r b else emitted r b
  | _ :: r => emitted r b
  end.

Definition refers (l : list action) (p b i : nat) : Prop := In (Reference p b i) l.
Definition placed (l : list action) (p : nat) (v : Z) : Prop := In (Resolve p v) l.

(** The final instruction [y] at [b, i], where [x] was emitted. *)
Definition final_instr (l : list action) (b i : nat) (x y : instr) : Prop :=
  (forall p v, refers l p b i -> placed l p v -> (forall q, refers l q b i -> q = p) ->
     patchable (op x) = true /\ y = {| op := op x; arg := v |}) /\
  ((forall p v, refers l p b i -> ~ placed l p v) -> y = x).

(** ** Proofs *)

Lemma emitted_app : forall l l' b, emitted (l ++ l') b = emitted l b ++ emitted l' b.
Proof.
  induction l as [|a l IH]; intros; cbn; auto. destruct a; auto. destruct (Nat.eqb b b0); cbn; now rewrite IH.
Qed.

Lemma set_nth_length : forall A (l : list A) i v, length (set_nth l i v) = length l.
Proof. induction l; destruct i; cbn; intros; auto. Qed.

Lemma nth_set_nth : forall A (l : list A) i v j,
  nth_error (set_nth l i v) j = if Nat.eqb j i then (if Nat.ltb i (length l) then Some v else None) else nth_error l j.
Proof.
  induction l as [|x l IH]; intros i v j.
  - cbn. destruct (Nat.eqb j i); destruct j; reflexivity.
  - destruct i, j; cbn [set_nth nth_error Nat.eqb length]; auto. rewrite IH.
    destruct (Nat.eqb j i); auto.
Qed.

Lemma run_app : forall (l l' : list action) st, run st (l ++ l') = match run st l with Ok st' => run st' l' | Err e => Err e end.
Proof. induction l as [|a l IH]; intros; cbn; auto. destruct (act st a); auto. Qed.

Lemma pair_dec : forall a b : nat * nat, {a = b} + {a <> b}.
Proof. decide equality; apply Nat.eq_dec. Qed.

(** State after the calls [l]. *)
Record inv (l : list action) (st : state) : Prop := {
  i_len : forall b, length (blocks st b) = length (emitted l b);
  i_pend : forall p deps, points st p = Pending deps ->
     (forall b i, In (b, i) deps <-> refers l p b i) /\ forall v, ~ placed l p v;
  i_res : forall p v, points st p = Resolved v <-> placed l p v;
  i_range : forall p b i, refers l p b i -> (i < length (emitted l b))%nat;
  i_code : forall b i x y, nth_error (emitted l b) i = Some x -> nth_error (blocks st b) i = Some y ->
     op y = op x /\
     (arg y = arg x \/ exists p, refers l p b i /\ placed l p (arg y)) /\
     (forall p v, refers l p b i -> placed l p v ->
        patchable (op x) = true /\ exists q, refers l q b i /\ placed l q (arg y))
}.

Lemma patch_command_ok : forall (B : nat -> list instr) d v B', patch_command B d v = Ok B' ->
  exists x, nth_error (B (fst d)) (snd d) = Some x /\ patchable (op x) = true /\
   forall b i, nth_error (B' b) i = if Nat.eqb b (fst d) && Nat.eqb i (snd d)
                                    then Some {| op := op x; arg := v |} else nth_error (B b) i.
Proof.
  intros B [b0 i0] v B'. cbn [patch_command fst snd]. destruct (nth_error (B b0) i0) as [x|] eqn:N; [|discriminate].
  destruct (patchable (op x)) eqn:P; [|discriminate]. intro H. injection H as <-. exists x. split; auto. split; auto.
  intros b i. unfold upd. destruct (Nat.eqb b b0) eqn:E; cbn [andb]; auto. apply Nat.eqb_eq in E. subst b.
  rewrite nth_set_nth. destruct (Nat.eqb i i0) eqn:E2; auto.
  assert (i0 < length (B b0))%nat by (apply nth_error_Some; congruence).
  destruct (Nat.ltb_spec i0 (length (B b0))); auto. lia.
Qed.

Lemma nth_same_length : forall (A : Type) (l l' : list A), (forall i, nth_error l i = None <-> nth_error l' i = None) -> length l = length l'.
Proof.
  intros A l l' H. destruct (Nat.lt_trichotomy (length l) (length l')) as [L|[L|L]]; auto.
  - assert (nth_error l' (length l) = None) by (apply H; apply nth_error_None; lia). apply nth_error_None in H0. lia.
  - assert (nth_error l (length l') = None) by (apply H; apply nth_error_None; lia). apply nth_error_None in H0. lia.
Qed.

Lemma patch_all_ok : forall deps (B : nat -> list instr) v B', patch_all B deps v = Ok B' ->
  forall b, length (B' b) = length (B b) /\
  forall i y, nth_error (B b) i = Some y ->
   (In (b, i) deps -> patchable (op y) = true /\ nth_error (B' b) i = Some {| op := op y; arg := v |}) /\
   (~ In (b, i) deps -> nth_error (B' b) i = Some y).
Proof.
  induction deps as [|d deps IH]; intros B v B' H b; cbn in H.
  - injection H as <-. split; auto. intros i y N. split; [intros []|auto].
  - destruct (patch_command B d v) as [B1|] eqn:E; [|discriminate]. apply patch_command_ok in E.
    destruct E as (x & N & P & U). destruct (IH _ _ _ H b) as [L C]. split.
    { rewrite L. apply nth_same_length. intro i. rewrite U. destruct (Nat.eqb b (fst d) && Nat.eqb i (snd d)) eqn:E; [|tauto].
      apply andb_prop in E. destruct E as [E1 E2]. apply Nat.eqb_eq in E1, E2. subst b i. rewrite N. split; discriminate. }
    intros i y NY. pose proof (U b i) as UI. destruct (Nat.eqb b (fst d) && Nat.eqb i (snd d)) eqn:E.
    + apply andb_prop in E. destruct E as [E1 E2]. apply Nat.eqb_eq in E1, E2. subst b i. rewrite N in NY. injection NY as <-.
      destruct (C _ _ UI) as [C1 C2]. cbn [op] in *. split.
      * intros _. split; auto. destruct (in_dec pair_dec (fst d, snd d) deps) as [I|I];
        [apply (C1 I)|apply (C2 I)].
      * intro NI. exfalso. apply NI. left. destruct d; reflexivity.
    + rewrite NY in UI. destruct (C _ _ UI) as [C1 C2]. split.
      * intros [D|I]; [|auto]. subst d. cbn [fst snd] in E. rewrite !Nat.eqb_refl in E. discriminate.
      * intro NI. apply C2. intro. apply NI. right; auto.
Qed.

Lemma refers_snoc : forall (l : list action) a p b i, refers (l ++ [a]) p b i <-> refers l p b i \/ a = Reference p b i.
Proof. intros. unfold refers. rewrite in_app_iff. cbn. tauto. Qed.
Lemma placed_snoc : forall (l : list action) a p v, placed (l ++ [a]) p v <-> placed l p v \/ a = Resolve p v.
Proof. intros. unfold placed. rewrite in_app_iff. cbn. tauto. Qed.

Lemma inv_init : inv [] init.
Proof.
  split; cbn; auto.
  - intros p deps H. injection H as <-. split; [intros; unfold refers; cbn; tauto|intros v []].
  - intros p v. split; [discriminate|intros []].
  - intros p b i [].
  - intros b i x y H. destruct i; discriminate.
Qed.

Lemma inv_step : forall l st a st', inv l st -> act st a = Ok st' -> inv (l ++ [a]) st'.
Proof.
  intros l st a st' [IL IP IR IG IC] H. destruct a as [b0 x0|p0 b0 i0|p0 v0]; cbn [act] in H.
  - injection H as <-. split.
    + intro b. rewrite emitted_app. cbn [append blocks emitted]. unfold upd. destruct (Nat.eqb b b0) eqn:E.
      * apply Nat.eqb_eq in E. subst b. rewrite !app_length, IL. reflexivity.
      * rewrite app_nil_r. apply IL.
    + intros p deps PT. destruct (IP p deps PT) as [A B]. split.
      * intros b i. rewrite refers_snoc, A. split; [tauto|intros [?|?]; [auto|discriminate]].
      * intros v PL. apply placed_snoc in PL. destruct PL as [PL|PL]; [apply (B v PL)|discriminate].
    + intros p v. rewrite placed_snoc. cbn [append points]. rewrite IR. split; [tauto|intros [?|?]; [auto|discriminate]].
    + intros p b i R. apply refers_snoc in R. destruct R as [R|R]; [|discriminate]. rewrite emitted_app, app_length.
      specialize (IG _ _ _ R). lia.
    + intros b i x y NX NY. rewrite emitted_app in NX. cbn [append blocks emitted] in NX, NY. unfold upd in NY.
      assert (OLD : (i < length (emitted l b))%nat -> nth_error (emitted l b) i = Some x /\ nth_error (blocks st b) i = Some y).
      { intro LT. rewrite nth_error_app1 in NX by auto. split; auto. destruct (Nat.eqb b b0) eqn:E; auto.
        apply Nat.eqb_eq in E. subst b0. rewrite nth_error_app1 in NY by (rewrite IL; auto). auto. }
      destruct (Nat.lt_ge_cases i (length (emitted l b))) as [LT|GE].
      * destruct (OLD LT) as [N1 N2]. destruct (IC _ _ _ _ N1 N2) as (A & B & C). split; auto. split.
        -- destruct B as [B|(p & B & D)]; auto. right. exists p. rewrite refers_snoc, placed_snoc. auto.
        -- intros p v R P. apply refers_snoc in R. apply placed_snoc in P. destruct R as [R|R]; [|discriminate].
           destruct P as [P|P]; [|discriminate]. destruct (C p v R P) as (PA & q & Q1 & Q2). split; auto.
           exists q. rewrite refers_snoc, placed_snoc. auto.
      * rewrite nth_error_app2 in NX by auto. destruct (Nat.eqb b b0) eqn:E.
        2:{ destruct (i - length (emitted l b))%nat; discriminate. }
        apply Nat.eqb_eq in E. subst b0. rewrite nth_error_app2 in NY by (rewrite IL; auto). rewrite IL in NY.
        rewrite NX in NY. injection NY as <-. split; auto. split; auto.
        intros p v R P. apply refers_snoc in R. destruct R as [R|R]; [|discriminate]. specialize (IG _ _ _ R). lia.
  - unfold reference in H. destruct (Nat.ltb_spec i0 (length (blocks st b0))) as [LT|]; [|discriminate].
    assert (EM : forall b, emitted (l ++ [Reference p0 b0 i0]) b = emitted l b) by (intro; rewrite emitted_app; apply app_nil_r).
    assert (RS : forall p b i, refers (l ++ [Reference p0 b0 i0]) p b i <-> refers l p b i \/ (p = p0 /\ b = b0 /\ i = i0)).
    { intros. rewrite refers_snoc. split; (intros [?|E]; [auto|]); [injection E; auto|destruct E as (-> & -> & ->); auto]. }
    assert (PS : forall p v, placed (l ++ [Reference p0 b0 i0]) p v <-> placed l p v).
    { intros. rewrite placed_snoc. split; [intros [?|?]; [auto|discriminate]|auto]. }
    assert (RG : forall p b i, refers (l ++ [Reference p0 b0 i0]) p b i -> (i < length (emitted l b))%nat).
    { intros p b i R. apply RS in R. destruct R as [R|(-> & -> & ->)]; [eauto|]. now rewrite <- IL. }
    destruct (points st p0) as [deps|a0] eqn:PT.
    + injection H as <-. split; cbn [blocks points].
      * intro b. now rewrite EM.
      * intros p deps'. unfold upd. destruct (Nat.eqb p p0) eqn:E.
        -- apply Nat.eqb_eq in E. subst p. intro X. injection X as <-. destruct (IP _ _ PT) as [A B]. split.
           ++ intros b i. rewrite RS, in_app_iff, A. cbn. split; [intros [?|[X|[]]]; [auto|injection X; auto]|].
              intros [?|(_ & -> & ->)]; auto.
           ++ intros v X. apply PS in X. apply (B v X).
        -- intro X. destruct (IP _ _ X) as [A B]. apply Nat.eqb_neq in E. split.
           ++ intros b i. rewrite RS, A. split; [auto|]. intros [?|(? & _)]; [auto|contradiction].
           ++ intros v Y. apply PS in Y. apply (B v Y).
      * intros p v. rewrite PS. unfold upd. destruct (Nat.eqb p p0) eqn:E; [|apply IR].
        apply Nat.eqb_eq in E. subst p. split; [discriminate|]. intro X. apply IR in X. congruence.
      * intros p b i R. rewrite EM. eauto.
      * intros b i x y NX NY. rewrite EM in NX. destruct (IC _ _ _ _ NX NY) as (A & B & C). split; auto. split.
        -- destruct B as [B|(p & B & D)]; auto. right. exists p. rewrite RS, PS. auto.
        -- intros p v R P. apply RS in R. apply PS in P. destruct R as [R|(-> & -> & ->)].
           ++ destruct (C _ _ R P) as (PA & q & Q1 & Q2). split; auto. exists q. rewrite RS, PS. auto.
           ++ apply IR in P. congruence.
    + destruct (patch_command (blocks st) (b0, i0) a0) as [B1|] eqn:E; [|discriminate]. injection H as <-.
      apply patch_command_ok in E. cbn [fst snd] in E. destruct E as (x0 & N0 & PX & U).
      assert (PL0 : placed l p0 a0) by (apply IR; auto).
      split; cbn [blocks points].
      * intro b. rewrite EM, <- IL. apply nth_same_length. intro i. rewrite U.
        destruct (Nat.eqb b b0 && Nat.eqb i i0) eqn:E; [|tauto]. apply andb_prop in E. destruct E as [E1 E2].
        apply Nat.eqb_eq in E1, E2. subst b i. rewrite N0. split; discriminate.
      * intros p deps X. destruct (IP _ _ X) as [A B]. split.
        -- intros b i. rewrite RS, A. split; auto. intros [?|(-> & _)]; [auto|congruence].
        -- intros v Y. apply PS in Y. apply (B v Y).
      * intros p v. rewrite PS. apply IR.
      * intros p b i R. rewrite EM. eauto.
      * intros b i x y NX NY. rewrite EM in NX. rewrite U in NY. destruct (Nat.eqb b b0 && Nat.eqb i i0) eqn:E.
        -- apply andb_prop in E. destruct E as [E1 E2]. apply Nat.eqb_eq in E1, E2. subst b i. injection NY as <-.
           destruct (IC _ _ _ _ NX N0) as (A & _ & _). cbn [op arg]. split; auto. split.
           ++ right. exists p0. rewrite RS, PS. auto.
           ++ intros p v R P. rewrite A in PX. split; auto. exists p0. rewrite RS, PS. auto.
        -- destruct (IC _ _ _ _ NX NY) as (A & B & C). split; auto. split.
           ++ destruct B as [B|(p & B & D)]; auto. right. exists p. rewrite RS, PS. auto.
           ++ intros p v R P. apply RS in R. apply PS in P. destruct R as [R|(-> & -> & ->)].
              ** destruct (C _ _ R P) as (PA & q & Q1 & Q2). split; auto. exists q. rewrite RS, PS. auto.
              ** rewrite !Nat.eqb_refl in E. discriminate.
  - unfold resolve in H. destruct (points st p0) as [deps|] eqn:PT; [|discriminate].
    destruct (patch_all (blocks st) deps v0) as [B1|] eqn:E; [|discriminate]. injection H as <-.
    pose proof (patch_all_ok _ _ _ _ E) as U. destruct (IP _ _ PT) as [DA DB].
    assert (EM : forall b, emitted (l ++ [Resolve p0 v0]) b = emitted l b) by (intro; rewrite emitted_app; apply app_nil_r).
    assert (RS : forall p b i, refers (l ++ [Resolve p0 v0]) p b i <-> refers l p b i).
    { intros. rewrite refers_snoc. split; [intros [?|?]; [auto|discriminate]|auto]. }
    assert (PS : forall p v, placed (l ++ [Resolve p0 v0]) p v <-> placed l p v \/ (p = p0 /\ v = v0)).
    { intros. rewrite placed_snoc. split; (intros [?|X]; [auto|]); [injection X; auto|destruct X as [-> ->]; auto]. }
    split; cbn [blocks points].
    * intro b. rewrite EM, <- IL. apply (U b).
    * intros p deps'. unfold upd. destruct (Nat.eqb p p0) eqn:E0; [discriminate|]. apply Nat.eqb_neq in E0.
      intro X. destruct (IP _ _ X) as [A B]. split; [intros; now rewrite RS|].
      intros v Y. apply PS in Y. destruct Y as [Y|[Y _]]; [apply (B v Y)|contradiction].
    * intros p v. rewrite PS. unfold upd. destruct (Nat.eqb p p0) eqn:E0.
      -- apply Nat.eqb_eq in E0. subst p. split; [intro X; injection X as <-; auto|].
         intros [X|[_ ->]]; [exfalso; apply (DB v X)|auto].
      -- apply Nat.eqb_neq in E0. rewrite IR. split; [auto|intros [?|[? _]]; [auto|contradiction]].
    * intros p b i R. rewrite EM. apply RS in R. eauto.
    * intros b i x y NX NY. rewrite EM in NX.
      destruct (nth_error (blocks st b) i) as [y0|] eqn:N0.
      2:{ apply nth_error_None in N0. rewrite <- (proj1 (U b)) in N0. apply nth_error_None in N0. congruence. }
      destruct (IC _ _ _ _ NX N0) as (A & B & C). destruct (proj2 (U b) _ _ N0) as [U1 U2].
      destruct (in_dec pair_dec (b, i) deps) as [I|I].
      -- destruct (U1 I) as [PA NB]. rewrite NB in NY. injection NY as <-. cbn [op arg]. split; auto.
         assert (R0 : refers l p0 b i) by (apply DA; auto). split.
         ++ right. exists p0. rewrite RS, PS. auto.
         ++ intros p v R P. rewrite A in PA. split; auto. exists p0. rewrite RS, PS. auto.
      -- rewrite (U2 I) in NY. injection NY as <-. split; auto. split.
         ++ destruct B as [B|(p & B & D)]; auto. right. exists p. rewrite RS, PS. auto.
         ++ intros p v R P. apply RS in R. apply PS in P. destruct P as [P|[-> ->]].
            ** destruct (C _ _ R P) as (PA & q & Q1 & Q2). split; auto. exists q. rewrite RS, PS. auto.
            ** exfalso. apply I. apply DA. auto.
Qed.

Lemma inv_run : forall (l' l : list action) st st', inv l st -> run st l' = Ok st' -> inv (l ++ l') st'.
Proof.
  induction l' as [|a l' IH]; intros l st st' I H; cbn in H.
  - injection H as <-. now rewrite app_nil_r.
  - destruct (act st a) as [st1|] eqn:E; [|discriminate].
    replace (l ++ a :: l') with ((l ++ [a]) ++ l') by (now rewrite <- app_assoc). eapply IH; eauto. eapply inv_step; eauto.
Qed.

(** A label is placed at most once. *)
Lemma placed_once : forall (l : list action) st p v w, run init l = Ok st -> placed l p v -> placed l p w -> v = w.
Proof.
  intros l st p v w H P Q. pose proof (inv_run l [] init st inv_init H) as I. cbn in I.
  apply (i_res _ _ I) in P. apply (i_res _ _ I) in Q. congruence.
Qed.

(** ** C29 *)

(** However appending instructions, referring to labels and placing labels are
    interleaved, over any number of blocks: if every call succeeds, each block holds
    exactly the emitted instructions in order, except that an instruction emitted for a
    placed label has the label's place as its argument. *)
Theorem c29_backpatching : forall (l : list action) st, run init l = Ok st -> forall b,
  length (blocks st b) = length (emitted l b) /\
  forall i x y, nth_error (emitted l b) i = Some x -> nth_error (blocks st b) i = Some y -> final_instr l b i x y.
Proof.
  intros l st H b. pose proof (inv_run l [] init st inv_init H) as I. cbn in I. split; [apply (i_len _ _ I)|].
  intros i x y NX NY. destruct (i_code _ _ I _ _ _ _ NX NY) as (A & B & C). split.
  - intros p v R P UQ. destruct (C p v R P) as (PA & q & Q1 & Q2). split; auto.
    apply UQ in Q1. subst q. assert (arg y = v) by (eapply placed_once; eauto). destruct y; cbn in *; congruence.
  - intro NP. destruct B as [B|(p & B & D)]; [|exfalso; eapply NP; eauto]. destruct x, y; cbn in *; congruence.
Qed.

(** When the calls succeed: references to existing, patchable instructions, and no label
    placed twice. *)
Definition well_used (l : list action) : Prop :=
  (forall l1 l2 p b i, l = l1 ++ Reference p b i :: l2 ->
     exists x, nth_error (emitted l1 b) i = Some x /\ patchable (op x) = true) /\
  (forall l1 l2 p v, l = l1 ++ Resolve p v :: l2 -> forall w, ~ placed l1 p w).

Lemma patch_all_succeeds : forall deps (B : nat -> list instr) v,
  (forall b i, In (b, i) deps -> exists y, nth_error (B b) i = Some y /\ patchable (op y) = true) ->
  exists B', patch_all B deps v = Ok B'.
Proof.
  induction deps as [|[b0 i0] deps IH]; intros B v H; cbn [patch_all]; [eauto|].
  destruct (H b0 i0 (or_introl eq_refl)) as (x & N & P).
  assert (E : exists B1, patch_command B (b0, i0) v = Ok B1) by (cbn [patch_command]; rewrite N, P; eauto).
  destruct E as [B1 E]. rewrite E. apply IH. intros b i I. destruct (H b i (or_intror I)) as (y & NY & PY).
  apply patch_command_ok in E. cbn [fst snd] in E. destruct E as (x' & N' & P' & U). rewrite U.
  destruct (Nat.eqb b b0 && Nat.eqb i i0); eauto.
Qed.

Lemma i_nth : forall l st b i x, inv l st -> nth_error (emitted l b) i = Some x ->
  exists y, nth_error (blocks st b) i = Some y /\ op y = op x.
Proof.
  intros l st b i x I N. destruct (nth_error (blocks st b) i) as [y|] eqn:E.
  - destruct (i_code _ _ I _ _ _ _ N E) as [A _]. eauto.
  - apply nth_error_None in E. rewrite (i_len _ _ I) in E. apply nth_error_None in E. congruence.
Qed.

Lemma well_used_prefix : forall l a, well_used (l ++ [a]) -> well_used l.
Proof.
  intros l a [A B]. split.
  - intros l1 l2 p b i E. apply (A l1 (l2 ++ [a]) p b i). rewrite E. now rewrite <- app_assoc.
  - intros l1 l2 p v E. apply (B l1 (l2 ++ [a]) p v). rewrite E. now rewrite <- app_assoc.
Qed.

Theorem c29_succeeds : forall l : list action, well_used l -> exists st, run init l = Ok st.
Proof.
  intros l. induction l as [|a l IH] using rev_ind; intro W; [eexists; reflexivity|].
  destruct (IH (well_used_prefix _ _ W)) as [st R]. rewrite run_app, R. cbn [run].
  pose proof (inv_run l [] init st inv_init R) as I. cbn in I.
  destruct W as [W1 W2]. destruct a as [b x|p b i|p v]; cbn [act]; [eauto| |].
  - destruct (W1 l [] p b i eq_refl) as (x & N & P). destruct (i_nth _ _ _ _ _ I N) as (y & NY & OY).
    unfold reference. assert (LT : (i < length (blocks st b))%nat) by (apply nth_error_Some; congruence).
    apply Nat.ltb_lt in LT. rewrite LT. destruct (points st p); [eauto|].
    cbn [patch_command]. rewrite NY, OY, P. eauto.
  - unfold resolve. destruct (points st p) as [deps|w] eqn:PT.
    + destruct (patch_all_succeeds deps (blocks st) v) as [B' E].
      { intros b i D. apply (i_pend _ _ I _ _ PT) in D. apply in_split in D. destruct D as (l1 & l2 & D).
        destruct (W1 l1 (l2 ++ [Resolve p v]) p b i) as (x & N & P); [rewrite D; now rewrite <- app_assoc|].
        assert (N' : nth_error (emitted l b) i = Some x).
        { rewrite D, emitted_app. rewrite nth_error_app1; auto. apply nth_error_Some. congruence. }
        destruct (i_nth _ _ _ _ _ I N') as (y & NY & OY). exists y. rewrite OY. auto. }
      rewrite E. eauto.
    + exfalso. apply (W2 l [] p v eq_refl w). apply (i_res _ _ I). auto.
Qed.

(** A second placement of a label is reported, never silently accepted. *)
Theorem c29_no_second_placement : forall (l l' : list action) p v w, placed l p v -> exists e, run init (l ++ Resolve p w :: l') = Err e.
Proof.
  intros l l' p v w P. rewrite run_app. destruct (run init l) as [st|e] eqn:R; [|eauto].
  pose proof (inv_run l [] init st inv_init R) as I. cbn in I. apply (i_res _ _ I) in P. cbn [run act].
  unfold resolve. rewrite P. eauto.
Qed.

End C29.

Arguments emitted {Opc}. Arguments refers {Opc}. Arguments placed {Opc}. Arguments final_instr {Opc}.
Arguments well_used {Opc}.

(** A backward and two forward jumps over two labels; label 1 is placed between the
    forward jumps. *)
Definition ex_acts : list (action nat) :=
  [Append 0 {| op := OTHER 5%nat; arg := 7 |}; Resolve 0 0;
   Append 0 {| op := BRANCH; arg := 0 |}; Reference 1 0 1;
   Append 0 {| op := JMP; arg := 0 |}; Reference 0 0 2; Resolve 1 3;
   Append 0 {| op := PUSHLABEL; arg := 99 |}; Append 0 {| op := JMP; arg := 42 |}; Reference 1 0 3].
Example c29_case : exists st, run init ex_acts = Ok st /\
  blocks st 0%nat = [{| op := OTHER 5%nat; arg := 7 |}; {| op := BRANCH; arg := 3 |}; {| op := JMP; arg := 0 |};
                 {| op := PUSHLABEL; arg := 3 |}; {| op := JMP; arg := 42 |}] /\
  refers ex_acts 1 0 1 /\ placed ex_acts 1 3 /\ (forall q, refers ex_acts q 0 1 -> q = 1%nat).
Proof.
  eexists. split; [reflexivity|]. split; [reflexivity|]. repeat split; try (cbn; tauto).
  intros q H. unfold refers in H. cbn in H.
  repeat (destruct H as [H|H]; [try discriminate H; injection H; intros; subst; auto; discriminate|]). destruct H.
Qed.

Print Assumptions c29_backpatching.
Print Assumptions c29_succeeds.
Print Assumptions c29_no_second_placement.
