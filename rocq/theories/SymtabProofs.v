From Coq Require Import ZArith List Bool Lia.
From Verif Require Import HashtreeModel HashtreeProofs SymtabModel.
Import ListNotations.
Open Scope Z_scope.

Lemma cstring_eqb_spec a b : cstring_eqb a b = true <-> a = b.
Proof.
  revert b. induction a as [|x a IH]; destruct b as [|y b]; simpl; split; try congruence; auto.
  - intros H. apply andb_true_iff in H as [H1 H2]. apply Z.eqb_eq in H1. apply IH in H2. congruence.
  - intros H; inversion H; subst. rewrite Z.eqb_refl. apply IH; auto.
Qed.

Definition srep := represents cstring (nat * Z) str_hash cstring_eqb.
Definition irep := represents Z nat uint_hash Z.eqb.

Definition st_inv (t : symtab) : Prop :=
  st_next t = Z.of_nat (length (st_heap t)) /\
  NoDup (st_heap t) /\
  (exists m, srep (st_symbols t) m /\
     forall s p id, m s = Some (p, id) <->
       (id = Z.of_nat p /\ nth_error (st_heap t) p = Some s)) /\
  (exists m, irep (st_ids t) m /\
     forall id p, m id = Some p <-> (id = Z.of_nat p /\ (p < length (st_heap t))%nat)).

Lemma st_inv_init : st_inv symtab_init.
Proof.
  unfold st_inv, symtab_init; simpl. repeat split; auto; try constructor.
  - exists (fempty _ _). split; [apply represents_empty|].
    intros s p id; unfold fempty; split; [discriminate|].
    intros [_ H]; destruct p; discriminate.
  - exists (fempty _ _). split; [apply represents_empty|].
    intros id p; unfold fempty; split; [discriminate|]. intros [_ H]; lia.
Qed.

(** Lookup in a represented tree. *)
Lemma at_rep K V hash eqk (E : forall a b, eqk a b = true <-> a = b) t m k :
  represents K V hash eqk t m ->
  match ht_at K V hash eqk k t with
  | Some (k', v) => k' = k /\ m k = Some v
  | None => m k = None
  end.
Proof.
  intros [(O & Hh & ND) HA].
  pose proof (find_abs K V hash eqk E t k O Hh) as F. unfold ht_at.
  rewrite HA in F.
  destruct (node_find K V eqk (hash k) k t) as [[k' v]|] eqn:X; simpl in F.
  - split; [eapply find_key; eauto|auto].
  - auto.
Qed.

Lemma insert_rep K V hash eqk (E : forall a b, eqk a b = true <-> a = b) t m k v :
  represents K V hash eqk t m -> m k = None ->
  exists t', ht_insert K V hash eqk k v t = (HtOk, t') /\
             represents K V hash eqk t' (fput K V eqk k v m).
Proof.
  intros R N.
  destruct (ht_insert K V hash eqk k v t) as [res t'] eqn:X.
  destruct (step_refines K V hash eqk E t m (OpInsert k v) (RepResult res) t' R) as [S1 S2].
  { simpl. rewrite X. auto. }
  simpl in S1, S2. rewrite N in S1, S2. simpl in *. inversion S1; subst.
  exists t'; auto.
Qed.

(** Outcome of one interning request. *)
Lemma symtab_insert_spec s t :
  st_inv t ->
  exists p t', symtab_insert s t = (Some (p, Z.of_nat p), t') /\ st_inv t' /\
    nth_error (st_heap t') p = Some s /\
    (exists more, st_heap t' = st_heap t ++ more) /\
    (In s (st_heap t) -> t' = t).
Proof.
  intros (HN & ND & (m & Rs & Hm) & (im & Ri & Him)). unfold symtab_insert.
  pose proof (at_rep _ _ _ _ cstring_eqb_spec _ _ s Rs) as A.
  destruct (ht_at _ _ str_hash cstring_eqb s (st_symbols t)) as [[k' [p id]]|].
  - destruct A as [-> A]. apply Hm in A as [-> A].
    exists p, t. split; auto. split.
    { repeat split; eauto. }
    split; auto. split; [exists []; rewrite app_nil_r; auto|auto].
  - assert (NS : ~ In s (st_heap t)).
    { intro I. apply In_nth_error in I as [n I].
      assert (m s = Some (n, Z.of_nat n)) by (apply Hm; auto). congruence. }
    destruct (insert_rep _ _ _ _ cstring_eqb_spec _ _ s (length (st_heap t), st_next t) Rs A)
      as (sy & -> & Rs').
    assert (im (st_next t) = None) as IN.
    { destruct (im (st_next t)) as [q|] eqn:X; auto. apply Him in X as [X1 X2]. lia. }
    destruct (insert_rep _ _ _ _ Z.eqb_eq _ _ (st_next t) (length (st_heap t)) Ri IN)
      as (ids & -> & Ri').
    exists (length (st_heap t)). eexists. rewrite HN at 1. split; [reflexivity|].
    split; [|split; [|split]].
    + unfold st_inv; simpl. rewrite app_length; simpl. split; [lia|]. split; [|split].
      * rewrite <- (rev_involutive (st_heap t ++ [s])). apply NoDup_rev.
        rewrite rev_app_distr. simpl. constructor.
        -- rewrite <- in_rev. auto.
        -- apply NoDup_rev; auto.
      * exists (fput _ _ cstring_eqb s (length (st_heap t), st_next t) m). split; auto.
        intros s' p id. unfold fput. destruct (cstring_eqb s s') eqn:X.
        -- apply cstring_eqb_spec in X; subst s'. split.
           ++ intros Y; inversion Y; subst. split; auto.
              rewrite nth_error_app2, Nat.sub_diag by lia. reflexivity.
           ++ intros [-> Y].
              destruct (Nat.lt_ge_cases p (length (st_heap t))) as [L|L].
              ** rewrite nth_error_app1 in Y by auto. apply nth_error_In in Y. contradiction.
              ** assert (p < length (st_heap t ++ [s]))%nat as L2.
                 { apply nth_error_Some. congruence. }
                 rewrite app_length in L2; simpl in L2.
                 assert (p = length (st_heap t)) as -> by lia. rewrite HN. auto.
        -- rewrite Hm. split; intros [-> Y]; split; auto.
           ++ rewrite nth_error_app1; auto. apply nth_error_Some. congruence.
           ++ destruct (Nat.lt_ge_cases p (length (st_heap t))) as [L|L].
              ** rewrite nth_error_app1 in Y by auto. auto.
              ** exfalso. rewrite nth_error_app2 in Y by auto.
                 destruct (p - length (st_heap t))%nat as [|q]; simpl in Y.
                 { inversion Y; subst. pose proof (proj2 (cstring_eqb_spec s' s') eq_refl). congruence. }
                 { destruct q; discriminate. }
      * exists (fput _ _ Z.eqb (st_next t) (length (st_heap t)) im). split; auto.
        intros id p. unfold fput. destruct (st_next t =? id) eqn:X.
        -- apply Z.eqb_eq in X; subst id. split.
           ++ intros Y; inversion Y; subst. lia.
           ++ intros [Y1 Y2]. f_equal. lia.
        -- apply Z.eqb_neq in X. rewrite Him. split; intros [-> Y]; split; auto; lia.
    + simpl. rewrite nth_error_app2, Nat.sub_diag by lia. reflexivity.
    + exists [s]; auto.
    + intros I. contradiction.
Qed.

Lemma symtab_run_spec ss : forall t rs t',
  st_inv t -> symtab_run t ss = (rs, t') ->
  st_inv t' /\ (exists more, st_heap t' = st_heap t ++ more) /\
  length rs = length ss /\
  forall i s, nth_error ss i = Some s ->
    exists p, nth_error rs i = Some (Some (p, Z.of_nat p)) /\ nth_error (st_heap t') p = Some s.
Proof.
  induction ss as [|s ss IH]; intros t rs t' I H; simpl in H.
  - inversion H; subst. split; auto. split; [exists []; rewrite app_nil_r; auto|].
    split; auto. intros i s X; destruct i; discriminate.
  - destruct (symtab_insert_spec s t I) as (p & t1 & E & I1 & N & (more & EH) & _).
    rewrite E in H. destruct (symtab_run t1 ss) as [rs2 t2] eqn:R.
    inversion H; subst; clear H.
    destruct (IH t1 rs2 t' I1 R) as (J1 & (more2 & J2) & J3 & J4).
    split; auto. split; [exists (more ++ more2); rewrite J2, EH, app_assoc; auto|].
    split; [simpl; auto|].
    intros i s' X. destruct i as [|i]; simpl in *.
    + inversion X; subst s'. exists p. split; auto. rewrite J2, nth_error_app1; auto.
      apply nth_error_Some; congruence.
    + apply J4; auto.
Qed.

Lemma symtab_get_spec t p :
  st_inv t -> (p < length (st_heap t))%nat -> symtab_get (Z.of_nat p) t = Some p.
Proof.
  intros (_ & _ & _ & (im & Ri & Him)) L. unfold symtab_get.
  pose proof (at_rep _ _ _ _ Z.eqb_eq _ _ (Z.of_nat p) Ri) as A.
  destruct (ht_at _ _ uint_hash Z.eqb (Z.of_nat p) (st_ids t)) as [[k v]|].
  - destruct A as [-> A]. apply Him in A as [A1 A2]. simpl. f_equal. lia.
  - assert (im (Z.of_nat p) = Some p) by (apply Him; auto). congruence.
Qed.
