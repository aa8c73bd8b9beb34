(** Reference semantics of a finite map and proofs that the hash tree of
    HashtreeModel refines it. *)
From Coq Require Import ZArith List Bool Lia Permutation Sorted.
From Verif Require Import HashtreeModel.
Import ListNotations.
Open Scope Z_scope.

(** ** Specification: a map is a partial function; operations act pointwise. *)
Section MapSpec.
  Variable K V : Type.
  Variable eqk : K -> K -> bool.

  Definition fmap := K -> option V.
  Definition fempty : fmap := fun _ => None.
  Definition fput (k : K) (v : V) (m : fmap) : fmap :=
    fun k' => if eqk k k' then Some v else m k'.
  Definition fdel (k : K) (m : fmap) : fmap :=
    fun k' => if eqk k k' then None else m k'.

  (** What a client must observe for each operation. *)
  Definition spec_step (m : fmap) (op : ht_op K V) : ht_reply V * fmap :=
    match op with
    | OpInsert k v =>
        match m k with
        | Some _ => (RepResult HtAlreadyExists, m)
        | None => (RepResult HtOk, fput k v m)
        end
    | OpDelete k =>
        match m k with
        | Some _ => (RepResult HtOk, fdel k m)
        | None => (RepResult HtNotFound, m)
        end
    | OpFind k => (RepFound (m k), m)
    end.

  Fixpoint spec_run (m : fmap) (ops : list (ht_op K V)) : list (ht_reply V) * fmap :=
    match ops with
    | [] => ([], m)
    | op :: rest =>
        let (r, m1) := spec_step m op in
        let (rs, m2) := spec_run m1 rest in (r :: rs, m2)
    end.
End MapSpec.

Section Proofs.
  Variable K V : Type.
  Variable hash : K -> Z.
  Variable eqk : K -> K -> bool.
  Hypothesis eqk_spec : forall a b, eqk a b = true <-> a = b.

  Local Notation tree := (htree K V).

  Lemma eqk_refl a : eqk a a = true.
  Proof. apply eqk_spec; reflexivity. Qed.

  Lemma eqk_false a b : eqk a b = false <-> a <> b.
  Proof.
    rewrite <- (eqk_spec a b). destruct (eqk a b); split; intros; congruence.
  Qed.

  (** In-order listing with hashes. *)
  Fixpoint entries (t : tree) : list (Z * K * V) :=
    match t with
    | HLeaf => []
    | HNode h k v l r => entries l ++ (h, k, v) :: entries r
    end.

  Definition ekey (e : Z * K * V) : K := snd (fst e).
  Definition ehash (e : Z * K * V) : Z := fst (fst e).
  Definition eval (e : Z * K * V) : V := snd e.

  Fixpoint ordered (t : tree) : Prop :=
    match t with
    | HLeaf => True
    | HNode h k v l r =>
        Forall (fun e => ehash e < h) (entries l) /\
        Forall (fun e => h <= ehash e) (entries r) /\
        ordered l /\ ordered r
    end.

  (** Structural invariant: ordered, every entry carries its key's hash, keys
      are distinct. *)
  Definition good (t : tree) : Prop :=
    ordered t /\
    Forall (fun e => ehash e = hash (ekey e)) (entries t) /\
    NoDup (map ekey (entries t)).

  (** Abstraction: the map represented by a list of entries. *)
  Fixpoint lookup (es : list (Z * K * V)) (k : K) : option V :=
    match es with
    | [] => None
    | e :: rest => if eqk k (ekey e) then Some (eval e) else lookup rest k
    end.

  Definition abs (t : tree) : K -> option V := lookup (entries t).

  Lemma lookup_app a b k :
    lookup (a ++ b) k = match lookup a k with Some v => Some v | None => lookup b k end.
  Proof.
    induction a as [|e a IH]; simpl; [reflexivity|].
    destruct (eqk k (ekey e)); auto.
  Qed.

  Lemma lookup_none es k : lookup es k = None <-> ~ In k (map ekey es).
  Proof.
    induction es as [|e es IH]; simpl; [tauto|].
    destruct (eqk k (ekey e)) eqn:E.
    - apply eqk_spec in E. split; [discriminate|]. intro H; exfalso; apply H; auto.
    - apply eqk_false in E. rewrite IH. intuition congruence.
  Qed.

  Lemma lookup_in es k v :
    NoDup (map ekey es) ->
    (lookup es k = Some v <-> exists h, In (h, k, v) es).
  Proof.
    induction es as [|e es IH]; simpl; intros ND.
    - split; [discriminate|intros [h []]].
    - inversion ND; subst. destruct e as [[h0 k0] v0]; unfold ekey, eval in *; simpl in *.
      destruct (eqk k k0) eqn:E.
      + apply eqk_spec in E; subst k0. split.
        * intros X; inversion X; subst; exists h0; auto.
        * intros [h [X|X]]; [inversion X; subst; auto|].
          exfalso; apply H1. change k with (ekey (h, k, v)). apply in_map; auto.
      + apply eqk_false in E. rewrite IH by auto. split; intros [h X].
        * exists h; auto.
        * destruct X as [X|X]; [inversion X; congruence|exists h; auto].
  Qed.

  Lemma Forall_app_split {A} (P : A -> Prop) a b :
    Forall P (a ++ b) <-> Forall P a /\ Forall P b.
  Proof. apply Forall_app. Qed.

  (** *** Lookup *)
  Lemma not_in_smaller es h k :
    Forall (fun e => ehash e = hash (ekey e)) es ->
    Forall (fun e => ehash e < h) es -> h <= hash k -> ~ In k (map ekey es).
  Proof.
    intros Hh Hl Hle Hin. apply in_map_iff in Hin as [e [He Hi]].
    rewrite Forall_forall in *. specialize (Hh e Hi). specialize (Hl e Hi).
    subst k. lia.
  Qed.

  Lemma not_in_larger es h k :
    Forall (fun e => ehash e = hash (ekey e)) es ->
    Forall (fun e => h <= ehash e) es -> hash k < h -> ~ In k (map ekey es).
  Proof.
    intros Hh Hl Hle Hin. apply in_map_iff in Hin as [e [He Hi]].
    rewrite Forall_forall in *. specialize (Hh e Hi). specialize (Hl e Hi).
    subst k. lia.
  Qed.

  Lemma find_abs t k :
    ordered t -> Forall (fun e => ehash e = hash (ekey e)) (entries t) ->
    option_map snd (node_find K V eqk (hash k) k t) = abs t k.
  Proof.
    unfold abs. induction t as [|h k' v l IHl r IHr]; simpl; [reflexivity|].
    intros (Hl & Hr & Ol & Or) Hh.
    apply Forall_app in Hh as [Hhl Hhr]. inversion Hhr as [|? ? Hn Hhr']; subst.
    unfold ehash, ekey in Hn; simpl in Hn.
    rewrite lookup_app; simpl. cbn [ekey eval fst snd].
    destruct (hash k <? h) eqn:E1.
    - apply Z.ltb_lt in E1. rewrite IHl by auto.
      destruct (lookup (entries l) k) eqn:E; [reflexivity|].
      destruct (eqk k k') eqn:E2.
      + apply eqk_spec in E2; subst k'. lia.
      + symmetry. apply lookup_none. eapply not_in_larger; eauto.
    - apply Z.ltb_ge in E1. simpl.
      assert (lookup (entries l) k = None) as ->.
      { apply lookup_none. eapply not_in_smaller; eauto. }
      destruct (eqk k' k) eqn:E2; simpl.
      + apply eqk_spec in E2; subst k'. rewrite eqk_refl. reflexivity.
      + apply eqk_false in E2. rewrite IHr by auto.
        destruct (eqk k k') eqn:E3; [apply eqk_spec in E3; congruence|reflexivity].
  Qed.

  (** The stored key returned by a search is the searched key. *)
  Lemma find_key t h k k' v : node_find K V eqk h k t = Some (k', v) -> k' = k.
  Proof.
    induction t as [|h0 k0 v0 l IHl r IHr]; simpl; [discriminate|].
    destruct (h <? h0); auto. destruct (eqk k0 k) eqn:E; simpl; auto.
    intros X; inversion X; subst. apply eqk_spec; auto.
  Qed.

  (** *** Insertion *)
  Lemma insert_entries t k v res t' :
    ordered t -> Forall (fun e => ehash e = hash (ekey e)) (entries t) ->
    node_insert K V eqk (hash k) k v t = (res, t') ->
    (res = HtAlreadyExists /\ t' = t /\ In k (map ekey (entries t))) \/
    (res = HtOk /\ ~ In k (map ekey (entries t)) /\ ordered t' /\
     exists a b, entries t = a ++ b /\ entries t' = a ++ (hash k, k, v) :: b).
  Proof.
    revert res t'. induction t as [|h k' v' l IHl r IHr]; intros res t' O Hh; simpl.
    - intros X; inversion X; subst. right. simpl. repeat split; auto.
      exists [], []; auto.
    - simpl in O, Hh. destruct O as (Hl & Hr & Ol & Or).
      apply Forall_app in Hh as [Hhl Hhr]. inversion Hhr as [|? ? Hn Hhr']; subst.
      unfold ehash, ekey in Hn; simpl in Hn.
      destruct (hash k <? h) eqn:E1.
      + apply Z.ltb_lt in E1.
        destruct (node_insert K V eqk (hash k) k v l) as [rs l'] eqn:EI.
        intros X; inversion X; subst res t'; clear X.
        destruct (IHl _ _ Ol Hhl eq_refl) as [(-> & -> & I)|(-> & NI & O' & a & b & Ea & Eb)].
        * left. repeat split; auto. rewrite map_app, in_app_iff; auto.
        * right. repeat split; auto.
          -- rewrite map_app, in_app_iff. simpl. intros [X|[X|X]]; auto.
             ++ unfold ekey in X; simpl in X; subst k'. lia.
             ++ revert X. eapply not_in_larger; eauto.
          -- simpl. repeat split; auto. rewrite Eb. rewrite Ea in Hl.
             apply Forall_app in Hl as [H1 H2]. apply Forall_app; split; auto.
          -- exists a, (b ++ (h, k', v') :: entries r). simpl. rewrite Ea, Eb, <- !app_assoc. auto.
      + apply Z.ltb_ge in E1.
        assert (NL : ~ In k (map ekey (entries l))) by (eapply not_in_smaller; eauto).
        destruct ((h <? hash k) || negb (eqk k' k)) eqn:E2.
        * assert (k' <> k) as NK.
          { intro; subst k'. rewrite eqk_refl in E2. apply orb_true_iff in E2 as [E2|E2].
            - apply Z.ltb_lt in E2; lia. - discriminate. }
          destruct (node_insert K V eqk (hash k) k v r) as [rs r'] eqn:EI.
          intros X; inversion X; subst res t'; clear X.
          destruct (IHr _ _ Or Hhr' eq_refl) as [(-> & -> & I)|(-> & NI & O' & a & b & Ea & Eb)].
          -- left. repeat split; auto. rewrite map_app, in_app_iff; simpl; auto.
          -- right. repeat split; auto.
             ++ rewrite map_app, in_app_iff. simpl. intros [X|[X|X]]; auto.
             ++ simpl. repeat split; auto. rewrite Eb. rewrite Ea in Hr.
                apply Forall_app in Hr as [H1 H2]. apply Forall_app; split; auto.
             ++ exists (entries l ++ (h, k', v') :: a), b. simpl.
                rewrite Ea, Eb, <- !app_assoc. auto.
        * intros X; inversion X; subst res t'; clear X. left.
          apply orb_false_iff in E2 as [_ E2]. apply negb_false_iff, eqk_spec in E2; subst k'.
          repeat split; auto. rewrite map_app, in_app_iff; simpl; auto.
  Qed.

  (** *** Deletion *)
  Lemma unlink_entries l : forall h k v r mh mk mv,
    node_minimum K V h k v l = (mh, mk, mv) ->
    entries (HNode h k v l r) = (mh, mk, mv) :: entries (unlink_minimum K V h k v l r).
  Proof.
    induction l as [|h' k' v' l' IH r' _]; intros; simpl in *.
    - inversion H; subst; auto.
    - specialize (IH h' k' v' r' _ _ _ H). simpl in IH. rewrite IH. simpl. reflexivity.
  Qed.

  Lemma unlink_ordered l : forall h k v r,
    ordered (HNode h k v l r) -> ordered (unlink_minimum K V h k v l r).
  Proof.
    induction l as [|h' k' v' l' IH r' _]; intros h k v r O; simpl in *; [tauto|].
    destruct O as (Hl & Hr & (Hl' & Hr' & Ol' & Or') & Or).
    repeat split; auto.
    - destruct (node_minimum K V h' k' v' l') as [[mh mk] mv] eqn:E.
      pose proof (unlink_entries l' h' k' v' r' mh mk mv E) as X. simpl in X.
      rewrite X in Hl. inversion Hl; auto.
  Qed.

  Lemma ordered_min l : forall h k v r mh mk mv,
    ordered (HNode h k v l r) -> node_minimum K V h k v l = (mh, mk, mv) ->
    Forall (fun e => mh <= ehash e) (entries (unlink_minimum K V h k v l r)) /\ mh <= h.
  Proof.
    induction l as [|h' k' v' l' IH r' _]; intros h k v r mh mk mv O E; simpl in *.
    - inversion E; subst. split; [tauto|lia].
    - destruct O as (Hl & Hr & (Hl' & Hr' & Ol' & Or') & Or).
      destruct (IH h' k' v' r' mh mk mv) as [I1 I2]; simpl; auto.
      assert (h' < h).
      { apply Forall_app in Hl as [_ Hl]. inversion Hl; auto. }
      split; [|lia]. apply Forall_app; split; auto.
      constructor; [unfold ehash; simpl; lia|].
      eapply Forall_impl; [|exact Hr]. intros; simpl in *; lia.
  Qed.

  Lemma delete_root_spec h k v l r :
    ordered (HNode h k v l r) ->
    ordered (delete_root K V l r) /\ entries (delete_root K V l r) = entries l ++ entries r.
  Proof.
    intros (Hl & Hr & Ol & Or). unfold delete_root.
    destruct l as [|hl kl vl ll lr].
    - destruct r; simpl; auto.
    - destruct r as [|h' k' v' rl rr].
      + rewrite app_nil_r; auto.
      + destruct (node_minimum K V h' k' v' rl) as [[mh mk] mv] eqn:E.
        pose proof (unlink_entries rl h' k' v' rr mh mk mv E) as X.
        split.
        * destruct (ordered_min rl h' k' v' rr mh mk mv Or E) as [M1 M2].
          set (L := HNode hl kl vl ll lr) in *.
          assert (h <= mh) by (rewrite X in Hr; inversion Hr; auto).
          change (Forall (fun e => ehash e < mh) (entries L) /\
                  Forall (fun e => mh <= ehash e) (entries (unlink_minimum K V h' k' v' rl rr)) /\
                  ordered L /\ ordered (unlink_minimum K V h' k' v' rl rr)).
          refine (conj _ (conj M1 (conj Ol _))).
          -- eapply Forall_impl; [|exact Hl]; simpl; intros; lia.
          -- apply unlink_ordered; auto.
        * rewrite X. reflexivity.
  Qed.

  Lemma delete_entries t k res t' :
    ordered t -> Forall (fun e => ehash e = hash (ekey e)) (entries t) ->
    node_delete K V eqk (hash k) k t = (res, t') ->
    (res = HtNotFound /\ t' = t /\ ~ In k (map ekey (entries t))) \/
    (res = HtOk /\ ordered t' /\
     exists a b v, entries t = a ++ (hash k, k, v) :: b /\ entries t' = a ++ b).
  Proof.
    revert res t'. induction t as [|h k' v' l IHl r IHr]; intros res t' O Hh; simpl.
    - intros X; inversion X; subst. left; auto.
    - simpl in O, Hh. destruct O as (Hl & Hr & Ol & Or).
      apply Forall_app in Hh as [Hhl Hhr]. inversion Hhr as [|? ? Hn Hhr']; subst.
      unfold ehash, ekey in Hn; simpl in Hn.
      destruct (hash k <? h) eqn:E1.
      + apply Z.ltb_lt in E1.
        destruct (node_delete K V eqk (hash k) k l) as [rs l'] eqn:EI.
        intros X; inversion X; subst res t'; clear X.
        destruct (IHl _ _ Ol Hhl eq_refl) as [(-> & -> & I)|(-> & O' & a & b & v & Ea & Eb)].
        * left. repeat split; auto. rewrite map_app, in_app_iff; simpl.
          intros [X|[X|X]]; auto.
          -- unfold ekey in X; simpl in X; subst k'. lia.
          -- revert X. eapply not_in_larger; eauto.
        * right. repeat split; auto.
          -- simpl. repeat split; auto. rewrite Eb. rewrite Ea in Hl.
             apply Forall_app in Hl as [H1 H2]. inversion H2; subst.
             apply Forall_app; split; auto.
          -- exists a, (b ++ (h, k', v') :: entries r), v. simpl.
             rewrite Ea, Eb, <- !app_assoc. auto.
      + apply Z.ltb_ge in E1. simpl.
        assert (NL : ~ In k (map ekey (entries l))) by (eapply not_in_smaller; eauto).
        destruct (eqk k' k) eqn:E2; simpl.
        * apply eqk_spec in E2; subst k'. intros X; inversion X; subst res t'; clear X.
          destruct (delete_root_spec h k v' l r) as [D1 D2]; [simpl; auto|].
          right. repeat split; auto. exists (entries l), (entries r), v'. subst h. auto.
        * apply eqk_false in E2.
          destruct (node_delete K V eqk (hash k) k r) as [rs r'] eqn:EI.
          intros X; inversion X; subst res t'; clear X.
          destruct (IHr _ _ Or Hhr' eq_refl) as [(-> & -> & I)|(-> & O' & a & b & v & Ea & Eb)].
          -- left. repeat split; auto. rewrite map_app, in_app_iff; simpl.
             intros [X|[X|X]]; auto.
          -- right. repeat split; auto.
             ++ simpl. repeat split; auto. rewrite Eb. rewrite Ea in Hr.
                apply Forall_app in Hr as [H1 H2]. inversion H2; subst.
                apply Forall_app; split; auto.
             ++ exists (entries l ++ (h, k', v') :: a), b, v. simpl.
                rewrite Ea, Eb, <- !app_assoc. auto.
  Qed.

  (** *** Step and history refinement *)
  Definition represents (t : tree) (m : fmap K V) : Prop :=
    good t /\ forall k, abs t k = m k.

  Lemma NoDup_mid {A} (x : A) a b : NoDup (a ++ b) -> ~ In x (a ++ b) -> NoDup (a ++ x :: b).
  Proof.
    intros. apply NoDup_Add with (a := x) (l := a ++ b); auto. apply Add_app.
  Qed.

  Lemma step_refines t m op rep t' :
    represents t m -> ht_step K V hash eqk t op = (rep, t') ->
    fst (spec_step K V eqk m op) = rep /\ represents t' (snd (spec_step K V eqk m op)).
  Proof.
    intros [(O & Hh & ND) HA] HS. destruct op as [k v|k|k]; simpl in HS.
    - unfold ht_insert in HS.
      destruct (node_insert K V eqk (hash k) k v t) as [res t1] eqn:EI.
      inversion HS; subst rep t'; clear HS.
      destruct (insert_entries _ _ _ _ _ O Hh EI) as [(-> & -> & I)|(-> & NI & O' & a & b & Ea & Eb)].
      + unfold spec_step. rewrite <- HA. unfold abs.
        destruct (lookup (entries t) k) eqn:EL.
        * simpl. split; auto. split; auto. repeat split; auto.
        * apply lookup_none in EL. contradiction.
      + unfold spec_step. rewrite <- HA.
        assert (lookup (entries t) k = None) as EL by (apply lookup_none; auto).
        unfold abs at 1 2. rewrite EL; simpl. split; auto. split.
        * repeat split; auto.
          -- rewrite Eb. rewrite Ea in Hh. apply Forall_app in Hh as [H1 H2].
             apply Forall_app; split; auto.
          -- rewrite Eb, map_app; simpl. apply NoDup_mid; rewrite <- map_app, <- Ea; auto.
        * intros k2. unfold fput. rewrite <- HA. unfold abs. rewrite Eb, Ea.
          rewrite !lookup_app. simpl. cbn [ekey eval fst snd].
          destruct (eqk k k2) eqn:E.
          -- apply eqk_spec in E; subst k2. rewrite Ea, lookup_app in EL.
             destruct (lookup a k); [discriminate|]. rewrite eqk_refl; auto.
          -- destruct (eqk k2 k) eqn:E2; [|reflexivity].
             apply eqk_spec in E2; subst. rewrite eqk_refl in E; discriminate.
    - unfold ht_delete in HS.
      destruct (node_delete K V eqk (hash k) k t) as [res t1] eqn:EI.
      inversion HS; subst rep t'; clear HS.
      destruct (delete_entries _ _ _ _ O Hh EI) as [(-> & -> & I)|(-> & O' & a & b & v & Ea & Eb)].
      + unfold spec_step. rewrite <- HA.
        assert (abs t k = None) as -> by (apply lookup_none; auto).
        simpl. split; auto. split; auto. repeat split; auto.
      + unfold spec_step. rewrite <- HA.
        assert (NI : ~ In k (map ekey (a ++ b))).
        { rewrite Ea, map_app in ND. simpl in ND. apply NoDup_remove_2 in ND.
          rewrite map_app; auto. }
        assert (abs t k = Some v) as ->.
        { apply lookup_in; auto. exists (hash k). rewrite Ea, in_app_iff; simpl; auto. }
        simpl. split; auto. split.
        * repeat split; auto.
          -- rewrite Eb. rewrite Ea in Hh. apply Forall_app in Hh as [H1 H2].
             inversion H2; subst. apply Forall_app; split; auto.
          -- rewrite Eb, map_app. rewrite Ea, map_app in ND. simpl in ND.
             apply NoDup_remove_1 in ND; auto.
        * intros k2. unfold fdel. rewrite <- HA. unfold abs. rewrite Eb, Ea.
          destruct (eqk k k2) eqn:E.
          -- apply eqk_spec in E; subst k2. apply lookup_none; auto.
          -- rewrite !lookup_app. simpl. unfold ekey; simpl.
             destruct (eqk k2 k) eqn:E2; [|reflexivity].
             apply eqk_spec in E2; subst. rewrite eqk_refl in E; discriminate.
    - inversion HS; subst rep t'; clear HS. simpl. split.
      + unfold ht_at. rewrite find_abs by auto. rewrite HA; auto.
      + split; auto. repeat split; auto.
  Qed.

  Lemma run_refines ops : forall t m reps t',
    represents t m -> ht_run K V hash eqk t ops = (reps, t') ->
    fst (spec_run K V eqk m ops) = reps /\ represents t' (snd (spec_run K V eqk m ops)).
  Proof.
    induction ops as [|op ops IH]; intros t m reps t' R H; simpl in *.
    - inversion H; subst; auto.
    - destruct (ht_step K V hash eqk t op) as [rp t1] eqn:ES.
      destruct (ht_run K V hash eqk t1 ops) as [rs t2] eqn:ER.
      inversion H; subst.
      destruct (step_refines t m op rp t1 R ES) as [S1 S2].
      destruct (spec_step K V eqk m op) as [rp' m1]; simpl in *.
      destruct (IH t1 m1 rs t' S2 ER) as [I1 I2].
      destruct (spec_run K V eqk m1 ops) as [rs' m2]; simpl in *.
      subst; auto.
  Qed.

  Lemma represents_empty : represents HLeaf (fempty K V).
  Proof. split; [|reflexivity]. repeat split; simpl; constructor. Qed.

  (** *** Iteration *)
  (** The full tree seen from a position, and the entries still to come after a
      subtree hanging in a context. *)
  Fixpoint plug (t : tree) (c : ht_ctx K V) : tree :=
    match c with
    | [] => t
    | (DLeft, (h, k, v), sib) :: c' => plug (HNode h k v t sib) c'
    | (DRight, (h, k, v), sib) :: c' => plug (HNode h k v sib t) c'
    end.

  Fixpoint after (c : ht_ctx K V) : list (Z * K * V) :=
    match c with
    | [] => []
    | (DLeft, e, sib) :: c' => e :: entries sib ++ after c'
    | (DRight, _, _) :: c' => after c'
    end.

  Definition todo (it : ht_iter K V) : list (Z * K * V) :=
    entries (it_r K V it) ++ after (it_ctx K V it).

  Definition it_tree (it : ht_iter K V) : tree :=
    plug (HNode (it_h K V it) (it_k K V it) (it_v K V it) (it_l K V it) (it_r K V it)) (it_ctx K V it).

  Definition it_ok (it : ht_iter K V) : Prop :=
    ordered (it_tree it) /\ it_last K V it = it_h K V it.

  Lemma plug_ordered c : forall t, ordered (plug t c) -> ordered t.
  Proof.
    induction c as [|[[d [[h k] v]] sib] c IH]; intros t H; simpl in *; auto.
    destruct d; apply IH in H; simpl in H; tauto.
  Qed.

  Lemma min_node_spec t : forall c x,
    min_node K V t c = Some x ->
    exists h k v r, x = (h, k, v, HLeaf, r, snd x) /\
      plug (HNode h k v HLeaf r) (snd x) = plug t c /\
      entries t ++ after c = (h, k, v) :: entries r ++ after (snd x).
  Proof.
    induction t as [|h k v l IHl r _]; intros c x H; simpl in H; [discriminate|].
    destruct (min_node K V l ((DLeft, (h, k, v), r) :: c)) as [y|] eqn:E.
    - inversion H; subst y; clear H.
      destruct (IHl _ _ E) as (h' & k' & v' & r' & X1 & X2 & X3).
      exists h', k', v', r'. repeat split; auto.
      rewrite <- X3. simpl. rewrite <- app_assoc. reflexivity.
    - inversion H; subst x; clear H. simpl.
      destruct l as [|hl kl vl ll lr].
      + exists h, k, v, r. auto.
      + exfalso. simpl in E.
        destruct (min_node K V ll _); discriminate.
  Qed.

  Lemma min_node_some h k v l r c : exists x, min_node K V (HNode h k v l r) c = Some x.
  Proof. simpl. destruct (min_node K V l _); eauto. Qed.

  (** Climbing from a finished subtree stops exactly at the nearest ancestor of
      which we are in the left subtree. *)
  Lemma climb_spec c : forall here last,
    ordered (plug here c) -> (exists k v, In (last, k, v) (entries here)) ->
    match climb K V here c last with
    | None => after c = []
    | Some i => after c = (it_h K V i, it_k K V i, it_v K V i) :: todo i /\
                it_tree i = plug here c /\ it_last K V i = it_h K V i
    end.
  Proof.
    induction c as [|[[d [[h k] v]] sib] c IH]; intros here last O (lk & lv & I); simpl; auto.
    destruct d; simpl in O.
    - pose proof (plug_ordered c _ O) as Oh. simpl in Oh. destruct Oh as (Hl & _).
      rewrite Forall_forall in Hl. specialize (Hl _ I). unfold ehash in Hl; simpl in Hl.
      apply Z.ltb_lt in Hl. rewrite Hl. simpl. unfold todo, it_tree; simpl. auto.
    - pose proof (plug_ordered c _ O) as Oh. simpl in Oh. destruct Oh as (_ & Hr & _).
      rewrite Forall_forall in Hr. specialize (Hr _ I). unfold ehash in Hr; simpl in Hr.
      assert (last <? h = false) as -> by (apply Z.ltb_ge; auto).
      apply IH; auto. exists lk, lv. simpl. rewrite in_app_iff; simpl; auto.
  Qed.

  Lemma next_spec it :
    it_ok it ->
    match ht_next K V it with
    | None => todo it = []
    | Some i => todo it = (it_h K V i, it_k K V i, it_v K V i) :: todo i /\
                it_tree i = it_tree it /\ it_ok i
    end.
  Proof.
    intros [O L]. unfold ht_next.
    destruct it as [h k v l r c last]; simpl in *. subst last.
    unfold todo, it_tree in *; simpl in *.
    destruct r as [|rh rk rv rl rr].
    - simpl. pose proof (climb_spec c (HNode h k v l HLeaf) h O) as C.
      destruct (climb K V (HNode h k v l HLeaf) c h) as [i|].
      + destruct C as (C1 & C2 & C3).
        { exists k, v. simpl. rewrite in_app_iff; simpl; auto. }
        repeat split; auto. rewrite C2; auto.
      + apply C. exists k, v. simpl. rewrite in_app_iff; simpl; auto.
    - destruct (min_node_some rh rk rv rl rr ((DRight, (h, k, v), l) :: c)) as [x E].
      rewrite E. unfold option_map.
      destruct (min_node_spec _ _ _ E) as (h' & k' & v' & r' & X1 & X2 & X3).
      destruct x as [[[[[a1 a2] a3] a4] a5] a6]; simpl in X1; inversion X1; subst.
      simpl snd in *. unfold iter_of; simpl it_h; simpl it_k; simpl it_v.
      unfold it_tree, todo, it_ok; simpl it_r; simpl it_ctx; simpl it_l.
      split; [|split].
      + exact X3.
      + exact X2.
      + split; [|reflexivity]. unfold it_tree; simpl. rewrite X2. exact O.
  Qed.

  Lemma walk_spec n : forall it,
    it_ok it -> (length (todo it) < n)%nat ->
    walk K V n (Some it) =
      Some ((it_k K V it, it_v K V it) :: map (fun e => (ekey e, eval e)) (todo it)).
  Proof.
    induction n as [|n IH]; intros it OK Hn; [lia|].
    simpl. pose proof (next_spec it OK) as N.
    destruct (ht_next K V it) as [i|].
    - destruct N as (N1 & N2 & N3). rewrite N1 in *. simpl in Hn.
      rewrite IH by (auto; lia). reflexivity.
    - rewrite N. destruct n; reflexivity.
  Qed.

  Lemma size_entries t : ht_size K V t = length (entries t).
  Proof.
    induction t; simpl; auto. rewrite app_length. simpl. lia.
  Qed.

  Lemma walk_inorder t :
    ordered t -> ht_walk K V t = Some (map (fun e => (ekey e, eval e)) (entries t)).
  Proof.
    intros O. unfold ht_walk, ht_first.
    destruct t as [|h k v l r].
    - reflexivity.
    - destruct (min_node_some h k v l r []) as [x E]. rewrite E. unfold option_map.
      destruct (min_node_spec _ _ _ E) as (h' & k' & v' & r' & X1 & X2 & X3).
      destruct x as [[[[[a1 a2] a3] a4] a5] a6]; simpl in X1; inversion X1; subst.
      rewrite app_nil_r in X3. simpl snd in *.
      rewrite size_entries. rewrite X3.
      rewrite walk_spec.
      + reflexivity.
      + unfold it_ok, it_tree; simpl. rewrite X2. auto.
      + unfold todo; simpl. lia.
  Qed.

  Lemma ordered_sorted t : ordered t -> StronglySorted Z.le (map ehash (entries t)).
  Proof.
    induction t as [|h k v l IHl r IHr]; simpl; [constructor|].
    intros (Hl & Hr & Ol & Or). rewrite map_app. simpl. cbn [ehash fst snd].
    specialize (IHl Ol). specialize (IHr Or).
    assert (Forall (fun x => x < h) (map ehash (entries l))) as Fl.
    { rewrite Forall_forall in *. intros x Hx. apply in_map_iff in Hx as [e [<- He]]; auto. }
    assert (Forall (fun x => h <= x) (map ehash (entries r))) as Fr.
    { rewrite Forall_forall in *. intros x Hx. apply in_map_iff in Hx as [e [<- He]]; auto. }
    induction (map ehash (entries l)) as [|x xs IH]; simpl.
    - constructor; auto.
    - inversion Fl; subst. inversion IHl; subst. constructor.
      + apply IH; auto.
      + apply Forall_app; split; auto. constructor; [lia|].
        eapply Forall_impl; [|exact Fr]; simpl; intros; lia.
  Qed.
End Proofs.
