(** Linked entries hold the items of a list. *)

From Coq Require Import ZArith Lia Bool List.
From Verif Require Import ListModel ListSpec.
Import ListNotations.
Open Scope Z_scope.
Local Notation length := List.length.

(** ** Segments of entries *)
Definition first_or (l : items) (n : Z) : Z := match l with [] => n | y :: _ => fst y end.
Definition last_or (l : items) (p : Z) : Z := fst (last l (p, 0)).
Fixpoint seg (h : heap) (p : Z) (l : items) (n : Z) : Prop :=
  match l with
  | [] => True
  | (a, v) :: r => a <> 0 /\ h a = Some {| e_value := v; e_prev := p; e_next := first_or r n |} /\ seg h a r n
  end.
Lemma last_or_cons : forall a v l p, last_or ((a, v) :: l) p = last_or l a.
Proof.
  intros a v l p. unfold last_or. destruct l as [|y l]; [reflexivity|]. change (last ((a, v) :: y :: l) (p, 0)) with (last (y :: l) (p, 0)).
  revert y. induction l as [|z l IH]; intros y; [reflexivity|]. change (last (y :: z :: l) (p, 0)) with (last (z :: l) (p, 0)).
  change (last (y :: z :: l) (a, 0)) with (last (z :: l) (a, 0)). apply IH.
Qed.
Lemma last_or_snoc : forall l a v p, last_or (l ++ [(a, v)]) p = a.
Proof. intros l a v p. unfold last_or. rewrite last_last. reflexivity. Qed.
Lemma seg_app : forall h n l2 l1 p, seg h p (l1 ++ l2) n <-> seg h p l1 (first_or l2 n) /\ seg h (last_or l1 p) l2 n.
Proof.
  intros h n l2. induction l1 as [|[a v] l1 IH]; intros p.
  - cbn. tauto.
  - rewrite last_or_cons. cbn [app seg]. rewrite IH.
    assert (F : first_or (l1 ++ l2) n = first_or l1 (first_or l2 n)) by (destruct l1; reflexivity). rewrite F. tauto.
Qed.
Lemma seg_out : forall h h' n l p, (forall b, In b (map fst l) -> h' b = h b) -> seg h p l n -> seg h' p l n.
Proof.
  intros h h' n. induction l as [|[a v] l IH]; intros p H S; [exact I|]. destruct S as (A & B & C). split; [exact A|].
  split; [rewrite H by (left; reflexivity); exact B|]. apply IH; [intros b K; apply H; right; exact K | exact C].
Qed.
Lemma seg_in : forall h n l p b, seg h p l n -> In b (map fst l) -> b <> 0 /\ h b <> None.
Proof.
  intros h n. induction l as [|[a v] l IH]; intros p b S K; [contradiction|]. destruct S as (A & B & C). destruct K as [<-|K].
  - cbn [fst]. split; [exact A | rewrite B; discriminate].
  - exact (IH a b C K).
Qed.
(** The list and the entries behind it hold the items *)
Record holds (h : heap) (l : lst) (xs : items) : Prop := {
  h_seg : seg h 0 xs 0;
  h_head : l_head l = first_or xs 0;
  h_tail : l_tail l = last_or xs 0;
  h_length : l_length l = Z.of_nat (length xs);
  h_distinct : NoDup (map fst xs) }.
Lemma last_zero : forall h xs, seg h 0 xs 0 -> (last_or xs 0 =? 0) = match xs with [] => true | _ => false end.
Proof.
  intros h xs S. destruct xs as [|x xs]; [reflexivity|]. destruct (@exists_last _ (x :: xs) ltac:(discriminate)) as (ys & [a v] & E).
  rewrite E in S |- *. rewrite last_or_snoc. apply seg_app in S. destruct S as [_ [S _]]. apply Z.eqb_neq. exact S.
Qed.
Lemma first_zero : forall h p n xs, seg h p xs n -> (first_or xs 0 =? 0) = match xs with [] => true | _ => false end.
Proof. intros h p n [|[a v] xs] S; [reflexivity|]. destruct S as (A & _). apply Z.eqb_neq. exact A. Qed.

Lemma get_some : forall h a e, a <> 0 -> h a = Some e -> get h a = Some e.
Proof. intros h a e N E. unfold get. rewrite (proj2 (Z.eqb_neq a 0) N). exact E. Qed.
Lemma put_same : forall h a e, put h a e a = Some e.
Proof. intros h a e. unfold put. rewrite Z.eqb_refl. reflexivity. Qed.
Lemma put_other : forall h a e b, b <> a -> put h a e b = h b.
Proof. intros h a e b N. unfold put. rewrite (proj2 (Z.eqb_neq b a) N). reflexivity. Qed.
Lemma set_next_eq : forall a n h v p m, a <> 0 -> h a = Some {| e_value := v; e_prev := p; e_next := m |} ->
  set_next a n h = Some (put h a {| e_value := v; e_prev := p; e_next := n |}).
Proof. intros a n h v p m N E. unfold set_next. rewrite (get_some h a _ N E). reflexivity. Qed.
Lemma set_prev_eq : forall a q h v p m, a <> 0 -> h a = Some {| e_value := v; e_prev := p; e_next := m |} ->
  set_prev a q h = Some (put h a {| e_value := v; e_prev := q; e_next := m |}).
Proof. intros a q h v p m N E. unfold set_prev. rewrite (get_some h a _ N E). reflexivity. Qed.
Definition del (h : heap) (a : Z) : heap := fun x => if x =? a then None else h x.
Lemma del_same : forall h a, del h a a = None.
Proof. intros h a. unfold del. rewrite Z.eqb_refl. reflexivity. Qed.
Lemma del_other : forall h a b, b <> a -> del h a b = h b.
Proof. intros h a b N. unfold del. rewrite (proj2 (Z.eqb_neq b a) N). reflexivity. Qed.
Lemma free_eq : forall a h, a <> 0 -> h a <> None -> free_entry a h = Some (del h a).
Proof. intros a h N E. unfold free_entry. rewrite (proj2 (Z.eqb_neq a 0) N). destruct (h a); [reflexivity | contradiction]. Qed.
Ltac look := repeat first [rewrite put_same | rewrite put_other by congruence | rewrite del_same | rewrite del_other by congruence].

(** Distinct positions of a divided list *)
Lemma split_distinct : forall (ys : items) a v zs, NoDup (map fst (ys ++ (a, v) :: zs)) ->
  ~ In a (map fst ys) /\ ~ In a (map fst zs) /\ NoDup (map fst ys) /\ NoDup (map fst zs) /\ (forall b, In b (map fst ys) -> ~ In b (map fst zs)).
Proof.
  intros ys a v zs H. rewrite map_app in H. cbn [map fst] in H. assert (R := NoDup_remove_2 _ _ _ H). assert (Q := NoDup_remove_1 _ _ _ H).
  rewrite in_app_iff in R. split; [tauto|]. split; [tauto|]. clear R H.
  revert Q. generalize (map fst zs). generalize (map fst ys). intros l m. induction l as [|x l IH]; intros Q.
  - split; [constructor|]. split; [exact Q | intros b []].
  - cbn [app] in Q. inversion Q as [|? ? A B]; subst. destruct (IH B) as (C & D & E). rewrite in_app_iff in A. split; [constructor; tauto|].
    split; [exact D|]. intros b [<-|K]; [tauto | apply E; exact K].
Qed.
Lemma in_split : forall p (l : items), In p (map fst l) -> exists ys v zs, l = ys ++ (p, v) :: zs.
Proof.
  intros p. induction l as [|[a v] l IH]; intros H; [contradiction|]. destruct H as [<-|H]; [exists [], v, l; reflexivity|].
  destruct (IH H) as (ys & w & zs & ->). exists ((a, v) :: ys), w, zs. reflexivity.
Qed.

(** ** Inserting *)

(** The new entry between [ys] and [zs], after the last of [ys] *)
Lemma insert_holds : forall a v h l ys zs, a <> 0 -> h a = None -> holds h l (ys ++ zs) ->
  exists l' h', list_insert_after a l (last_or ys 0) v h = Some (true, l', h') /\ holds h' l' (ys ++ (a, v) :: zs) /\
    l_callback l' = l_callback l /\ (forall b, b <> a -> ~ In b (map fst (ys ++ zs)) -> h' b = h b).
Proof.
  intros a v h l ys zs N F [S HD TL LN D].
  assert (NI : ~ In a (map fst (ys ++ zs))) by (intros K; destruct (seg_in _ _ _ _ _ S K); contradiction).
  assert (NI1 : ~ In a (map fst ys)) by (intros K; apply NI; rewrite map_app; apply in_or_app; auto).
  assert (NI2 : ~ In a (map fst zs)) by (intros K; apply NI; rewrite map_app; apply in_or_app; auto).
  assert (ND : NoDup (map fst (ys ++ (a, v) :: zs))).
  { rewrite map_app. cbn [map fst]. apply NoDup_Add with (a := a) (l := map fst ys ++ map fst zs); [apply Add_app|]. rewrite <- map_app. auto. }
  assert (LEN : l_length l + 1 = Z.of_nat (length (ys ++ (a, v) :: zs))) by (rewrite LN, !app_length; cbn [length]; lia).
  unfold list_insert_after. rewrite (proj2 (Z.eqb_neq a 0) N). cbv zeta.
  destruct ys as [|y0 ys0] eqn:EY.
  - cbn [app last_or last fst map] in *. rewrite Z.eqb_refl. rewrite HD.
    rewrite (set_next_eq a _ _ v 0 0) by (exact N || apply put_same). cbn [bind]. rewrite (first_zero _ _ _ _ S).
    destruct zs as [|[b w] zs].
    + cbn [first_or bind with_head l_tail]. rewrite TL. cbn [last_or last fst Z.eqb]. eexists. eexists. split; [reflexivity|].
      split; [|split; [reflexivity|]].
      * constructor; cbn; try reflexivity; [| exact LEN | repeat constructor; auto]. repeat split; [exact N | look; reflexivity].
      * intros b B _. look. reflexivity.
    + cbn [first_or fst] in *. destruct S as (B0 & SB & S'). assert (AB : b <> a) by (intros ->; apply NI; left; reflexivity).
      rewrite (set_prev_eq b a _ w 0 (first_or zs 0)) by (exact B0 || (look; exact SB)). cbn [bind with_head l_tail]. rewrite TL.
      assert (TZ : (last_or ((b, w) :: zs) 0 =? 0) = false).
      { apply (last_zero h). cbn [seg]. auto. }
      rewrite TZ. eexists. eexists. split; [reflexivity|]. split; [|split; [reflexivity|]].
      * constructor; cbn [with_length with_head l_head l_tail l_length]; [| reflexivity | rewrite TL, !last_or_cons; reflexivity | exact LEN | exact ND].
        cbn [seg first_or fst]. split; [exact N|]. split; [look; reflexivity|]. split; [exact B0|]. split; [look; reflexivity|].
        apply (seg_out h); [|exact S']. intros c K. destruct (proj1 (NoDup_cons_iff _ _) D) as [DN1 DN2]. assert (c <> b) by (intros ->; contradiction).
        assert (c <> a) by (intros ->; apply NI; right; exact K). look. reflexivity.
      * intros c C K. assert (c <> b) by (intros ->; apply K; left; reflexivity). look. reflexivity.
  - rewrite <- EY in *. assert (NE : ys <> []) by (rewrite EY; discriminate). clear EY y0 ys0.
    destruct (@exists_last _ ys NE) as (ys' & [q u] & ->). clear NE. rewrite last_or_snoc.
    assert (S0 := S). rewrite <- app_assoc in S0. apply seg_app in S0. destruct S0 as (SY & Q0 & SQ & SZ). cbn [app first_or fst] in SY. change ([] ++ zs) with zs in SQ, SZ.
    assert (AQ : q <> a) by (intros ->; apply NI1; rewrite map_app; apply in_or_app; right; left; reflexivity).
    assert (D' := D). rewrite <- app_assoc in D'. cbn [app] in D'. destruct (split_distinct _ _ _ _ D') as (QY & QZ & DY & DZ & DYZ).
    rewrite (proj2 (Z.eqb_neq q 0) Q0).
    rewrite (set_prev_eq a _ _ v 0 0) by (exact N || apply put_same). cbn [bind].
    rewrite (get_some _ q {| e_value := u; e_prev := last_or ys' 0; e_next := first_or zs 0 |}) by (exact Q0 || (look; exact SQ)). cbn [bind e_next].
    rewrite (set_next_eq a _ _ v q 0) by (exact N || (look; reflexivity)). cbn [bind].
    rewrite (set_next_eq q _ _ u (last_or ys' 0) (first_or zs 0)) by (exact Q0 || (look; exact SQ)). cbn [bind].
    rewrite (first_zero _ _ _ _ SZ). rewrite TL. destruct zs as [|[b w] zs].
    + rewrite app_nil_r, last_or_snoc, Z.eqb_refl. cbn [bind first_or]. eexists. eexists. split; [reflexivity|]. split; [|split; [reflexivity|]].
      * constructor; cbn [with_length with_tail l_head l_tail l_length]; [| rewrite HD, app_nil_r; destruct ys'; reflexivity | rewrite last_or_snoc; reflexivity | exact LEN | exact ND].
        rewrite <- app_assoc. apply seg_app. split; [apply (seg_out h); [|exact SY]|].
        { intros c K. assert (c <> q) by (intros ->; contradiction). assert (c <> a) by (intros ->; apply NI1; rewrite map_app; apply in_or_app; auto). look. reflexivity. }
        cbn [app seg first_or fst]. split; [exact Q0|]. split; [look; reflexivity|]. split; [exact N|]. split; [look; reflexivity | exact I].
      * intros c C K. assert (c <> q) by (intros ->; apply K; rewrite ?app_nil_r, map_app; apply in_or_app; right; left; reflexivity). look. reflexivity.
    + cbn [first_or fst] in *. destruct SZ as (B0 & SB & SZ). assert (AB : b <> a) by (intros ->; apply NI2; left; reflexivity).
      assert (QB : b <> q) by (intros ->; apply QZ; left; reflexivity).
      rewrite (set_prev_eq b a _ w q (first_or zs 0)) by (exact B0 || (look; exact SB)). cbn [bind].
      assert (TQ : (q =? last_or ((ys' ++ [(q, u)]) ++ (b, w) :: zs) 0) = false).
      { apply Z.eqb_neq. intros E. apply QZ. rewrite E. unfold last_or.
        assert (X : forall (l1 : items) x l2, In (fst (last (l1 ++ x :: l2) (0, 0))) (map fst (x :: l2))).
        { intros l1 x l2. destruct (@exists_last _ (x :: l2) ltac:(discriminate)) as (m & y & M). rewrite M, app_assoc, last_last, map_app.
          apply in_or_app. right. left. reflexivity. }
        apply X. }
      rewrite TQ. eexists. eexists. split; [reflexivity|]. split; [|split; [reflexivity|]].
      * constructor; cbn [with_length l_head l_tail l_length]; [| rewrite HD; destruct ys'; reflexivity | | exact LEN | exact ND].
        -- rewrite <- app_assoc. apply seg_app. split; [apply (seg_out h); [|exact SY]|].
           { intros c K. assert (c <> q) by (intros ->; contradiction). assert (c <> a) by (intros ->; apply NI1; rewrite map_app; apply in_or_app; auto).
             assert (c <> b) by (intros ->; apply (DYZ b K); left; reflexivity). look. reflexivity. }
           cbn [app seg first_or fst]. split; [exact Q0|]. split; [look; reflexivity|]. split; [exact N|]. split; [look; reflexivity|].
           split; [exact B0|]. split; [look; reflexivity|]. apply (seg_out h); [|exact SZ]. intros c K. destruct (proj1 (NoDup_cons_iff _ _) DZ) as [DN1 DN2].
           assert (c <> b) by (intros ->; contradiction). assert (c <> q) by (intros ->; apply QZ; right; exact K).
           assert (c <> a) by (intros ->; apply NI2; right; exact K). look. reflexivity.
        -- rewrite TL. unfold last_or. f_equal.
           assert (X : forall (l1 : items) x l2 y, last (l1 ++ x :: l2) (0, 0) = last (l1 ++ y :: x :: l2) (0, 0)).
           { intros l1 x l2 y. destruct (@exists_last _ (x :: l2) ltac:(discriminate)) as (m & z & M). rewrite M, app_assoc, last_last.
             change (y :: m ++ [z]) with ((y :: m) ++ [z]). rewrite app_assoc, last_last. reflexivity. }
           apply X.
      * intros c C K. rewrite map_app, in_app_iff in K. assert (c <> q) by (intros ->; apply K; left; rewrite map_app; apply in_or_app; right; left; reflexivity).
        assert (c <> b) by (intros ->; apply K; right; left; reflexivity). look. reflexivity.
Qed.

(** ** Removing *)
Lemma last_or_in : forall ys x zs p, In (last_or (ys ++ x :: zs) p) (map fst (x :: zs)).
Proof.
  intros ys x zs p. destruct (@exists_last _ (x :: zs) ltac:(discriminate)) as (m & [y w] & M). rewrite M, app_assoc, last_or_snoc, map_app.
  apply in_or_app. right. left. reflexivity.
Qed.
Lemma last_or_tail : forall ys x zs p q, last_or (ys ++ x :: zs) p = last_or (x :: zs) q.
Proof.
  intros ys x zs p q. destruct (@exists_last _ (x :: zs) ltac:(discriminate)) as (m & [y w] & M). rewrite M, app_assoc, !last_or_snoc. reflexivity.
Qed.
Lemma pop_holds : forall h l ys p v zs, holds h l (ys ++ (p, v) :: zs) -> agrees (l_callback l) v = true ->
  exists l' h', list_pop l p h = Some (true, l', h', notes (l_callback l) v) /\ holds h' l' (ys ++ zs) /\ l_callback l' = l_callback l /\
    h' p = None /\ (forall b, ~ In b (map fst (ys ++ (p, v) :: zs)) -> h' b = h b).
Proof.
  intros h l ys p v zs [S HD TL LN D] A. assert (S0 := S). apply seg_app in S0. destruct S0 as (SY & P0 & SP & SZ). cbn [first_or fst] in SY.
  destruct (split_distinct _ _ _ _ D) as (PY & PZ & DY & DZ & DYZ).
  assert (LEN : l_length l - 1 = Z.of_nat (length (ys ++ zs))) by (rewrite LN, !app_length; cbn [length]; lia).
  assert (ND : NoDup (map fst (ys ++ zs))) by (rewrite map_app in *; exact (NoDup_remove_1 _ _ _ D)).
  assert (CB : call_back l p h = Some (true, notes (l_callback l) v)).
  { unfold call_back, notes. unfold agrees in A. destruct (l_callback l) as [f|]; [|reflexivity]. rewrite (get_some h p _ P0 SP). cbn [bind e_value]. rewrite A. reflexivity. }
  unfold list_pop. rewrite CB. cbn [bind]. rewrite (get_some h p _ P0 SP). cbn [bind e_next e_prev].
  rewrite HD. rewrite (first_zero _ _ _ _ SZ).
  (* the next entry *)
  set (h1 := match zs with [] => h | (b, w) :: zs => put h b {| e_value := w; e_prev := last_or ys 0; e_next := first_or zs 0 |} end).
  assert (E1 : (if match zs with [] => true | _ => false end then Some h else set_prev (first_or zs 0) (last_or ys 0) h) = Some h1).
  { subst h1. destruct zs as [|[b w] zs]; [reflexivity|]. destruct SZ as (B0 & SB & _). exact (set_prev_eq b _ h w p _ B0 SB). }
  rewrite E1. cbn [bind].
  assert (H1 : forall c, ~ In c (map fst zs) -> h1 c = h c).
  { intros c K. subst h1. destruct zs as [|[b w] zs]; [reflexivity|]. apply put_other. intros ->. apply K. left. reflexivity. }
  rewrite (get_some h1 p {| e_value := v; e_prev := last_or ys 0; e_next := first_or zs 0 |}) by (exact P0 || (rewrite H1 by exact PZ; exact SP)).
  cbn [bind e_prev e_next].
  (* the entry before *)
  assert (SY0 : (last_or ys 0 =? 0) = match ys with [] => true | _ => false end).
  { destruct ys as [|y ys]; [reflexivity|]. destruct (@exists_last _ (y :: ys) ltac:(discriminate)) as (m & [q u] & M). rewrite M, last_or_snoc in *.
    apply seg_app in SY. destruct SY as [_ [Q _]]. apply Z.eqb_neq. exact Q. }
  rewrite SY0.
  assert (E2 : exists h2, (if match ys with [] => true | _ => false end then Some h1 else set_next (last_or ys 0) (first_or zs 0) h1) = Some h2 /\
    seg h2 0 ys (first_or zs 0) /\ (forall c, ~ In c (map fst ys) -> h2 c = h1 c)).
  { destruct ys as [|y ys]; [exists h1; split; [reflexivity | split; [exact I | reflexivity]]|].
    destruct (@exists_last _ (y :: ys) ltac:(discriminate)) as (m & [q u] & M). rewrite M in *. rewrite last_or_snoc in *.
    assert (SM := SY). apply seg_app in SM. destruct SM as (SM & Q0 & SQ & _). cbn [first_or fst] in SM, SQ.
    assert (QZ : ~ In q (map fst zs)) by (apply DYZ; rewrite map_app; apply in_or_app; right; left; reflexivity).
    assert (QM : ~ In q (map fst m)) by (rewrite map_app in DY; cbn [map fst] in DY; assert (X := NoDup_remove_2 _ _ _ DY); rewrite app_nil_r in X; exact X).
    rewrite (set_next_eq q _ h1 u (last_or m 0) p) by (exact Q0 || (rewrite H1 by exact QZ; exact SQ)). eexists. split; [reflexivity|]. split.
    - apply seg_app. split.
      + apply (seg_out h); [|exact SM]. intros c K. rewrite put_other by (intros ->; contradiction). apply H1. apply DYZ. rewrite map_app. apply in_or_app. auto.
      + cbn [seg first_or]. split; [exact Q0|]. split; [apply put_same | exact I].
    - intros c K. apply put_other. intros ->. apply K. rewrite map_app. apply in_or_app. right. left. reflexivity. }
  destruct E2 as (h2 & -> & SY2 & H2). cbn [bind].
  rewrite free_eq; [|exact P0 | rewrite H2 by exact PY; rewrite H1 by exact PZ; rewrite SP; discriminate]. cbn [bind].
  eexists. eexists. split; [reflexivity|]. split; [|split; [|split; [apply del_same|]]].
  - constructor.
    + apply seg_app. split; [apply (seg_out h2); [|exact SY2]; intros c K; apply del_other; intros ->; contradiction|].
      destruct zs as [|[b w] zs]; [exact I|]. destruct SZ as (B0 & SB & SZ). assert (BY : ~ In b (map fst ys)) by (intros K; apply (DYZ b K); left; reflexivity).
      cbn [seg]. split; [exact B0|]. split.
      * rewrite del_other by (intros ->; apply PZ; left; reflexivity). rewrite H2 by exact BY. subst h1. apply put_same.
      * apply (seg_out h); [|exact SZ]. intros c K. rewrite del_other by (intros ->; apply PZ; right; exact K).
        rewrite H2 by (intros X; apply (DYZ c X); right; exact K). subst h1. apply put_other. destruct (proj1 (NoDup_cons_iff _ _) DZ) as [DN1 DN2]. intros ->. contradiction.
    + destruct ys as [|[y u] ys]; cbn [app first_or fst].
      * rewrite Z.eqb_refl. destruct (p =? l_tail (with_head l (first_or zs 0))); reflexivity.
      * rewrite (proj2 (Z.eqb_neq p y)) by (intros ->; apply PY; left; reflexivity).
        destruct (p =? l_tail l); cbn [with_length with_tail l_head]; exact HD.
    + assert (X : forall l0 : lst, l_tail l0 = l_tail l -> l_tail (with_length (if p =? l_tail l0 then with_tail l0 (last_or ys 0) else l0)
        (l_length (if p =? l_tail l0 then with_tail l0 (last_or ys 0) else l0) - 1)) = last_or (ys ++ zs) 0).
      { intros l0 E. cbn [with_length l_tail]. rewrite E, TL. destruct zs as [|z zs].
        - rewrite last_or_snoc, Z.eqb_refl, app_nil_r. reflexivity.
        - rewrite (proj2 (Z.eqb_neq _ _)).
          + rewrite E, TL. rewrite (last_or_tail ys z zs 0 0). change ((p, v) :: z :: zs) with ([(p, v)] ++ z :: zs).
            rewrite app_assoc. apply last_or_tail.
          + intros Q. apply PZ. rewrite Q. change ((p, v) :: z :: zs) with ([(p, v)] ++ z :: zs). rewrite app_assoc. apply last_or_in. }
      destruct (p =? first_or (ys ++ (p, v) :: zs) 0); apply X; reflexivity.
    + cbn [with_length l_length]. rewrite <- LEN. destruct (p =? first_or (ys ++ (p, v) :: zs) 0); cbn [with_head l_tail]; destruct (p =? l_tail l); reflexivity.
    + exact ND.
  - destruct (p =? first_or (ys ++ (p, v) :: zs) 0); cbn [with_head l_tail]; destruct (p =? l_tail l); reflexivity.
  - intros c K. rewrite map_app, in_app_iff in K. cbn [map fst] in K. rewrite del_other by (intros ->; apply K; right; left; reflexivity).
    rewrite H2 by tauto. apply H1. intros X. apply K. right. right. exact X.
Qed.
Lemma pop_refused : forall h l ys p v zs, holds h l (ys ++ (p, v) :: zs) -> agrees (l_callback l) v = false ->
  list_pop l p h = Some (false, l, h, notes (l_callback l) v).
Proof.
  intros h l ys p v zs [S HD TL LN D] A. apply seg_app in S. destruct S as (SY & P0 & SP & SZ).
  unfold list_pop, call_back, notes. unfold agrees in A. destruct (l_callback l) as [f|]; [|discriminate A].
  rewrite (get_some h p _ P0 SP). cbn [bind e_value]. rewrite A. reflexivity.
Qed.

(** ** Clearing and freeing *)
Lemma clear_holds : forall xs h l, holds h l xs ->
  exists l' h', (forall fuel, (length xs < fuel)%nat -> list_clear fuel l h = Some (fst (fst (cleared (l_callback l) xs)), l', h', snd (cleared (l_callback l) xs))) /\
    holds h' l' (snd (fst (cleared (l_callback l) xs))) /\ l_callback l' = l_callback l /\
    (exists ys, xs = ys ++ snd (fst (cleared (l_callback l) xs)) /\ forall b, In b (map fst ys) -> h' b = None) /\
    (forall b, ~ In b (map fst xs) -> h' b = h b).
Proof.
  induction xs as [|[a v] xs IH]; intros h l H.
  - exists l, h. split; [|split; [exact H | split; [reflexivity | split; [exists []; split; [reflexivity | intros b []] | reflexivity]]]].
    intros [|fuel] F; [cbn in F; lia|]. cbn [list_clear cleared fst snd]. rewrite (h_head _ _ _ H). reflexivity.
  - destruct H as [(A0 & SA & S) HD TL LN D]. cbn [cleared snd]. destruct (agrees (l_callback l) v) eqn:G.
    + assert (CB : call_back l a h = Some (true, notes (l_callback l) v)).
      { unfold call_back, notes. unfold agrees in G. destruct (l_callback l) as [f|]; [|reflexivity]. rewrite (get_some h a _ A0 SA). cbn [bind e_value]. rewrite G. reflexivity. }
      destruct (proj1 (NoDup_cons_iff _ _) D) as [DA DX]. cbn [fst] in DA.
      set (h1 := match xs with [] => h | (b, w) :: xs => put h b {| e_value := w; e_prev := 0; e_next := first_or xs 0 |} end).
      assert (E1 : (if first_or xs 0 =? 0 then Some h else set_prev (first_or xs 0) 0 h) = Some h1).
      { rewrite (first_zero _ _ _ _ S). subst h1. destruct xs as [|[b w] xs]; [reflexivity|]. destruct S as (B0 & SB & _). exact (set_prev_eq b _ h w a _ B0 SB). }
      assert (H1 : forall c, ~ In c (map fst xs) -> h1 c = h c).
      { intros c K. subst h1. destruct xs as [|[b w] xs]; [reflexivity|]. apply put_other. intros ->. apply K. left. reflexivity. }
      set (l1 := with_head l (first_or xs 0)). set (l2 := if l_tail l1 =? a then with_tail l1 0 else l1). set (l3 := with_length l2 (l_length l2 - 1)).
      assert (H3 : holds (del h1 a) l3 xs).
      { constructor.
        - destruct xs as [|[b w] xs]; [exact I|]. destruct S as (B0 & SB & S). cbn [seg]. split; [exact B0|].
          assert (b <> a) by (intros ->; apply DA; left; reflexivity). split; [rewrite del_other by assumption; subst h1; apply put_same|].
          apply (seg_out h); [|exact S]. intros c K. rewrite del_other by (intros ->; apply DA; right; exact K). subst h1. apply put_other.
          destruct (proj1 (NoDup_cons_iff _ _) DX) as [DN1 DN2]. intros ->. contradiction.
        - subst l3 l2 l1. cbn [with_length l_head]. destruct (l_tail (with_head l (first_or xs 0)) =? a); reflexivity.
        - subst l3 l2 l1. cbn [with_length with_head l_tail]. rewrite TL. destruct xs as [|x xs].
          + rewrite last_or_cons. change (last_or [] a) with a. rewrite Z.eqb_refl. reflexivity.
          + rewrite (proj2 (Z.eqb_neq _ _)); [cbn [with_head l_tail]; rewrite TL; exact (last_or_tail [(a, v)] x xs 0 0)|].
            intros Q. apply DA. rewrite <- Q. exact (last_or_in [(a, v)] x xs 0).
        - subst l3 l2 l1. cbn [with_length l_length]. destruct (l_tail (with_head l (first_or xs 0)) =? a); cbn [with_tail with_head l_length]; rewrite LN; cbn [length]; lia.
        - exact DX. }
      assert (C3 : l_callback l3 = l_callback l) by (subst l3 l2 l1; cbn; destruct (l_tail l =? a); reflexivity).
      destruct (IH (del h1 a) l3 H3) as (l' & h' & P & Q & R & (ys & Y1 & Y2) & T). rewrite C3 in *.
      destruct (cleared (l_callback l) xs) as [[ok r] c] eqn:CL. cbn [fst snd] in *. exists l', h'. split; [|split; [exact Q | split; [exact R | split]]].
      * intros [|fuel] F; [lia|]. cbn [list_clear length] in *. rewrite HD. cbn [first_or fst]. rewrite (proj2 (Z.eqb_neq a 0) A0), CB. cbn [bind].
        rewrite (get_some h a _ A0 SA). cbn [bind e_next with_head l_head]. rewrite E1. cbn [bind]. fold l1. fold l2. fold l3.
        rewrite free_eq by (exact A0 || (rewrite H1 by exact DA; rewrite SA; discriminate)). cbn [bind]. rewrite P by lia. reflexivity.
      * exists ((a, v) :: ys). split; [cbn [app]; rewrite <- Y1; reflexivity|]. intros b [<-|K]; [|apply Y2; exact K]. cbn [fst].
        rewrite T by exact DA. apply del_same.
      * intros b K. cbn [map fst In] in K. rewrite T by tauto. rewrite del_other by (intros ->; tauto). apply H1. tauto.
    + cbn [fst snd]. exists l, h. split; [|split; [constructor; [cbn [seg]; auto | exact HD | exact TL | exact LN | exact D]|split; [reflexivity|split]]].
      * intros [|fuel] F; [lia|]. cbn [list_clear]. rewrite HD. cbn [first_or fst]. rewrite (proj2 (Z.eqb_neq a 0) A0).
        unfold call_back, notes. unfold agrees in G. destruct (l_callback l) as [f|]; [|discriminate G].
        rewrite (get_some h a _ A0 SA). cbn [bind e_value]. rewrite G. reflexivity.
      * exists []. split; [reflexivity | intros b []].
      * reflexivity.
Qed.
Lemma free_runs : forall l xs p h, seg h p xs 0 -> NoDup (map fst xs) -> forallb (fun y => agrees (l_callback l) (snd y)) xs = true ->
  exists h', (forall fuel, (length xs < fuel)%nat -> free_loop fuel l (first_or xs 0) h = Some (true, h', snd (cleared (l_callback l) xs))) /\
    (forall b, In b (map fst xs) -> h' b = None) /\ (forall b, ~ In b (map fst xs) -> h' b = h b).
Proof.
  intros l. induction xs as [|[a v] xs IH]; intros p h S D G.
  - exists h. split; [|split; [intros b [] | reflexivity]]. intros [|fuel] F; [cbn in F; lia|]. reflexivity.
  - destruct S as (A0 & SA & S). destruct (proj1 (NoDup_cons_iff _ _) D) as [DA DX]. cbn [forallb snd fst] in *. apply andb_true_iff in G. destruct G as [G GX].
    destruct (IH a (del h a)) as (h' & P & Q & R).
    + apply (seg_out h); [|exact S]. intros c K. apply del_other. intros ->. contradiction.
    + exact DX.
    + exact GX.
    + exists h'. split; [|split].
      * intros [|fuel] F; [lia|]. cbn [length] in F. cbn [free_loop first_or fst]. rewrite (proj2 (Z.eqb_neq a 0) A0), (get_some h a _ A0 SA). cbn [bind e_next].
        assert (CB : call_back l a h = Some (true, notes (l_callback l) v)).
        { unfold call_back, notes. unfold agrees in G. destruct (l_callback l) as [f|]; [|reflexivity]. rewrite (get_some h a _ A0 SA). cbn [bind e_value]. rewrite G. reflexivity. }
        rewrite CB. cbn [bind]. rewrite free_eq by (exact A0 || (rewrite SA; discriminate)). cbn [bind]. rewrite P by lia. cbn [bind cleared snd]. rewrite G.
        destruct (cleared (l_callback l) xs) as [[ok r] c]. reflexivity.
      * intros b [<-|K]; [cbn [fst]; rewrite R by exact DA; apply del_same | apply Q; exact K].
      * intros b K. cbn [map fst In] in K. rewrite R by tauto. apply del_other. intros ->. tauto.
Qed.

(** ** Reading *)
Lemma at_reads : forall k xs h p, seg h p xs 0 -> at_loop k (first_or xs 0) h = Some (nth k (map fst xs) 0).
Proof.
  induction k as [|k IH]; intros xs h p S; [destruct xs; reflexivity|]. cbn [at_loop]. destruct xs as [|[a v] xs]; [reflexivity|].
  destruct S as (A0 & SA & S). cbn [first_or fst]. rewrite (proj2 (Z.eqb_neq a 0) A0), (get_some h a _ A0 SA). cbn [bind e_next map nth fst]. exact (IH xs h a S).
Qed.
Lemma value_split : forall ys p v zs, ~ In p (map fst ys) -> value_at p (ys ++ (p, v) :: zs) = v /\ following p (ys ++ (p, v) :: zs) = first_or zs 0.
Proof.
  induction ys as [|[a w] ys IH]; intros p v zs N; cbn [app value_at following fst snd].
  - rewrite Z.eqb_refl. split; [reflexivity | destruct zs; reflexivity].
  - rewrite (proj2 (Z.eqb_neq a p)) by (intros ->; apply N; left; reflexivity). apply IH. intros K. apply N. right. exact K.
Qed.
Lemma remove_split : forall ys p v zs, ~ In p (map fst ys) -> ~ In p (map fst zs) -> remove p (ys ++ (p, v) :: zs) = ys ++ zs.
Proof.
  assert (X : forall p l, ~ In p (map fst l) -> remove p l = l).
  { intros p. unfold remove. induction l as [|[a w] l IH]; intros N; [reflexivity|]. cbn [filter fst].
    rewrite (proj2 (Z.eqb_neq a p)) by (intros ->; apply N; left; reflexivity). cbn [negb]. f_equal. apply IH. intros K. apply N. right. exact K. }
  intros ys p v zs A B. unfold remove in *. rewrite filter_app. cbn [filter fst]. rewrite Z.eqb_refl. cbn [negb]. rewrite !X by assumption. reflexivity.
Qed.
Lemma insert_split : forall ys p v zs x, ~ In p (map fst ys) -> insert_at p x (ys ++ (p, v) :: zs) = (ys ++ [(p, v)]) ++ x :: zs.
Proof.
  induction ys as [|[a w] ys IH]; intros p v zs x N; cbn [app insert_at fst].
  - rewrite Z.eqb_refl. reflexivity.
  - rewrite (proj2 (Z.eqb_neq a p)) by (intros ->; apply N; left; reflexivity). f_equal. apply IH. intros K. apply N. right. exact K.
Qed.
