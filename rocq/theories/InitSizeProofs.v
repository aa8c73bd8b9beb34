(** Proofs about the size of arrays completed by their initializer. *)
From Coq Require Import Bool List String Arith Lia.
From Verif Require Import TravModel InitSizeModel InitSizeSpec.
Import ListNotations.
Open Scope list_scope.
Open Scope nat_scope.

Section Size.
Variable M64 : nat.
Notation event := (event M64).
Notation next_event := (next_event M64).
Notation next_recursive_event := (next_recursive_event M64).
Notation fit := (fit M64).
Notation place := (place M64).
Notation analyze := (analyze M64).
Notation end_event := (end_event M64).

(** How many elements of the array are done or begun *)
Definition used (b : layer) : nat := lpos b + (if linit b then 0 else 1).

(** [b] is the outermost layer of [s] and belongs to an array of unknown size; once something is above it, it has begun. *)
Definition rooted (e : ty) (s : stack) (b : layer) : Prop :=
  exists up, s = up ++ [b] /\ lobj b = Array None e /\ (up <> [] -> linit b = false).

Lemma rooted_one : forall e b, lobj b = Array None e -> rooted e [b] b.
Proof. intros e b H. exists []. repeat split; [assumption|congruence]. Qed.

Lemma rooted_cons : forall e x s b, rooted e s b -> linit b = false -> rooted e (x :: s) b.
Proof. intros e x s b (up & -> & L & _) I. exists (x :: up). auto. Qed.

Lemma rooted_push : forall e t s b, rooted e s b -> linit b = false -> rooted e (push_layer t s) b.
Proof.
  intros e t s b R I. destruct t as [k|[|f fs]|[|f fs]|k t|t]; cbn [push_layer]; auto using rooted_cons.
Qed.

Lemma root_of : forall e s b, rooted e s b -> root s = lpos b.
Proof. intros e s b (up & -> & _). unfold root. now rewrite rev_unit. Qed.

Lemma end_of : forall e s b n, rooted e s b -> end_event s n = Nat.max n (used b mod M64).
Proof. intros e s b n (up & -> & _). unfold InitSizeModel.end_event. now rewrite rev_unit. Qed.

Lemma empty_of : forall e s b, rooted e s b -> empty s = false.
Proof.
  intros e s b (up & -> & L & _). unfold empty. rewrite forallb_app. cbn [forallb]. unfold layer_empty at 2. rewrite L.
  cbn [is_array_finished]. rewrite andb_false_r. cbn. apply andb_false_r.
Qed.

(** Another element of the array was reached. *)
Definition moved (b : layer) (n : nat) (b' : layer) (n' : nat) : Prop :=
  used b <= lpos b' /\ (lpos b' + 1 < M64 -> lpos b' + 1 <= n') /\ n <= n' /\ n' <= Nat.max n (lpos b' + 1).
Definition went (b : layer) (n : nat) (b' : layer) (n' : nat) : Prop := (b' = b /\ n' = n) \/ moved b n b' n'.

Lemma used_on : forall b, linit b = false -> used b = lpos b + 1.
Proof. intros b H. unfold used. now rewrite H. Qed.

Lemma went_went : forall b n b1 n1 b2 n2, linit b1 = false -> went b n b1 n1 -> went b1 n1 b2 n2 -> went b n b2 n2.
Proof.
  intros b n b1 n1 b2 n2 I [[-> ->]|A] [[-> ->]|B]; unfold went; [now left|now right|now right|right].
  unfold moved in *. rewrite (used_on b1 I) in B. lia.
Qed.
Lemma moved_went : forall b n b1 n1 b2 n2, linit b1 = false -> moved b n b1 n1 -> went b1 n1 b2 n2 -> moved b n b2 n2.
Proof.
  intros b n b1 n1 b2 n2 I A [[-> ->]|B]; [assumption|]. unfold moved in *. rewrite (used_on b1 I) in B. lia.
Qed.

Lemma next_rooted : forall e up b t s', lobj b = Array None e -> (up <> [] -> linit b = false) -> next (up ++ [b]) = Done (t, s') ->
  t <> None /\ ((exists up', up' <> [] /\ up <> [] /\ s' = up' ++ [b]) \/ s' = [at_ b (advance b)]).
Proof.
  intros e up b t s' L. induction up as [|l up IH]; intros I H.
  - cbn [app next] in H. rewrite L in H. cbn [is_array_finished] in H. injection H as <- <-. split; [discriminate|now right].
  - assert (Ib : linit b = false) by (apply I; discriminate).
    assert (D : next (up ++ [b]) = Done (t, s') -> t <> None /\ ((exists up', up' <> [] /\ l :: up <> [] /\ s' = up' ++ [b]) \/ s' = [at_ b (advance b)])).
    { intros N. destruct (IH (fun _ => Ib) N) as [T [(u & U & _ & E)|E]]; split; auto. left. exists u. repeat split; auto. discriminate. }
    assert (K : forall l', (t, s') = (t, l' :: up ++ [b]) -> t <> None -> t <> None /\ ((exists up', up' <> [] /\ l :: up <> [] /\ s' = up' ++ [b]) \/ s' = [at_ b (advance b)])).
    { intros l' E T. injection E as ->. split; [assumption|]. left. exists (l' :: up). repeat split; discriminate. }
    cbn [app next] in H. destruct (lobj l) as [k|fs|fs|k u|u].
    + destruct (linit l); [|auto]. injection H as <- <-. eapply K; [reflexivity|discriminate].
    + destruct (skip_unnamed fs (advance l)) as [|p f|]; [auto| |discriminate H].
      injection H as <- <-. eapply K; [reflexivity|discriminate].
    + destruct (skip_unnamed fs (lpos l)) as [|p f|]; [auto| |discriminate H]. destruct (linit l); [|auto].
      injection H as <- <-. eapply K; [reflexivity|discriminate].
    + destruct (is_array_finished k (advance l)); [auto|]. injection H as <- <-. eapply K; [reflexivity|discriminate].
    + destruct (linit l); [|auto]. injection H as <- <-. eapply K; [reflexivity|discriminate].
Qed.

Lemma mod_le : forall x, x mod M64 <= x.
Proof. intros x. destruct (Nat.eq_dec M64 0) as [->|N]; [cbn; lia|]. now apply Nat.mod_le. Qed.

Lemma advance_used : forall b, advance b = used b.
Proof. intros b. unfold advance, used. destruct (linit b); lia. Qed.

Lemma next_event_ok : forall e s b n t s' n', rooted e s b -> next_event s n = Done (t, s', n') ->
  t <> None /\ exists b', rooted e s' b' /\ linit b' = false /\ went b n b' n' /\ (s = [b] -> moved b n b' n').
Proof.
  intros e s b n t s' n' (up & -> & L & I) H. unfold InitSizeModel.next_event in H.
  destruct (next (up ++ [b])) as [[t1 s1]| | | |] eqn:N; cbn [bind fst snd] in H; try discriminate H.
  injection H as <- <- H. destruct (next_rooted e up b t1 s1 L I N) as [T [(u & U & V & E)|E]].
  - split; [assumption|]. exists b. subst s1. split; [exists u; auto|]. split; [auto|].
    assert (event (u ++ [b]) n = n) as Ev.
    { destruct u as [|x [|y u]]; [congruence|reflexivity|reflexivity]. }
    split.
    + left. split; [reflexivity|]. destruct t1; [|congruence]. now rewrite <- H.
    + intros W. exfalso. destruct up as [|x [|y up]]; try congruence; discriminate W.
  - split; [assumption|]. exists (at_ b (advance b)). subst s1. split; [apply rooted_one; assumption|]. split; [reflexivity|].
    assert (moved b n (at_ b (advance b)) n') as M.
    { destruct t1; [|congruence]. cbn [InitSizeModel.event at_ lpos] in H. rewrite advance_used in *. unfold moved. cbn [at_ lpos].
      pose proof (mod_le (used b + 1)). split; [lia|]. split; [|lia]. intros Lt. rewrite Nat.mod_small in H by assumption. lia. }
    split; [now right|auto].
Qed.

Lemma bind_done : forall {A B} (x : res A) (f : A -> res B) r, bind x f = Done r -> exists a, x = Done a /\ f a = Done r.
Proof. intros A B [a| | | |] f r H; try discriminate H. now exists a. Qed.

Lemma one_eq : forall e b b' s, rooted e s b -> s = [b'] -> b' = b.
Proof. intros e b b' s (up & E & _) ->. destruct up as [|x [|y up]]; try discriminate E. now injection E. Qed.

Lemma next_rec_ok : forall e fuel stop s b n t s' n', rooted e s b -> next_recursive_event fuel stop s n = Done (t, s', n') ->
  t <> None /\ exists b', rooted e s' b' /\ linit b' = false /\ went b n b' n' /\ (s = [b] -> moved b n b' n').
Proof.
  induction fuel as [|fuel IH]; intros stop s b n t s' n' R H; [discriminate H|]. cbn [InitSizeModel.next_recursive_event] in H.
  destruct (bind_done _ _ _ H) as ([[t1 s1] n1] & N & K). clear H.
  destruct (next_event_ok e s b n t1 s1 n1 R N) as [T (b1 & R1 & I1 & W1 & M1)].
  destruct t1 as [t1|]; [|congruence].
  destruct (is_aggregate t1 && negb (stop t1)).
  - destruct (IH stop _ b1 n1 t s' n' (rooted_push e t1 s1 b1 R1 I1) K) as [T2 (b2 & R2 & I2 & W2 & M2)].
    split; [assumption|]. exists b2. split; [assumption|]. split; [assumption|].
    split; [exact (went_went b n b1 n1 _ _ I1 W1 W2)|]. intros E. exact (moved_went b n b1 n1 _ _ I1 (M1 E) W2).
  - injection K as <- <- <-. split; [discriminate|]. now exists b1.
Qed.

Lemma step_rooted : forall e s b s', rooted e s b -> linit b = false -> step s = Done s' -> rooted e s' b.
Proof.
  intros e s b s' R I H. destruct s as [|l s]; [discriminate H|]. cbn [step] in H. destruct (lobj l).
  - discriminate H.
  - destruct (nth_error fs (lpos l)); [|discriminate H]. injection H as <-. now apply rooted_push.
  - destruct (nth_error fs (lpos l)); [|discriminate H]. injection H as <-. now apply rooted_push.
  - injection H as <-. now apply rooted_push.
  - discriminate H.
Qed.

Lemma fit_ok : forall e fuel fits s b n s' n', rooted e s b -> fit fuel fits s n = Done (s', n') ->
  exists b', rooted e s' b' /\ linit b' = false /\ went b n b' n' /\ (s = [b] -> moved b n b' n').
Proof.
  induction fuel as [|fuel IH]; intros fits s b n s' n' R H; [discriminate H|]. cbn [InitSizeModel.fit] in H.
  destruct (bind_done _ _ _ H) as ([[t1 s1] n1] & N & K). clear H.
  destruct (next_event_ok e s b n t1 s1 n1 R N) as [T (b1 & R1 & I1 & W1 & M1)].
  destruct t1 as [t1|]; [|congruence]. destruct (fits (unqualified t1)).
  - injection K as <- <-. now exists b1.
  - destruct (bind_done _ _ _ K) as (s2 & S & K2).
    destruct (IH fits s2 b1 n1 s' n' (step_rooted e s1 b1 s2 R1 I1 S) K2) as (b2 & R2 & I2 & W2 & M2).
    exists b2. split; [assumption|]. split; [assumption|]. split; [exact (went_went b n b1 n1 _ _ I1 W1 W2)|].
    intros E. exact (moved_went b n b1 n1 _ _ I1 (M1 E) W2).
Qed.

Lemma place_ok : forall e fuel v s b n s' n', rooted e s b -> place fuel v s n = Done (s', n') ->
  exists b', rooted e s' b' /\ linit b' = false /\ went b n b' n' /\ (s = [b] -> moved b n b' n').
Proof.
  intros e fuel v s b n s' n' R H. destruct v as [l|k stop|k|k fits]; cbn [InitSizeModel.place] in H.
  - destruct (bind_done _ _ _ H) as ([[t1 s1] n1] & N & K).
    destruct (next_event_ok e s b n t1 s1 n1 R N) as [T X]. destruct t1; [|congruence]. injection K as <- <-. exact X.
  - destruct (bind_done _ _ _ H) as ([[t1 s1] n1] & N & K).
    destruct (next_rec_ok e fuel stop s b n t1 s1 n1 R N) as [T X]. destruct t1; [|congruence]. injection K as <- <-. exact X.
  - destruct (bind_done _ _ _ H) as ([[t1 s1] n1] & N & K).
    destruct (next_rec_ok e fuel _ s b n t1 s1 n1 R N) as [T X]. destruct t1; [|congruence]. injection K as <- <-. exact X.
  - eapply fit_ok; eauto.
Qed.

(** * Designators *)
Definition array (t : ty) : bool := match t with Array _ _ => true | _ => false end.

Lemma push_top : forall t l below, exists top, push_layer t (l :: below) = top ++ below /\ top <> [].
Proof.
  intros t l below. destruct t as [k|[|f fs]|[|f fs]|k t|t]; cbn [push_layer];
    solve [exists [l]; split; [reflexivity|discriminate]|eexists [_; l]; split; [reflexivity|discriminate]].
Qed.

Lemma member_top : forall fuel l below m p s', navigate_member fuel (l :: below) m p = Done s' ->
  array (lobj l) = false /\ exists top, s' = top ++ below /\ top <> [].
Proof.
  induction fuel as [|fuel IH]; intros l below m p s' H; [discriminate H|]. cbn [navigate_member] in H.
  assert (RK : forall t x, navigate_member fuel (push_layer t (l :: below)) m p = Done x -> exists top, x = top ++ below /\ top <> []).
  { intros t x K.
    assert (push_layer t (l :: below) = l :: below \/ exists y, push_layer t (l :: below) = y :: l :: below) as [E|[y E]].
    { destruct t as [k|[|f fs]|[|f fs]|k t|t]; cbn [push_layer]; eauto. }
    - rewrite E in K. exact (proj2 (IH _ _ _ _ _ K)).
    - rewrite E in K. destruct (proj2 (IH _ _ _ _ _ K)) as (top & -> & N). exists (top ++ [l]). rewrite <- app_assoc.
      split; [reflexivity|]. destruct top; discriminate. }
  destruct (lobj l) as [k|fs|fs|k u|u]; try discriminate H; split; try reflexivity.
  - revert H. generalize 0 as i. induction fs as [|f r IHf]; intros i H; [discriminate H|]. cbn [struct_loop] in H.
    destruct (fname f) as [nm|].
    + destruct (String.eqb m nm); [|now apply (IHf (S i))]. destruct p.
      * injection H as <-. apply push_top.
      * destruct i; injection H as <-; eexists [_]; (split; [reflexivity|discriminate]).
    + destruct (is_scalar (ftype f)); [now apply (IHf (S i))|].
      destruct (navigate_member fuel (push_layer (ftype f) (l :: below)) m p) as [x| | | |] eqn:Q; try discriminate H.
      * injection H as <-. eapply RK; eauto.
      * now apply (IHf (S i)).
  - revert H. generalize 0 as i. induction fs as [|f r IHf]; intros i H; [discriminate H|]. cbn [union_loop] in H.
    destruct (fname f) as [nm|].
    + destruct (String.eqb m nm); [|now apply (IHf (S i))]. destruct p.
      * injection H as <-. apply push_top.
      * injection H as <-; eexists [_]; (split; [reflexivity|discriminate]).
    + destruct (navigate_member fuel (push_layer (ftype f) (l :: below)) m p) as [x| | | |] eqn:Q; try discriminate H.
      * injection H as <-. eapply RK; eauto.
      * now apply (IHf (S i)).
Qed.

Lemma rooted_split : forall e l below b, rooted e (l :: below) b -> (below = [] /\ l = b) \/ (rooted e below b /\ linit b = false).
Proof.
  intros e l below b ([|x up] & E & L & I).
  - injection E as -> ->. now left.
  - injection E as -> ->. right. split; [|apply I; discriminate]. exists up. split; [reflexivity|]. split; [assumption|].
    intros _. apply I. discriminate.
Qed.

Lemma rooted_top : forall e top below b, rooted e below b -> linit b = false -> rooted e (top ++ below) b.
Proof. intros e top below b R I. induction top as [|x top IH]; [exact R|]. cbn [app]. now apply rooted_cons. Qed.

Lemma navigate_ok : forall e fuel d push s', navigate_impl fuel (push_layer (Array None e) []) d push = Done s' ->
  exists b, rooted e s' b /\ (List.length d <= 1 -> push = false -> s' = [b]).
Proof.
  intros e fuel d. induction d as [|x outer IH]; intros push s' H.
  - injection H as <-. eexists. split; [apply rooted_one; reflexivity|reflexivity].
  - cbn [navigate_impl] in H. destruct (bind_done _ _ _ H) as (s & N & K). clear H.
    destruct (IH true s N) as (b & R & _). destruct s as [|l below]; [destruct R as ([|? ?] & E & _); discriminate E|].
    destruct (rooted_split e l below b R) as [[-> ->]|[Rb Ib]].
    + assert (Lb : lobj b = Array None e) by (destruct R as (? & _ & L & _); exact L).
      destruct x as [m|i].
      * exfalso. destruct (member_top _ _ _ _ _ _ K) as [A _]. rewrite Lb in A. discriminate A.
      * cbn [navigate_index] in K. rewrite Lb in K. destruct push.
        -- injection K as <-. exists (at_ b i). split; [|discriminate].
           apply rooted_push; [apply rooted_one; assumption|reflexivity].
        -- destruct i; injection K as <-; eexists; (split; [apply rooted_one; first [reflexivity|assumption]|reflexivity]).
    + assert (Len : List.length (x :: outer) <= 1 -> False).
      { intros Le. destruct outer as [|y outer]; [|cbn in Le; lia]. injection N as <- <-.
        destruct Rb as ([|? ?] & E & _); discriminate E. }
      assert (R' : rooted e s' b).
      { destruct x as [m|i].
        - destruct (member_top _ _ _ _ _ _ K) as [_ (top & -> & _)]. now apply rooted_top.
        - cbn [navigate_index] in K. destruct (lobj l) as [k|fs|fs|k u|u]; try discriminate K.
          destruct (match k with Some n => n <=? i | None => false end); [discriminate K|]. destruct push.
          + injection K as <-. apply rooted_push; [now apply rooted_cons|assumption].
          + destruct i; injection K as <-; now apply rooted_cons. }
      exists b. split; [exact R'|]. intros Le. destruct (Len Le).
Qed.

(** * Lists *)
Lemma analyze_go : forall fuel t rest v s n s2 n2 il,
  bind (place fuel v s n) (fun x => let '(s', n') := x in
        bind (analyze fuel t rest s' n') (fun y => let '(s2, n2, il) := y in Done (s2, n2, root s' :: il))) = Done (s2, n2, il) ->
  exists s' n' il', place fuel v s n = Done (s', n') /\ analyze fuel t rest s' n' = Done (s2, n2, il') /\ il = root s' :: il'.
Proof.
  intros fuel t rest v s n s2 n2 il H. destruct (bind_done _ _ _ H) as ([s' n'] & P & K).
  destruct (bind_done _ _ _ K) as ([[s3 n3] il'] & A & E). injection E as <- <- <-. now exists s', n', il'.
Qed.

Definition under (k n : nat) (b : layer) (il : list nat) : Prop := n <= k /\ used b <= k /\ forall i, In i il -> i < k.

Lemma plain_ok : forall e fuel l s b n s2 n2 il, undesignated l -> rooted e s b ->
  analyze fuel (Array None e) l s n = Done (s2, n2, il) ->
  exists b2, rooted e s2 b2 /\ n <= n2 /\ (b2 = b \/ (In (lpos b2) il /\ linit b2 = false))
    /\ ((forall i, In i il -> i + 1 < M64) -> Nat.max n (used b) <= Nat.max n2 (used b2)
                                            /\ forall i, In i il -> i < Nat.max n2 (used b2))
    /\ (forall k, under k n b il -> n2 <= k /\ used b2 <= k).
Proof.
  intros e fuel. induction l as [|[d v] l IH]; intros s b n s2 n2 il U R H.
  - injection H as <- <- <-. exists b. split; [assumption|]. split; [lia|]. split; [now left|].
    split; [intros _; split; [lia|intros i []]|]. intros k (A & B & _). auto.
  - inversion U as [|? ? Ud U']; subst. cbn [InitSizeModel.analyze] in H. rewrite (empty_of e s b R) in H.
    destruct (analyze_go _ _ _ _ _ _ _ _ _ H) as (s' & n' & il' & P & A & ->).
    destruct (place_ok e fuel v s b n s' n' R P) as (b' & R' & I' & Wn & _).
    destruct (IH s' b' n' s2 n2 il' U' R' A) as (b2 & R2 & N2 & B2 & L2 & K2).
    rewrite (root_of e s' b' R'). pose proof (used_on b' I') as UB.
    exists b2. split; [assumption|]. split; [destruct Wn as [[-> ->]|(Wa & Wb & Wc & Wd)]; lia|].
    split; [right; destruct B2 as [->|[B2 C2]]; [split; [now left|assumption]|split; [now right|assumption]]|]. split.
    + intros Lt. destruct L2 as [M2 L2]; [intros i Hi; apply Lt; now right|].
      assert (lpos b' + 1 < M64) by (apply Lt; now left).
      assert (Nat.max n (used b) <= Nat.max n' (used b')) by (destruct Wn as [[-> ->]|(Wa & Wb & Wc & Wd)]; lia).
      split; [lia|]. intros i [<-|Hi]; [lia|auto].
    + intros k (Ka & Kb & Kc). apply K2. assert (lpos b' < k) by (apply Kc; now left).
      split; [|split; [lia|intros i Hi; apply Kc; now right]].
      destruct Wn as [[-> ->]|(Wa & Wb & Wc & Wd)]; lia.
Qed.

Lemma shallow_ok : forall e fuel l s b n s2 n2 il, shallow l -> rooted e s b -> (used b < M64 -> used b <= n) ->
  analyze fuel (Array None e) l s n = Done (s2, n2, il) ->
  exists b2, rooted e s2 b2 /\ n <= n2 /\ (b2 = b \/ (In (lpos b2) il /\ linit b2 = false))
    /\ ((forall i, In i il -> i + 1 < M64) -> forall i, In i il -> i < Nat.max n2 (used b2))
    /\ (forall k, under k n b il -> n2 <= k /\ used b2 <= k).
Proof.
  intros e fuel. induction l as [|[d v] l IH]; intros s b n s2 n2 il Sh R Re H.
  - injection H as <- <- <-. exists b. split; [assumption|]. split; [lia|]. split; [now left|]. split; [intros _ i []|].
    intros k (A & B & _). auto.
  - cbn [InitSizeModel.analyze] in H. destruct d as [d|].
    + destruct (bind_done _ _ _ H) as (s0 & N & H0). clear H. unfold navigate in N.
      destruct (navigate_ok e fuel d false s0 N) as (b0 & R0 & One).
      destruct (analyze_go _ _ _ _ _ _ _ _ _ H0) as (s' & n' & il' & P & A & ->).
      destruct (place_ok e fuel v s0 b0 n s' n' R0 P) as (b' & R' & I' & Wn & M).
      rewrite (root_of e s' b' R'). pose proof (used_on b' I') as UB.
      assert (NN : n <= n') by (destruct Wn as [[_ ->]|(_ & _ & ? & _)]; lia).
      assert (KK : forall k, under k n b (lpos b' :: il') -> under k n' b' il').
      { intros k (Ka & Kb & Kc). assert (lpos b' < k) by (apply Kc; now left).
        split; [|split; [lia|intros i Hi; apply Kc; now right]].
        destruct Wn as [[-> ->]|(Wa & Wb & Wc & Wd)]; lia. }
      destruct Sh as [[Ln Sh]|Un].
      * specialize (M (One ltac:(lia) eq_refl)). destruct M as (Ma & Mb & Mc & Md).
        destruct (IH s' b' n' s2 n2 il' Sh R' ltac:(lia) A) as (b2 & R2 & N2 & B2 & L2 & K2).
        exists b2. split; [assumption|]. split; [lia|].
        split; [right; destruct B2 as [->|[B2 C2]]; [split; [now left|assumption]|split; [now right|assumption]]|]. split.
        -- intros Lt. assert (lpos b' + 1 < M64) by (apply Lt; now left).
           intros i [<-|Hi]; [lia|]. apply L2; [|assumption]. intros j Hj. apply Lt. now right.
        -- intros k Hk. apply K2. auto.
      * destruct (plain_ok e fuel l s' b' n' s2 n2 il' Un R' A) as (b2 & R2 & N2 & B2 & L2 & K2).
        exists b2. split; [assumption|]. split; [lia|].
        split; [right; destruct B2 as [->|[B2 C2]]; [split; [now left|assumption]|split; [now right|assumption]]|]. split.
        -- intros Lt. destruct L2 as [M2 L2]; [intros i Hi; apply Lt; now right|].
           intros i [<-|Hi]; [lia|auto].
        -- intros k Hk. apply K2. auto.
    + rewrite (empty_of e s b R) in H.
      destruct (analyze_go _ _ _ _ _ _ _ _ _ H) as (s' & n' & il' & P & A & ->).
      destruct (place_ok e fuel v s b n s' n' R P) as (b' & R' & I' & Wn & _).
      rewrite (root_of e s' b' R'). pose proof (used_on b' I') as UB.
      assert (n <= n' /\ (used b' < M64 -> used b' <= n')) as [NN MM].
      { destruct Wn as [[-> ->]|(Wa & Wb & Wc & Wd)]; lia. }
      destruct (IH s' b' n' s2 n2 il' Sh R' MM A) as (b2 & R2 & N2 & B2 & L2 & K2).
      exists b2. split; [assumption|]. split; [lia|].
      split; [right; destruct B2 as [->|[B2 C2]]; [split; [now left|assumption]|split; [now right|assumption]]|]. split.
      * intros Lt. assert (lpos b' + 1 < M64) by (apply Lt; now left).
        intros i [<-|Hi]; [lia|]. apply L2; [|assumption]. intros j Hj. apply Lt. now right.
      * intros k (Ka & Kb & Kc). apply K2. assert (lpos b' < k) by (apply Kc; now left).
        split; [|split; [lia|intros i Hi; apply Kc; now right]].
        destruct Wn as [[-> ->]|(Wa & Wb & Wc & Wd)]; lia.
Qed.

Lemma largest : forall il : list nat, il = [] \/ exists i, In i il /\ forall j, In j il -> j <= i.
Proof.
  induction il as [|x il [->|(i & I & M)]]; [now left| |].
  - right. exists x. split; [now left|]. intros j [<-|[]]. lia.
  - right. destruct (le_lt_dec x i).
    + exists i. split; [now right|]. intros j [<-|J]; auto.
    + exists x. split; [now left|]. intros j [<-|J]; [lia|]. specialize (M j J). lia.
Qed.

(** * Elements initialized as a whole *)
Definition start (e : ty) : stack := push_layer (Array None e) [].

Lemma whole_place : forall e fuel v b n, lobj b = Array None e -> whole e v ->
  place (S fuel) v [b] n = Done ([at_ b (used b)], Nat.max n ((used b + 1) mod M64)).
Proof.
  intros e fuel v b n L W.
  assert (N : next_event [b] n = Done (Some e, [at_ b (used b)], Nat.max n ((used b + 1) mod M64))).
  { unfold InitSizeModel.next_event. cbn [next]. rewrite L. cbn [is_array_finished bind fst snd InitSizeModel.event at_ lpos]. now rewrite advance_used. }
  destruct v as [l|k stop|k|k fits]; cbn [InitSizeModel.place whole] in *.
  - rewrite N. reflexivity.
  - cbn [InitSizeModel.next_recursive_event]. rewrite N. cbn [bind]. destruct W as [->| ->]; [rewrite andb_false_r|]; reflexivity.
  - cbn [InitSizeModel.next_recursive_event]. rewrite N. cbn [bind]. rewrite W. reflexivity.
  - cbn [InitSizeModel.fit]. rewrite N. cbn [bind]. rewrite W. reflexivity.
Qed.

Lemma whole_analyze : forall e fuel cur l il, indexes cur l il -> Forall (fun x => match x with Entry _ v => whole e v end) l ->
  forall b n, lobj b = Array None e -> used b = cur ->
  exists b2 n2, analyze (S fuel) (Array None e) l [b] n = Done ([b2], n2, il) /\ lobj b2 = Array None e.
Proof.
  intros e fuel cur l il H. induction H as [cur|cur v l il H IH|cur i v l il H IH]; intros F b n L U.
  - exists b, n. auto.
  - inversion F as [|? ? W F']; subst. cbn [InitSizeModel.analyze]. rewrite (empty_of e [b] b (rooted_one e b L)).
    rewrite (whole_place e fuel v b n L W). cbn [bind].
    destruct (IH F' (at_ b (used b)) (Nat.max n ((used b + 1) mod M64)) L) as (b2 & n2 & E & L2); [cbn; lia|].
    rewrite E. cbn [bind]. exists b2, n2. split; [reflexivity|assumption].
  - inversion F as [|? ? W F']; subst. cbn [InitSizeModel.analyze]. unfold navigate. cbn [navigate_impl push_layer bind navigate_index lobj].
    assert (K : forall b0, lobj b0 = Array None e -> used b0 = i -> exists b2 n2,
      bind (place (S fuel) v [b0] n) (fun x => let '(s', n') := x in
        bind (analyze (S fuel) (Array None e) l s' n') (fun y => let '(s2, n2, il) := y in Done (s2, n2, root s' :: il)))
      = Done ([b2], n2, i :: il) /\ lobj b2 = Array None e).
    { intros b0 L0 U0. rewrite (whole_place e fuel v b0 n L0 W). cbn [bind].
      destruct (IH F' (at_ b0 (used b0)) (Nat.max n ((used b0 + 1) mod M64)) L0) as (b2 & n2 & E & L2); [cbn; lia|].
      rewrite E. cbn [bind]. exists b2, n2. split; [|assumption]. cbn. now rewrite U0. }
    destruct i as [|j]; cbn [bind]; apply K; try reflexivity. cbn. lia.
Qed.

Lemma indexes_shallow : forall cur l il, indexes cur l il -> shallow l.
Proof. intros cur l il H. induction H; cbn [shallow]; auto. Qed.
End Size.
