(** The traversal visits the subobjects in order. *)

From Coq Require Import Bool List String Arith Lia.
From Verif Require Import TravModel TravSpec.
Import ListNotations.
Open Scope list_scope.

(** ** Lists *)

Lemma skipn_cons : forall A (l : list A) i x, nth_error l i = Some x -> skipn i l = x :: skipn (S i) l.
Proof. induction l as [|y l IH]; intros [|i] x H; try discriminate; simpl in *; [congruence|apply IH; exact H]. Qed.
Lemma skipn_nil_len : forall A (l : list A) i, skipn i l = [] -> List.length l <= i.
Proof.
  induction l as [|y l IH]; intros [|i] H; simpl in *; try lia; try discriminate. apply IH in H. lia.
Qed.

Lemma skip_loop_at : forall l pos x r, takes_part pos l = x :: r -> exists k f, skip_loop l pos = SAt (pos + k) f /\
  nth_error l k = Some f /\ unnamed f = false /\ x = (pos + k, ftype f) /\ r = takes_part (S (pos + k)) (skipn (S k) l).
Proof.
  induction l as [|f l IH]; intros pos x r H; [discriminate|]. simpl in H. simpl. destruct (unnamed f) eqn:U.
  - destruct (IH _ _ _ H) as (k & g & A & B & C & D & E). exists (S k), g.
    replace (pos + S k) with (S pos + k) by lia. auto.
  - injection H as <- <-. exists 0, f. rewrite Nat.add_0_r. auto.
Qed.
Lemma takes_part_nil : forall l pos f, takes_part pos l = [] -> In f l -> unnamed f = true.
Proof.
  induction l as [|g l IH]; intros pos f H I; [destruct I|]. simpl in H. destruct (unnamed g) eqn:U; [|discriminate].
  destruct I as [<-|I]; [exact U|eauto].
Qed.
Lemma takes_part_some : forall l pos f, In f l -> unnamed f = false -> takes_part pos l <> [].
Proof. intros l pos f I U E. rewrite (takes_part_nil _ _ _ E I) in U. discriminate. Qed.
Lemma in_skipn_last : forall A (l : list A) x i, i < List.length (l ++ [x]) -> In x (skipn i (l ++ [x])).
Proof.
  intros A l x i H. rewrite app_length in H. simpl in H. rewrite skipn_app. apply in_app_iff. right.
  replace (i - List.length l) with 0 by lia. left. reflexivity.
Qed.
Lemma nth_skipn : forall A (l : list A) i k, nth_error (skipn i l) k = nth_error l (i + k).
Proof. induction l as [|x l IH]; intros [|i] k; try reflexivity; [simpl; destruct k; reflexivity|]. simpl. apply IH. Qed.
Lemma skipn_skipn' : forall A (l : list A) i k, skipn k (skipn i l) = skipn (i + k) l.
Proof. induction l as [|x l IH]; intros [|i] k; try reflexivity; [simpl; destruct k; reflexivity|]. simpl. apply IH. Qed.

Lemma skip_unnamed_at : forall fs k x r, takes_part k (skipn k fs) = x :: r -> exists pos f, skip_unnamed fs k = SAt pos f /\
  k <= pos /\ nth_error fs pos = Some f /\ unnamed f = false /\ x = (pos, ftype f) /\ r = takes_part (S pos) (skipn (S pos) fs).
Proof.
  intros fs k x r H. destruct (skip_loop_at _ _ _ _ H) as (j & f & A & B & C & D & E). exists (k + j), f.
  rewrite nth_skipn in B. rewrite skipn_skipn' in E. replace (k + S j) with (S (k + j)) in E by lia.
  split; [|split; [lia|repeat split; assumption]].
  unfold skip_unnamed. destruct (skipn k fs); [discriminate|exact A].
Qed.

(** ** The invariant *)

Section Trav.
Variable N : nat.
Variable anon : bool.
Variable T : ty.

Definition cur (s : stack) : option ty :=
  match s with
  | [] => None
  | l :: _ => match lobj l with Struct fs | Union fs => option_map ftype (nth_error fs (lpos l)) | Array _ e => Some e | _ => None end
  end.
Definition wf_layer (l : layer) : Prop :=
  match lobj l with
  | Struct fs => tidy anon (Struct fs)
  | Union fs => tidy anon (Union fs) /\ exists f, In f (skipn (lpos l) fs) /\ unnamed f = false
  | Array n e => tidy anon e /\ n <> Some 0
  | _ => False
  end.
Definition settled (l : layer) : Prop := linit l = false /\
  match lobj l with
  | Struct fs | Union fs => exists f, nth_error fs (lpos l) = Some f /\ unnamed f = false
  | Array n e => lpos l < bound N n
  | _ => False
  end.
Definition unbounded (t : ty) : bool := match t with Array None _ => true | _ => false end.
Inductive good : stack -> Prop :=
  | G_nil : good []
  | G_base : forall l, wf_layer l -> lobj l = T -> good [l]
  | G_push : forall l m below, wf_layer l -> good (m :: below) -> settled m -> cur (m :: below) = Some (lobj l) ->
      unbounded (lobj l) = false -> good (l :: m :: below).

Fixpoint spine (s : stack) : list nat := match s with [] => [] | l :: below => lpos l :: spine below end.
Definition remaining (l : layer) (p : list nat) : list item :=
  match lobj l with
  | Struct fs => under p (takes_part (advance l) (skipn (advance l) fs))
  | Union fs => if linit l then under p (firstn 1 (takes_part (lpos l) (skipn (lpos l) fs))) else []
  | Array n e => under p (map (fun i => (i, e)) (seq (advance l) (bound N n - advance l)))
  | _ => []
  end.
Fixpoint pending (s : stack) : list item :=
  match s with [] => [] | l :: below => remaining l (spine below) ++ pending below end.

Lemma good_below : forall l s, good (l :: s) -> good s.
Proof. intros l s H. inversion H; subst; [constructor|assumption]. Qed.
Lemma good_wf : forall l s, good (l :: s) -> wf_layer l.
Proof. intros l s H. inversion H; assumption. Qed.
(** The top layer can move. *)
Lemma good_move : forall l l' s, good (l :: s) -> lobj l' = lobj l -> wf_layer l' -> good (l' :: s).
Proof.
  intros l l' s G E W. inversion G; subst; [apply G_base; [exact W|congruence]|].
  apply G_push; try assumption; rewrite E; assumption.
Qed.

Lemma tidy_in : forall fs, tidy_fields anon fs -> forall f, In f fs -> tidy anon (ftype f).
Proof. induction 1; intros x []; subst; auto. Qed.
Lemma tidy_struct_inv : forall fs, tidy anon (Struct fs) -> exists l f, fs = l ++ [f] /\ unnamed f = false /\ tidy_fields anon fs.
Proof. intros fs H. inversion H; subst. eauto. Qed.
Lemma tidy_union_inv : forall fs, tidy anon (Union fs) -> (exists f, In f fs /\ unnamed f = false) /\ tidy_fields anon fs /\
  (anon = false -> forall g, In g fs -> unnamed g = false).
Proof. intros fs H. inversion H; subst. eauto. Qed.

Lemma struct_rest : forall fs k, tidy anon (Struct fs) -> takes_part k (skipn k fs) = [] -> skip_unnamed fs k = SNull /\ List.length fs <= k.
Proof.
  intros fs k H E. destruct (tidy_struct_inv _ H) as (l & f & -> & U & _).
  assert (L : List.length (l ++ [f]) <= k).
  { destruct (le_lt_dec (List.length (l ++ [f])) k) as [L|L]; [exact L|]. apply in_skipn_last in L.
    rewrite (takes_part_nil _ _ _ E L) in U. discriminate. }
  split; [|exact L]. unfold skip_unnamed. rewrite skipn_all2 by exact L. reflexivity.
Qed.

Lemma under_cons : forall p l x w, under p l = x :: w -> exists y r, l = y :: r /\ x = (fst y :: p, snd y) /\ w = under p r.
Proof. intros p [|y r] x w H; [discriminate|]. injection H as <- <-. eauto. Qed.
Lemma under_nil : forall p l, under p l = [] -> l = [].
Proof. intros p [|y l]; [reflexivity|discriminate]. Qed.

Lemma cur_tidy : forall l s t, good (l :: s) -> cur (l :: s) = Some t -> tidy anon t.
Proof.
  intros l s t G C. pose proof (good_wf _ _ G) as W. unfold wf_layer in W. unfold cur in C.
  destruct (lobj l) as [n|fs|fs|n e|u]; try contradiction.
  - destruct (nth_error fs (lpos l)) as [f|] eqn:E; [|discriminate]. injection C as <-.
    destruct (tidy_struct_inv _ W) as (_ & _ & _ & _ & H). eapply tidy_in; [exact H|]. eapply nth_error_In; exact E.
  - destruct (nth_error fs (lpos l)) as [f|] eqn:E; [|discriminate]. injection C as <-.
    destruct W as [W _]. destruct (tidy_union_inv _ W) as (_ & H & _). eapply tidy_in; [exact H|]. eapply nth_error_In; exact E.
  - injection C as <-. exact (proj1 W).
Qed.

Lemma in_skipn : forall A (l : list A) i x y, nth_error l i = Some x -> x = y -> In y (skipn i l).
Proof. intros A l i x y H ->. rewrite (skipn_cons _ _ _ _ H). left. reflexivity. Qed.

(** ** next *)

Lemma next_ok : forall s p t w, good s -> pending s = (p, t) :: w -> exists l below,
  next s = Done (Some t, l :: below) /\ good (l :: below) /\ settled l /\ cur (l :: below) = Some t /\
  spine (l :: below) = p /\ pending (l :: below) = w.
Proof.
  induction s as [|l s IH]; intros p t w G P; [discriminate|]. simpl in P.
  pose proof (good_wf _ _ G) as W. pose proof (good_below _ _ G) as GB.
  destruct (remaining l (spine s)) as [|x r] eqn:R.
  - (* The layer is finished. *)
    simpl in P. destruct (IH _ _ _ GB P) as (m & below & A & B). exists m, below. split; [|exact B].
    rewrite <- A. unfold remaining in R. unfold wf_layer in W. cbn [next]. destruct (lobj l) as [n|fs|fs|n e|u] eqn:O; try contradiction.
    + apply under_nil in R. rewrite (proj1 (struct_rest _ _ W R)). reflexivity.
    + destruct W as [_ (f & I & U)].
      destruct (takes_part (lpos l) (skipn (lpos l) fs)) as [|y q] eqn:Y; [elim (takes_part_some _ _ _ I U Y)|].
      destruct (skip_unnamed_at _ _ _ _ Y) as (pos & g & -> & _). destruct (linit l); [discriminate|reflexivity].
    + apply under_nil in R. assert (L : bound N n - advance l = 0) by (destruct (bound N n - advance l); [reflexivity|discriminate]).
      assert (F : is_array_finished n (advance l) = true).
      { destruct n as [n|]; simpl in *.
        - destruct n; [destruct W; congruence|]. apply andb_true_iff. split; [apply Nat.leb_le; lia|reflexivity].
        - inversion G; subst; [simpl in P; discriminate|]. rewrite O in *. discriminate. }
      rewrite F. reflexivity.
  - simpl in P. injection P as -> <-. unfold remaining in R. cbn [next]. unfold wf_layer in W.
    destruct (lobj l) as [n|fs|fs|n e|u] eqn:O; try contradiction.
    + apply under_cons in R. destruct R as (y & q & R & E & ->).
      destruct (skip_unnamed_at _ _ _ _ R) as (pos & g & -> & _ & Ng & U & -> & ->). simpl in E. injection E as -> ->.
      exists (at_ l pos), s. split; [reflexivity|]. split.
      { eapply good_move; [exact G|reflexivity|]. unfold wf_layer. simpl. rewrite O. exact W. }
      split; [split; [reflexivity|]; simpl; rewrite O; eauto|]. split; [simpl; rewrite O, Ng; reflexivity|].
      split; [reflexivity|]. simpl. unfold remaining. simpl. rewrite O. reflexivity.
    + destruct (linit l) eqn:I; [|discriminate]. apply under_cons in R. destruct R as (y & q & R & E & ->).
      destruct (takes_part (lpos l) (skipn (lpos l) fs)) as [|y' q'] eqn:Y; [discriminate|].
      destruct (skip_unnamed_at _ _ _ _ Y) as (pos & g & -> & _ & Ng & U & -> & ->). injection R as <- <-. simpl in E. injection E as -> ->.
      exists (at_ l pos), s. split; [reflexivity|]. split.
      { eapply good_move; [exact G|reflexivity|]. unfold wf_layer. simpl. rewrite O. split; [exact (proj1 W)|].
        exists g. split; [eapply in_skipn; [exact Ng|reflexivity]|exact U]. }
      split; [split; [reflexivity|]; simpl; rewrite O; eauto|]. split; [simpl; rewrite O, Ng; reflexivity|].
      split; [reflexivity|]. simpl. unfold remaining. simpl. rewrite O. reflexivity.
    + apply under_cons in R. destruct R as (y & q & R & E & ->).
      destruct (bound N n - advance l) as [|k] eqn:L; [discriminate|]. injection R as <- <-. simpl in E. injection E as -> ->.
      assert (F : is_array_finished n (advance l) = false).
      { destruct n as [n|]; [|reflexivity]. simpl in *. apply andb_false_iff. left. apply Nat.leb_gt. lia. }
      rewrite F. exists (at_ l (advance l)), s. split; [reflexivity|]. split.
      { eapply good_move; [exact G|reflexivity|]. unfold wf_layer. simpl. rewrite O. exact W. }
      split; [split; [reflexivity|]; simpl; rewrite O; lia|]. split; [simpl; rewrite O; reflexivity|].
      split; [reflexivity|]. simpl. unfold remaining. simpl. rewrite O. do 3 f_equal.
      change (advance (at_ l (advance l))) with (S (advance l)). f_equal. lia.
Qed.

Lemma unbounded_base : forall l s e, good (l :: s) -> lobj l = Array None e -> unbounded T = false -> False.
Proof.
  intros l s e G O UB. inversion G as [|l' W' E'|l' m b W' G' S' C' U']; [rewrite <- E', O in UB|rewrite O in U']; discriminate.
Qed.
(** At the end there is no type. *)
Lemma next_end : forall s, good s -> unbounded T = false -> pending s = [] -> next s = Done (None, []).
Proof.
  induction s as [|l s IH]; intros G UB P; [reflexivity|]. simpl in P.
  pose proof (good_wf _ _ G) as W. pose proof (good_below _ _ G) as GB. apply app_eq_nil in P. destruct P as [R P].
  rewrite <- (IH GB UB P). unfold remaining in R. unfold wf_layer in W. cbn [next]. destruct (lobj l) as [n|fs|fs|n e|u] eqn:O; try contradiction.
  - apply under_nil in R. rewrite (proj1 (struct_rest _ _ W R)). reflexivity.
  - destruct W as [_ (f & I & U)].
    destruct (takes_part (lpos l) (skipn (lpos l) fs)) as [|y q] eqn:Y; [elim (takes_part_some _ _ _ I U Y)|].
    destruct (skip_unnamed_at _ _ _ _ Y) as (pos & g & -> & _). destruct (linit l); [discriminate|reflexivity].
  - apply under_nil in R. assert (L : bound N n - advance l = 0) by (destruct (bound N n - advance l); [reflexivity|discriminate]).
    assert (F : is_array_finished n (advance l) = true).
    { destruct n as [n|]; simpl in *.
      - destruct n; [destruct W; congruence|]. apply andb_true_iff. split; [apply Nat.leb_le; lia|reflexivity].
      - exfalso. eapply unbounded_base; eassumption. }
    rewrite F. reflexivity.
Qed.

(** ** next_recursive *)

Lemma tidy_aggregate : forall t, tidy anon t -> aggregate t = is_aggregate t.
Proof. intros t H. inversion H; subst; simpl; try reflexivity. assumption. Qed.

Lemma push_ok : forall t l s, tidy anon t -> aggregate t = true -> good (l :: s) -> settled l -> cur (l :: s) = Some t ->
  good (push_layer t (l :: s)) /\ pending (push_layer t (l :: s)) = under (spine (l :: s)) (members N t) ++ pending (l :: s).
Proof.
  intros t l s Ti A G S C. assert (E : push_layer t (l :: s) = {| lobj := t; linit := true; lpos := 0 |} :: l :: s).
  { inversion Ti; subst; try reflexivity.
    - destruct fs; reflexivity.
    - destruct fs; [contradiction|reflexivity]. }
  rewrite E. split.
  - apply G_push; [|exact G|exact S|exact C|].
    + unfold wf_layer. simpl. inversion Ti; subst; simpl in A; try congruence; try discriminate.
      * split; [exact Ti|]. exists f. auto.
      * split; [assumption|discriminate].
    + inversion Ti; reflexivity.
  - cbn [pending]. f_equal. unfold remaining. simpl lobj. inversion Ti; subst; simpl in A; try congruence; try discriminate; try reflexivity.
Qed.

Lemma next_recursive_ok : forall stop n w x w', finds N (fun t => stop t || negb (aggregate t)) n w x w' ->
  forall s, good s -> pending s = w -> exists f0 l below, (forall f, f0 <= f -> next_recursive f stop s = Done (Some (snd x), l :: below)) /\
    good (l :: below) /\ settled l /\ cur (l :: below) = Some (snd x) /\ spine (l :: below) = fst x /\ pending (l :: below) = w'.
Proof.
  intros stop. induction 1 as [n p t w K|n p t w x w' K A F IH]; intros s G P.
  - destruct (next_ok _ _ _ _ G P) as (l & below & E & B). exists 1, l, below. split; [|exact B].
    intros f Hf. destruct f; [lia|]. cbn [next_recursive]. rewrite E. cbn [bind snd].
    destruct B as (B & _ & C & _). rewrite <- (tidy_aggregate t) by (eapply cur_tidy; eassumption).
    destruct (aggregate t); [|reflexivity]. rewrite orb_false_r in K. rewrite K. reflexivity.
  - destruct (next_ok _ _ _ _ G P) as (l & below & E & G' & S & C & Sp & P').
    assert (Ti : tidy anon t) by (eapply cur_tidy; eassumption).
    destruct (push_ok _ _ _ Ti A G' S C) as [G2 P2]. rewrite P', Sp in P2.
    destruct (IH _ G2 P2) as (f0 & m & b & H & B). exists (Datatypes.S f0), m, b. split; [|exact B].
    intros f Hf. destruct f; [lia|]. cbn [next_recursive]. rewrite E. cbn [bind].
    rewrite <- (tidy_aggregate t Ti), A. rewrite A, orb_false_r in K. rewrite K. apply H. lia.
Qed.

(** ** empty *)

Lemma empty_ok : forall s, good s -> pending s <> [] -> empty s = false.
Proof.
  induction s as [|l s IH]; intros G P; [contradiction|]. simpl in *.
  pose proof (good_wf _ _ G) as W. pose proof (good_below _ _ G) as GB.
  destruct (remaining l (spine s)) as [|x r] eqn:R.
  { rewrite IH by assumption. apply andb_false_r. }
  apply andb_false_iff. left. clear IH P. unfold remaining in R. unfold layer_empty, wf_layer, advance in *.
  destruct (lobj l) as [n|fs|fs|n e|u] eqn:O; try contradiction.
  - apply under_cons in R. destruct R as (y & q & R & _). destruct (skip_unnamed_at _ _ _ _ R) as (pos & g & _ & L & Ng & _).
    assert (Lp : pos < List.length fs) by (apply nth_error_Some; congruence).
    destruct (linit l); simpl; rewrite ?andb_true_l, ?andb_false_l; apply orb_false_iff; split; try reflexivity; apply Nat.leb_gt; lia.
  - destruct (linit l); [|discriminate]. rewrite orb_false_r. apply Nat.leb_gt.
    destruct W as [_ (f & I & _)]. destruct (le_lt_dec (List.length fs) (lpos l)) as [L|L]; [|exact L].
    rewrite skipn_all2 in I by exact L. contradiction.
  - apply under_cons in R. destruct R as (y & q & R & _).
    destruct n as [n|]; [|simpl; rewrite andb_false_r; reflexivity]. simpl in *.
    destruct (linit l); simpl; [destruct (n - lpos l) eqn:Q|destruct (n - S (lpos l)) eqn:Q]; try discriminate;
      repeat (apply orb_false_iff; split); try reflexivity; apply andb_false_iff; left; apply Nat.leb_gt; lia.
Qed.
Lemma empty_end : forall s, good s -> unbounded T = false -> pending s = [] -> empty s = true.
Proof.
  induction s as [|l s IH]; intros G UB P; [reflexivity|]. simpl in *.
  pose proof (good_wf _ _ G) as W. pose proof (good_below _ _ G) as GB. apply app_eq_nil in P. destruct P as [R P].
  rewrite (IH GB UB P), andb_true_r. unfold remaining in R. unfold layer_empty, wf_layer, advance in *.
  destruct (lobj l) as [n|fs|fs|n e|u] eqn:O; try contradiction.
  - apply under_nil in R. destruct (struct_rest _ _ W R) as [_ L]. apply orb_true_iff.
    destruct (linit l); [left|right]; simpl; apply Nat.leb_le; exact L.
  - apply orb_true_iff. right. destruct (linit l) eqn:I; [|reflexivity]. destruct W as [_ (f & J & U)].
    destruct (takes_part (lpos l) (skipn (lpos l) fs)) eqn:Y; [elim (takes_part_some _ _ _ J U Y)|discriminate].
  - apply under_nil in R. destruct n as [n|].
    + cbn [bound is_array_finished] in *. destruct n; [destruct W; congruence|]. apply orb_true_iff.
      destruct (linit l); [left; destruct (S n - lpos l) eqn:Q|right; destruct (S n - S (lpos l)) eqn:Q]; try discriminate;
        cbn [negb andb]; apply andb_true_iff; split; try reflexivity; apply Nat.leb_le; lia.
    + exfalso. eapply unbounded_base; eassumption.
Qed.
End Trav.

(** ** Designators *)

Section Des.
Variable N : nat.
Variable T : ty.
Hypothesis HT : tidy_object false T.
Notation good := (good N false T).
Notation settled := (settled N).
Notation pending := (pending N).

Lemma tidy_named : forall fs, tidy_fields false fs -> forall f, In f fs -> unnamed f = false -> exists s, fname f = Some s.
Proof.
  induction 1 as [|f l Ti Sc Nm _ IH]; intros x I U; [destruct I|]. destruct I as [<-|I]; [|auto].
  destruct (Nm eq_refl U) as (s & E & _). eauto.
Qed.

(** The designator of the layer names the subobject. *)
Lemma designator_ok : forall s l t, good (l :: s) -> settled l -> cur (l :: s) = Some t ->
  at_path N T (spine (l :: s)) (layer_designator (l :: s)) t.
Proof.
  induction s as [|m s IH]; intros l t G S C.
  - inversion G as [|l' W E|]; subst. destruct S as [_ S]. unfold wf_layer in W. simpl in *.
    pose proof (At_root N (lobj l)) as R. destruct (lobj l) as [n|fs|fs|n e|u]; try contradiction.
    + destruct S as (f & Nf & U). rewrite Nf in *. injection C as <-.
      destruct (tidy_struct_inv _ _ W) as (_ & _ & _ & _ & Tf).
      destruct (tidy_named _ Tf f (nth_error_In _ _ Nf) U) as (nm & Fn). rewrite Fn. destruct f as [x b u]. simpl in *. subst x.
      eapply At_struct; [exact R|exact Nf].
    + destruct S as (f & Nf & U). rewrite Nf in *. injection C as <-.
      destruct (tidy_union_inv _ _ (proj1 W)) as (_ & Tf & _).
      destruct (tidy_named _ Tf f (nth_error_In _ _ Nf) U) as (nm & Fn). rewrite Fn. destruct f as [x b u]. simpl in *. subst x.
      eapply At_union; [exact R|exact Nf].
    + injection C as <-. eapply At_index; [exact R|exact S].
  - inversion G as [| |l' m' b W G' S' C' U']; subst. pose proof (IH _ _ G' S' C') as R. destruct S as [_ S]. unfold wf_layer in W.
    cbn [cur] in C. cbn [spine] in *.
    change (layer_designator (l :: m :: s)) with (match lobj l with
      | Struct fs | Union fs => match nth_error fs (lpos l) with
          | Some f => match fname f with Some n => DMember n :: layer_designator (m :: s) | None => [] end | None => [] end
      | Array _ _ => DIndex (lpos l) :: layer_designator (m :: s)
      | _ => [] end). destruct (lobj l) as [n|fs|fs|n e|u]; try contradiction.
    + destruct S as (f & Nf & U). rewrite Nf in *. injection C as <-.
      destruct (tidy_struct_inv _ _ W) as (_ & _ & _ & _ & Tf).
      destruct (tidy_named _ Tf f (nth_error_In _ _ Nf) U) as (nm & Fn). rewrite Fn. destruct f as [x b u]. simpl in *. subst x.
      eapply At_struct; [exact R|exact Nf].
    + destruct S as (f & Nf & U). rewrite Nf in *. injection C as <-.
      destruct (tidy_union_inv _ _ (proj1 W)) as (_ & Tf & _).
      destruct (tidy_named _ Tf f (nth_error_In _ _ Nf) U) as (nm & Fn). rewrite Fn. destruct f as [x b u]. simpl in *. subst x.
      eapply At_union; [exact R|exact Nf].
    + injection C as <-. eapply At_index; [exact R|exact S].
Qed.

Lemma at_path_fun : forall p d t, at_path N T p d t -> forall d' t', at_path N T p d' t' -> d = d' /\ t = t'.
Proof.
  induction 1 as [|p d fs i s b u A IH E|p d fs i s b u A IH E|p d n e i A IH L]; intros d' t' B.
  - inversion B; auto.
  - inversion B as [|p1 d1 fs1 i1 s1 b1 u1 A1 E1|p1 d1 fs1 i1 s1 b1 u1 A1 E1|p1 d1 n1 e1 i1 A1 L1]; subst;
      destruct (IH _ _ A1) as [-> Q]; try discriminate. injection Q as <-. rewrite E in E1. injection E1 as <- <- <-. auto.
  - inversion B as [|p1 d1 fs1 i1 s1 b1 u1 A1 E1|p1 d1 fs1 i1 s1 b1 u1 A1 E1|p1 d1 n1 e1 i1 A1 L1]; subst;
      destruct (IH _ _ A1) as [-> Q]; try discriminate. injection Q as <-. rewrite E in E1. injection E1 as <- <- <-. auto.
  - inversion B as [|p1 d1 fs1 i1 s1 b1 u1 A1 E1|p1 d1 fs1 i1 s1 b1 u1 A1 E1|p1 d1 n1 e1 i1 A1 L1]; subst;
      destruct (IH _ _ A1) as [-> Q]; try discriminate. injection Q as <- <-. auto.
Qed.

(** The member is found. *)
Definition moved (l : layer) (below : stack) (push struct : bool) (i : nat) (u : ty) : stack :=
  if push then push_layer u (at_ l i :: below)
  else if struct then match i with 0 => {| lobj := lobj l; linit := true; lpos := 0 |} :: below | S j => at_ l j :: below end
  else {| lobj := lobj l; linit := true; lpos := i |} :: below.
Lemma distinct_head : forall f l s i b u, (unnamed f = false -> exists s', fname f = Some s' /\ forall g, In g l -> fname g <> Some s') ->
  nth_error l i = Some (Field (Some s) b u) -> forall n, fname f = Some n -> String.eqb s n = false.
Proof.
  intros f l s i b u H E n F. destruct (String.eqb s n) eqn:Q; [|reflexivity]. apply String.eqb_eq in Q. subst n.
  destruct H as (s' & F' & D); [unfold unnamed; rewrite F; reflexivity|]. rewrite F in F'. injection F' as <-.
  elim (D _ (nth_error_In _ _ E)). reflexivity.
Qed.
Lemma struct_loop_ok : forall rec l below s push fs, tidy_fields false fs -> forall i b u k, nth_error fs i = Some (Field (Some s) b u) ->
  struct_loop rec l below s push fs k = Done (moved l below push true (k + i) u).
Proof.
  intros rec l below s push. induction 1 as [|f fs Ti Sc Nm Tf IH]; intros i b u k E; [destruct i; discriminate|].
  destruct i as [|i].
  - simpl in E. injection E as ->. simpl. rewrite String.eqb_refl, Nat.add_0_r. unfold moved. destruct push; [reflexivity|].
    destruct k; reflexivity.
  - simpl in E. simpl. replace (k + S i) with (S k + i) by lia. pose proof (distinct_head f fs s i b u (Nm eq_refl) E) as D.
    destruct (fname f) as [n|] eqn:F.
    + rewrite (D n eq_refl). eapply IH; exact E.
    + assert (U : unnamed f = true).
      { destruct (unnamed f) eqn:U; [reflexivity|]. destruct (Nm eq_refl eq_refl) as (s' & F' & _). congruence. }
      rewrite (Sc U). eapply IH; exact E.
Qed.
Lemma union_loop_ok : forall rec l below s push fs, tidy_fields false fs -> (forall g, In g fs -> unnamed g = false) ->
  forall i b u k, nth_error fs i = Some (Field (Some s) b u) ->
  union_loop rec l below s push fs k = Done (moved l below push false (k + i) u).
Proof.
  intros rec l below s push. induction 1 as [|f fs Ti Sc Nm Tf IH]; intros NU i b u k E; [destruct i; discriminate|].
  destruct i as [|i].
  - simpl in E. injection E as ->. simpl. rewrite String.eqb_refl, Nat.add_0_r. unfold moved. destruct push; reflexivity.
  - simpl in E. simpl. replace (k + S i) with (S k + i) by lia. pose proof (distinct_head f fs s i b u (Nm eq_refl) E) as D.
    destruct (fname f) as [n|] eqn:F.
    + rewrite (D n eq_refl). eapply IH; [|exact E]. intros g I. apply NU. right. exact I.
    + destruct (Nm eq_refl (NU f (or_introl eq_refl))) as (s' & F' & _). congruence.
Qed.

Lemma filter_takes : forall fs i k, filter (fun x : nat * ty => k + i <? fst x) (takes_part k fs) = takes_part (S (k + i)) (skipn (S i) fs).
Proof.
  induction fs as [|f fs IH]; intros i k; [reflexivity|]. 
  assert (H : filter (fun x : nat * ty => k + i <? fst x) (takes_part (S k) fs) = takes_part (S (k + i)) (skipn (S i) (f :: fs))).
  { destruct i as [|i].
    - change (skipn 1 (f :: fs)) with fs. replace (k + 0) with k by lia. clear.
      assert (G : forall l j, k < j -> filter (fun x : nat * ty => k <? fst x) (takes_part j l) = takes_part j l).
      { induction l as [|g l IH]; intros j H; [reflexivity|]. simpl. destruct (unnamed g); [apply IH; lia|]. simpl.
        rewrite (proj2 (Nat.ltb_lt k j) H), IH by lia. reflexivity. }
      apply G. lia.
    - specialize (IH i (S k)). replace (S k + i) with (k + S i) in IH by lia. rewrite IH. reflexivity. }
  simpl takes_part. destruct (unnamed f); [exact H|]. cbn [filter fst]. destruct (k + i <? k) eqn:L; [apply Nat.ltb_lt in L; lia|exact H].
Qed.
Lemma filter_seq : forall e i b k, filter (fun x : nat * ty => k + i <? fst x) (map (fun i => (i, e)) (seq k b)) =
  map (fun i => (i, e)) (seq (S (k + i)) (b - S i)).
Proof.
  intros e i b. revert i. induction b as [|b IH]; intros i k; [reflexivity|]. simpl. destruct (k + i <? k) eqn:L; [apply Nat.ltb_lt in L; lia|].
  destruct i as [|i].
  - rewrite Nat.add_0_r, Nat.sub_0_r. clear. assert (G : forall n j, k < j -> filter (fun x : nat * ty => k <? fst x) (map (fun i => (i, e)) (seq j n)) = map (fun i => (i, e)) (seq j n)).
    { induction n as [|n IH]; intros j H; [reflexivity|]. simpl. rewrite (proj2 (Nat.ltb_lt k j) H), IH by lia. reflexivity. }
    apply G. lia.
  - specialize (IH i (S k)). replace (S k + i) with (k + S i) in IH by lia. exact IH.
Qed.

Lemma takes_at : forall fs i f, nth_error fs i = Some f -> unnamed f = false ->
  takes_part i (skipn i fs) = (i, ftype f) :: takes_part (S i) (skipn (S i) fs).
Proof. intros fs i f E U. rewrite (skipn_cons _ _ _ _ E). simpl takes_part at 1. rewrite U. reflexivity. Qed.

Lemma at_path_tidy : forall p d u, at_path N T p d u -> p = [] \/ tidy false u.
Proof.
  induction 1 as [|p d fs i s b u A IH E|p d fs i s b u A IH E|p d n e i A IH L]; [left; reflexivity| | |]; right.
  - assert (H : tidy false (Struct fs)).
    { destruct IH as [->|H]; [|exact H]. inversion A; subst. inversion HT; subst. assumption. }
    destruct (tidy_struct_inv _ _ H) as (_ & _ & _ & _ & Tf). exact (tidy_in _ _ Tf _ (nth_error_In _ _ E)).
  - assert (H : tidy false (Union fs)).
    { destruct IH as [->|H]; [|exact H]. inversion A; subst. inversion HT; subst. assumption. }
    destruct (tidy_union_inv _ _ H) as (_ & Tf & _). exact (tidy_in _ _ Tf _ (nth_error_In _ _ E)).
  - destruct IH as [->|H].
    + inversion A; subst. inversion HT as [t Ht|]; subst; [inversion Ht; assumption|assumption].
    + inversion H; assumption.
Qed.
Lemma at_path_struct : forall p d fs, at_path N T p d (Struct fs) -> tidy false (Struct fs).
Proof. intros p d fs A. destruct (at_path_tidy _ _ _ A) as [->|H]; [|exact H]. inversion A; subst. inversion HT; subst. assumption. Qed.
Lemma at_path_union : forall p d fs, at_path N T p d (Union fs) -> tidy false (Union fs).
Proof. intros p d fs A. destruct (at_path_tidy _ _ _ A) as [->|H]; [|exact H]. inversion A; subst. inversion HT; subst. assumption. Qed.
Lemma at_path_array : forall p d n e, at_path N T p d (Array n e) -> tidy false e /\ n <> Some 0.
Proof.
  intros p d n e A. destruct (at_path_tidy _ _ _ A) as [->|H].
  - inversion A; subst. inversion HT as [t Ht|]; subst; [inversion Ht; subst; split; [assumption|discriminate]|split; [assumption|discriminate]].
  - inversion H; subst. split; [assumption|discriminate].
Qed.
Lemma rest_after_fun : forall p w, rest_after N T p w -> forall w', rest_after N T p w' -> w = w'.
Proof.
  induction 1 as [|i p d u w A R IH]; intros w' R'; inversion R'; subst; [reflexivity|].
  match goal with H : at_path N T p _ ?v |- _ => destruct (at_path_fun _ _ _ A _ _ H) as [_ <-] end.
  f_equal. apply IH. assumption.
Qed.

(** One designator, applied to a layer that has just begun. *)
Definition fresh (v : ty) : layer := {| lobj := v; linit := true; lpos := 0 |}.
Definition one (f : nat) (s : stack) (x : designator) (push : bool) : res stack :=
  match x with DMember m => navigate_member f s m push | DIndex i => navigate_index s i push end.
Lemma one_ok : forall below x i p d u v w, good (fresh v :: below) -> spine below = p -> pending below = w ->
  at_path N T p d v -> at_path N T (i :: p) (x :: d) u ->
  ((forall f, one (S f) (fresh v :: below) x true = Done (push_layer u (at_ (fresh v) i :: below))) /\
   good (at_ (fresh v) i :: below) /\ settled (at_ (fresh v) i) /\ cur (at_ (fresh v) i :: below) = Some u /\
   pending (at_ (fresh v) i :: below) = under p (filter (fun x => i <? fst x) (members N v)) ++ w) /\
  exists s, (forall f, one (S f) (fresh v :: below) x false = Done s) /\ good s /\
    pending s = (i :: p, u) :: under p (filter (fun x => i <? fst x) (members N v)) ++ w.
Proof.
  intros below x i p d u v w G Sp P Av Au. pose proof (good_wf _ _ _ _ _ G) as W. unfold wf_layer in W. cbn [lobj fresh lpos] in W.
  inversion Au as [|p1 d1 fs i1 s b u1 A1 E1|p1 d1 fs i1 s b u1 A1 E1|p1 d1 n e i1 A1 L1]; subst;
    destruct (at_path_fun _ _ _ Av _ _ A1) as [_ ->].
  - pose proof (at_path_struct _ _ _ A1) as Ti. destruct (tidy_struct_inv _ _ Ti) as (_ & _ & _ & _ & Tf).
    assert (Un : unnamed (Field (Some s) b u) = false) by reflexivity.
    pose proof (filter_takes fs i 0) as F. simpl in F. split.
    + split; [|split; [|split; [|split]]].
      * intro f. cbn [one navigate_member fresh lobj]. rewrite (struct_loop_ok _ _ _ _ _ _ Tf _ _ _ 0 E1). reflexivity.
      * eapply good_move; [exact G|reflexivity|]. exact W.
      * split; [reflexivity|]. simpl. eauto.
      * simpl. rewrite E1. reflexivity.
      * simpl. rewrite F. reflexivity.
    + eexists. split; [intro f; cbn [one navigate_member fresh lobj]; rewrite (struct_loop_ok _ _ _ _ _ _ Tf _ _ _ 0 E1); reflexivity|].
      split.
      * unfold moved. simpl. destruct i; (eapply good_move; [exact G|reflexivity|exact W]).
      * simpl members. rewrite F. pose proof (takes_at _ _ _ E1 Un) as Ta. unfold moved. simpl Nat.add. destruct i as [|i].
        -- cbn [TravProofs.pending]. unfold remaining. cbn [lobj fresh advance linit lpos]. rewrite Ta. reflexivity.
        -- cbn [TravProofs.pending]. unfold remaining. cbn [lobj at_ fresh advance linit lpos]. rewrite Ta. reflexivity.
  - pose proof (at_path_union _ _ _ A1) as Ti. destruct (tidy_union_inv _ _ Ti) as (_ & Tf & NU). specialize (NU eq_refl).
    assert (Un : unnamed (Field (Some s) b u) = false) by reflexivity.
    assert (F : filter (fun x : nat * ty => i <? fst x) (firstn 1 (takes_part 0 fs)) = []).
    { destruct fs as [|f0 fs]; [reflexivity|]. simpl. rewrite (NU f0 (or_introl eq_refl)). reflexivity. }
    split.
    + split; [|split; [|split; [|split]]].
      * intro f. cbn [one navigate_member fresh lobj]. rewrite (union_loop_ok _ _ _ _ _ _ Tf NU _ _ _ 0 E1). reflexivity.
      * eapply good_move; [exact G|reflexivity|]. unfold wf_layer. simpl. split; [exact Ti|].
        exists (Field (Some s) b u). split; [eapply in_skipn; [exact E1|reflexivity]|reflexivity].
      * split; [reflexivity|]. simpl. eauto.
      * simpl. rewrite E1. reflexivity.
      * cbn [members]. rewrite F. reflexivity.
    + eexists. split; [intro f; cbn [one navigate_member fresh lobj]; rewrite (union_loop_ok _ _ _ _ _ _ Tf NU _ _ _ 0 E1); reflexivity|].
      split.
      * unfold moved. simpl. eapply good_move; [exact G|reflexivity|]. unfold wf_layer. simpl. split; [exact Ti|].
        exists (Field (Some s) b u). split; [eapply in_skipn; [exact E1|reflexivity]|reflexivity].
      * cbn [members]. rewrite F. pose proof (takes_at _ _ _ E1 Un) as Ta. unfold moved. simpl. unfold remaining. simpl lobj. cbn [lpos linit].
        rewrite Ta. reflexivity.
  - destruct (at_path_array _ _ _ _ A1) as [Te Nz]. pose proof (filter_seq u i (bound N n) 0) as F. simpl in F.
    assert (B : match n with Some n => n <=? i | None => false end = false).
    { destruct n; [|reflexivity]. apply Nat.leb_gt. exact L1. }
    split.
    + split; [|split; [|split; [|split]]].
      * intro f. cbn [one navigate_index fresh lobj]. rewrite B. reflexivity.
      * eapply good_move; [exact G|reflexivity|]. exact W.
      * split; [reflexivity|]. exact L1.
      * reflexivity.
      * simpl. rewrite F. reflexivity.
    + cbn [members]. rewrite F. destruct i as [|i].
      * eexists. split; [intro f; cbn [one navigate_index fresh lobj]; rewrite B; reflexivity|].
        split; [eapply good_move; [exact G|reflexivity|exact W]|].
        cbn [TravProofs.pending]. unfold remaining. cbn [lobj advance linit lpos fresh].
        destruct (bound N n) as [|k]; [lia|]. cbn [Nat.sub seq map under]. rewrite Nat.sub_0_r. reflexivity.
      * eexists. split; [intro f; cbn [one navigate_index fresh lobj]; rewrite B; reflexivity|].
        split; [eapply good_move; [exact G|reflexivity|exact W]|].
        cbn [TravProofs.pending]. unfold remaining. cbn [lobj advance linit lpos fresh at_].
        destruct (bound N n - S i) as [|k] eqn:Q; [lia|]. replace (bound N n - S (S i)) with k by lia. reflexivity.
Qed.

Lemma base_ok : aggregate T = true -> push_layer T [] = [fresh T] /\ good [fresh T] /\ pending [fresh T] = under [] (members N T).
Proof.
  intro A. inversion HT as [t Ti|e Ti]; subst.
  - assert (E : push_layer T [] = [fresh T]).
    { inversion Ti; subst; try reflexivity; destruct fs; try reflexivity; contradiction. }
    split; [exact E|]. split.
    + apply G_base; [|reflexivity]. unfold wf_layer. simpl. inversion Ti; subst; simpl in A; try congruence; try discriminate.
      * split; [exact Ti|]. exists f. auto.
      * split; [assumption|discriminate].
    + simpl. rewrite app_nil_r. unfold remaining. simpl lobj. inversion Ti; subst; simpl in A; try congruence; try discriminate; try reflexivity.
  - split; [reflexivity|]. split.
    + apply G_base; [|reflexivity]. unfold wf_layer. simpl. split; [assumption|discriminate].
    + simpl. rewrite app_nil_r. unfold remaining. simpl. rewrite Nat.sub_0_r. reflexivity.
Qed.

Lemma navigate_push : forall p d u, at_path N T p d u -> is_aggregate u = true -> aggregate T = true -> forall w, rest_after N T p w ->
  exists below, (forall f, navigate_impl (S f) (push_layer T []) d true = Done (fresh u :: below)) /\ good (fresh u :: below) /\
    spine below = p /\ pending below = w.
Proof.
  intros p. induction p as [|i p IH]; intros d u A Ag AT w R.
  - assert (Q : d = [] /\ u = T /\ w = []) by (split; [inversion A; reflexivity|split; [inversion A; reflexivity|inversion R; reflexivity]]).
    destruct Q as (-> & -> & ->). destruct (base_ok AT) as (E & G & P). exists []. rewrite E. repeat split; [exact G].
  - inversion R as [|i1 p1 d1 v w1 Av R1]; subst.
    assert (D : exists x, d = x :: d1).
    { inversion A; subst; match goal with H : at_path N T p _ _ |- _ => destruct (at_path_fun _ _ _ Av _ _ H) as [-> _] end; eauto. }
    destruct D as [x ->].
    assert (Agv : is_aggregate v = true).
    { inversion A; subst; match goal with H : at_path N T p _ _ |- _ => destruct (at_path_fun _ _ _ Av _ _ H) as [_ ->] end; reflexivity. }
    destruct (IH _ _ Av Agv AT _ R1) as (below & E & G & Sp & P).
    destruct (one_ok below x i p d1 u v w1 G Sp P Av A) as [(E1 & G1 & S1 & C1 & P1) _].
    exists (at_ (fresh v) i :: below).
    assert (Tu : tidy false u) by (destruct (at_path_tidy _ _ _ A) as [H|H]; [discriminate|exact H]).
    assert (Eu : push_layer u (at_ (fresh v) i :: below) = fresh u :: at_ (fresh v) i :: below).
    { inversion Tu; subst; try reflexivity; destruct fs; try reflexivity; contradiction. }
    split; [intro f; cbn [navigate_impl]; rewrite E; cbn [bind]; fold (one (S f) (fresh v :: below) x true); rewrite E1, Eu; reflexivity|]. split; [|split; [simpl; congruence|exact P1]]. rewrite <- Eu.
    eapply push_ok; [exact Tu| |exact G1|exact S1|exact C1]. rewrite (tidy_aggregate _ _ Tu). exact Ag.
Qed.

Lemma navigate_ok : forall p d u, at_path N T p d u -> d <> [] -> aggregate T = true -> forall w, rest_after N T p w ->
  exists s, (forall f, navigate (S f) T d = Done s) /\ good s /\ pending s = (p, u) :: w.
Proof.
  intros p d u A Nd AT w R. destruct p as [|i p]; [inversion A; subst; contradiction|].
  inversion R as [|i1 p1 d1 v w1 Av R1]; subst.
  assert (D : exists x, d = x :: d1).
  { inversion A; subst; match goal with H : at_path N T p _ _ |- _ => destruct (at_path_fun _ _ _ Av _ _ H) as [-> _] end; eauto. }
  destruct D as [x ->].
  assert (Agv : is_aggregate v = true).
  { inversion A; subst; match goal with H : at_path N T p _ _ |- _ => destruct (at_path_fun _ _ _ Av _ _ H) as [_ ->] end; reflexivity. }
  destruct (navigate_push _ _ _ Av Agv AT _ R1) as (below & E & G & Sp & P).
  destruct (one_ok below x i p d1 u v w1 G Sp P Av A) as [_ (s & E1 & G1 & P1)].
  exists s. split; [|split; [exact G1|exact P1]]. intro f. unfold navigate. cbn [navigate_impl]. rewrite E. apply E1.
Qed.
End Des.
