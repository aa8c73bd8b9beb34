(** * Simulation between the analyzer's tables and the standard's entities *)

From Coq Require Import List Bool Arith Lia.
From Verif Require Import LinkageModel LinkageSpec.
Import ListNotations.

Section Proofs.
Variable L : lang.
Notation ty := (ty L).
Notation ini := (ini L).
Notation sid := (sid L).
Notation cstate := (cstate L).
Notation sstate := (sstate L).
Notation linked := (linked L).
Notation own := (own L).
Notation decl := (decl L).

(** What is asked of the types: an array is no pointer, and a variable length array is variably modified. *)
Record lang_ok : Prop := LangOk {
  ok_vla : forall t, vla L t = true -> vm L t = true /\ is_ptr L t = false;
  ok_same : forall a b, same L a b = true -> a = b
}.

(** *** Lists *)

Lemma set_nth_length {A} n (v : A) l : length (set_nth n v l) = length l.
Proof. revert n. induction l; intros [|n]; cbn; auto. Qed.

Lemma set_nth_same {A} n (v : A) l : n < length l -> nth_error (set_nth n v l) n = Some v.
Proof. revert n. induction l; intros [|n] H; cbn in *; try lia; auto. apply IHl. lia. Qed.

Lemma set_nth_other {A} n m (v : A) l : n <> m -> nth_error (set_nth n v l) m = nth_error l m.
Proof. revert n m. induction l; intros [|n] [|m] H; cbn; try lia; auto. Qed.

Lemma nth_app_last {A} (l : list A) v : nth_error (l ++ [v]) (length l) = Some v.
Proof. rewrite nth_error_app2 by lia. rewrite Nat.sub_diag. reflexivity. Qed.

Lemma nth_app_old {A} (l l' : list A) n v : nth_error l n = Some v -> nth_error (l ++ l') n = Some v.
Proof. intros H. rewrite nth_error_app1; [exact H|]. apply nth_error_Some. congruence. Qed.

Lemma nth_app_inv {A} (l : list A) w n v :
  nth_error (l ++ [w]) n = Some v -> nth_error l n = Some v \/ n = length l /\ v = w.
Proof.
  intros H. destruct (lt_eq_lt_dec n (length l)) as [[G|G]|G].
  - left. rewrite nth_error_app1 in H; auto.
  - right. subst. rewrite nth_app_last in H. split; congruence.
  - exfalso. assert (nth_error (l ++ [w]) n <> None) as N by congruence. apply nth_error_Some in N.
    rewrite app_length in N. cbn in N. lia.
Qed.

Lemma NoDup_nth {A} (l : list A) i j v : NoDup l -> nth_error l i = Some v -> nth_error l j = Some v -> i = j.
Proof.
  intros N I J. eapply NoDup_nth_error; [exact N| |congruence]. apply nth_error_Some. congruence.
Qed.

Lemma NoDup_app_one {A} (l : list A) v : NoDup l -> ~ In v l -> NoDup (l ++ [v]).
Proof.
  intros N I. induction N as [|h l H N IH]; cbn.
  - constructor; [tauto|constructor].
  - constructor.
    + rewrite in_app_iff. cbn. intros [Q|[Q|[]]]; [tauto|]. subst. apply I. left. reflexivity.
    + apply IH. intros Q. apply I. right. exact Q.
Qed.

(** *** The invariant *)

Definition declared_only (st : status L) : bool := match st with Declared _ => true | _ => false end.
Definition value (st : status L) : option ini := match st with Defined _ i => i | _ => None end.
Definition outer (k : linked) : bool := negb (l_internal L k) && declared_only (l_status L k).

Definition obj_sid (k : linked) : sid :=
  SObj L (l_type L k) (if l_internal L k then stat_storage (l_thread L k) else ext_storage (l_thread L k))
    (linkage_of L k) (outer k) (value (l_status L k)).
Definition fun_sid (k : linked) (inl : bool) : sid :=
  SFun L (l_type L k) (if l_internal L k then StStatic else StExtern) inl (outer k) (is_definition L (l_status L k)).
Definition linked_sid (k : linked) (v : sid) : Prop :=
  if l_fun L k then (exists inl, v = fun_sid k inl) /\ l_thread L k = false /\ value (l_status L k) = None
  else v = obj_sid k.

Definition duration_of (st : storage) : duration :=
  match st with
  | StExtern | StStatic => Static
  | StExternThread | StStaticThread => Thread
  | StAuto | StRegister => Automatic
  end.
Definition own_sid (o : own) (v : sid) : Prop :=
  match o with
  | OwnObject _ t d => exists st i, v = SObj L t st LNone false i /\ duration_of st = d
  | OwnType _ t => v = STypedef L t
  | OwnConst _ => v = SConst L
  end.

Definition holds (kn : name -> option linked) (ow : list own) (e : entity) (v : sid) : Prop :=
  match e with
  | Linked x => exists k, kn x = Some k /\ linked_sid k v
  | Own n => exists o, nth_error ow n = Some o /\ own_sid o v
  end.

Record tables (h : list sid) (ob fu : scope) (kn : name -> option linked) (ow : list own) (es : list entity) : Prop := {
  t_len : length es = length h;
  t_nodup : NoDup es;
  t_heap : forall a e, nth_error es a = Some e -> exists v, nth_error h a = Some v /\ holds kn ow e v;
  t_obj : forall x a, ob x = Some a <-> nth_error es a = Some (Linked x) /\ exists k, kn x = Some k /\ l_fun L k = false;
  t_fun : forall x a, fu x = Some a <-> nth_error es a = Some (Linked x) /\ exists k, kn x = Some k /\ l_fun L k = true;
  t_known : forall x k, kn x = Some k -> In (Linked x) es
}.

Definition sees (es : list entity) (f : scope) (g : bindings) : Prop :=
  forall x, match f x, g x with
            | None, None => True
            | Some a, Some e => nth_error es a = Some e
            | _, _ => False
            end.
Definition named (g : bindings) : Prop := forall x y, g x = Some (Linked y) -> y = x.

Definition Rf (c : cstate) (s : sstate) (es : list entity) : Prop :=
  tables (heap L c) (objs L c) (funs L c) (known L s) (owns L s) es
  /\ sees es (ord L c) (file L s) /\ named (file L s).
Definition Rb (bs : list scope) (gs : list bindings) (es : list entity) : Prop :=
  Forall2 (sees es) bs gs /\ Forall named gs.
Definition R (c : cstate) (s : sstate) (es : list entity) : Prop :=
  Rf c s es /\ Rb (blocks L c) (scopes L s) es.

Definition extends (es es' : list entity) : Prop := exists l, es' = es ++ l.

Lemma extends_refl es : extends es es.
Proof. exists []. rewrite app_nil_r. reflexivity. Qed.
Lemma extends_one es e : extends es (es ++ [e]).
Proof. exists [e]. reflexivity. Qed.
Lemma extends_trans a b d : extends a b -> extends b d -> extends a d.
Proof. intros [l ->] [m ->]. exists (l ++ m). rewrite app_assoc. reflexivity. Qed.

Lemma sees_extends es es' f g : extends es es' -> sees es f g -> sees es' f g.
Proof.
  intros [l ->] S x. specialize (S x). destruct (f x), (g x); try exact S. apply nth_app_old. exact S.
Qed.

Lemma Rb_extends es es' bs gs : extends es es' -> Rb bs gs es -> Rb bs gs es'.
Proof.
  intros E [F N]. split; [|exact N]. clear N. induction F; constructor; eauto using sees_extends.
Qed.

Lemma sees_put es f g x a e : sees es f g -> nth_error es a = Some e -> sees es (put x a f) (bind_ x e g).
Proof. intros S N y. unfold put, bind_. destruct (Nat.eqb x y); [exact N|apply S]. Qed.

Lemma named_bind g x : named g -> named (bind_ x (Linked x) g).
Proof.
  intros N y z. unfold bind_. destruct (Nat.eqb x y) eqn:E; [|apply N].
  apply Nat.eqb_eq in E. subst. intros H. injection H as <-. reflexivity.
Qed.
Lemma named_bind_own g x n : named g -> named (bind_ x (Own n) g).
Proof. intros N y z. unfold bind_. destruct (Nat.eqb x y) eqn:E; [discriminate|apply N]. Qed.

(** A scope that already shows the entity, seen through [add_ord]. *)
Lemma sees_keep es f g x a e :
  sees es f g -> NoDup es -> nth_error es a = Some e -> (g x = None \/ g x = Some e) ->
  sees es (match f x with Some _ => f | None => put x a f end) (bind_ x e g).
Proof.
  intros S N A G y. pose proof (S x) as Sx. pose proof (S y) as Sy. destruct (f x) as [b|] eqn:F.
  - unfold bind_. destruct (Nat.eqb x y) eqn:E; [|exact Sy]. apply Nat.eqb_eq in E. subst y.
    destruct G as [G|G]; rewrite G in Sx; [contradiction|]. rewrite F. exact Sx.
  - unfold put, bind_. destruct (Nat.eqb x y); [exact A|exact Sy].
Qed.

(** *** Changes of the tables *)

Lemma tables_fresh_own h ob fu kn ow es : tables h ob fu kn ow es -> ~ In (Own (length ow)) es.
Proof.
  intros T I. apply In_nth_error in I. destruct I as [a A]. destruct (t_heap _ _ _ _ _ _ T _ _ A) as (v & _ & o & O & _).
  assert (nth_error ow (length ow) <> None) as Q by congruence. apply nth_error_Some in Q. lia.
Qed.

Lemma tables_fresh_linked h ob fu kn ow es x : tables h ob fu kn ow es -> kn x = None -> ~ In (Linked x) es.
Proof.
  intros T K I. apply In_nth_error in I. destruct I as [a A]. destruct (t_heap _ _ _ _ _ _ T _ _ A) as (v & _ & k & O & _).
  congruence.
Qed.

Lemma tables_new_own h ob fu kn ow es o v :
  tables h ob fu kn ow es -> own_sid o v -> tables (h ++ [v]) ob fu kn (ow ++ [o]) (es ++ [Own (length ow)]).
Proof.
  intros T O. pose proof (tables_fresh_own _ _ _ _ _ _ T) as F. destruct T as [LN ND HP OB FU KN]. split.
  - rewrite !app_length. cbn. lia.
  - apply NoDup_app_one; assumption.
  - intros a e A. apply nth_app_inv in A. destruct A as [A|[-> ->]].
    + destruct (HP _ _ A) as (w & W & H). exists w. split; [apply nth_app_old; exact W|].
      destruct e as [x|n]; cbn in *; [exact H|]. destruct H as (o' & O' & H). exists o'. split; [|exact H].
      apply nth_app_old. exact O'.
    + exists v. rewrite LN, nth_app_last. split; [reflexivity|]. exists o. split; [apply nth_app_last|exact O].
  - intros x a. rewrite OB. split; intros [A K]; (split; [|exact K]).
    + apply nth_app_old. exact A.
    + apply nth_app_inv in A. destruct A as [A|[_ A]]; [exact A|discriminate].
  - intros x a. rewrite FU. split; intros [A K]; (split; [|exact K]).
    + apply nth_app_old. exact A.
    + apply nth_app_inv in A. destruct A as [A|[_ A]]; [exact A|discriminate].
  - intros x k K. apply in_or_app. left. eapply KN, K.
Qed.

Definition know (x : name) (k : linked) (kn : name -> option linked) : name -> option linked :=
  fun y => if Nat.eqb x y then Some k else kn y.

Lemma know_same x k kn : know x k kn x = Some k.
Proof. unfold know. rewrite Nat.eqb_refl. reflexivity. Qed.
Lemma know_other x k kn y : x <> y -> know x k kn y = kn y.
Proof. unfold know. intros H. apply Nat.eqb_neq in H. rewrite H. reflexivity. Qed.

Lemma tables_new_linked h ob fu kn ow es x k v :
  tables h ob fu kn ow es -> kn x = None -> linked_sid k v ->
  tables (h ++ [v]) (if l_fun L k then ob else put x (length h) ob) (if l_fun L k then put x (length h) fu else fu)
    (know x k kn) ow (es ++ [Linked x]).
Proof.
  intros T K O. pose proof (tables_fresh_linked _ _ _ _ _ _ _ T K) as F. destruct T as [LN ND HP OB FU KN].
  assert (forall (f : scope) b, (forall y a, f y = Some a <-> nth_error es a = Some (Linked y) /\ exists k, kn y = Some k /\ l_fun L k = b) ->
          forall y a, (if Bool.eqb (l_fun L k) b then put x (length h) f else f) y = Some a <->
            nth_error (es ++ [Linked x]) a = Some (Linked y) /\ exists k', know x k kn y = Some k' /\ l_fun L k' = b) as G.
  { intros f b Fs y a. destruct (Nat.eq_dec x y) as [<-|NE].
    - rewrite know_same. assert (f x = None) as FN.
      { destruct (f x) as [z|] eqn:Z; [|reflexivity]. apply Fs in Z. destruct Z as (_ & k' & K' & _). congruence. }
      destruct (Bool.eqb (l_fun L k) b) eqn:E.
      + apply eqb_prop in E. unfold put. rewrite Nat.eqb_refl. split.
        * intros Q. injection Q as <-. rewrite <- LN, nth_app_last. split; [reflexivity|]. exists k. split; [reflexivity|exact E].
        * intros [Q _]. apply nth_app_inv in Q. destruct Q as [Q|[Q _]]; [|congruence].
          apply nth_error_In in Q. contradiction.
      + rewrite FN. split; [discriminate|]. intros (_ & k' & Q & W). injection Q as <-. subst b.
        rewrite Bool.eqb_reflx in E. discriminate.
    - rewrite know_other by exact NE. assert ((if Bool.eqb (l_fun L k) b then put x (length h) f else f) y = f y) as ->.
      { destruct (Bool.eqb _ _); [|reflexivity]. unfold put. apply Nat.eqb_neq in NE. rewrite NE. reflexivity. }
      rewrite Fs. split; intros [A Q]; (split; [|exact Q]).
      + apply nth_app_old. exact A.
      + apply nth_app_inv in A. destruct A as [A|[_ A]]; [exact A|congruence]. }
  split.
  - rewrite !app_length. cbn. lia.
  - apply NoDup_app_one; assumption.
  - intros a e A. apply nth_app_inv in A. destruct A as [A|[-> ->]].
    + destruct (HP _ _ A) as (w & W & H). exists w. split; [apply nth_app_old; exact W|].
      destruct e as [y|n]; cbn in *; [|exact H]. destruct H as (k' & K' & H). exists k'. split; [|exact H].
      rewrite know_other; [exact K'|]. intros ->. congruence.
    + exists v. rewrite LN, nth_app_last. split; [reflexivity|]. exists k. split; [apply know_same|exact O].
  - intros y a. specialize (G ob false OB y a). destruct (l_fun L k); exact G.
  - intros y a. specialize (G fu true FU y a). destruct (l_fun L k); exact G.
  - intros y k' Q. apply in_or_app. destruct (Nat.eq_dec x y) as [<-|NE]; [right; left; reflexivity|left].
    rewrite know_other in Q by exact NE. eapply KN, Q.
Qed.

Lemma tables_update h ob fu kn ow es x k k' a v :
  tables h ob fu kn ow es -> kn x = Some k -> nth_error es a = Some (Linked x) -> l_fun L k' = l_fun L k ->
  linked_sid k' v -> tables (set_nth a v h) ob fu (know x k' kn) ow es.
Proof.
  intros T K A FK O. destruct T as [LN ND HP OB FU KN].
  assert (forall (f : scope) b, (forall y a, f y = Some a <-> nth_error es a = Some (Linked y) /\ exists k, kn y = Some k /\ l_fun L k = b) ->
          forall y a, f y = Some a <-> nth_error es a = Some (Linked y) /\ exists k, know x k' kn y = Some k /\ l_fun L k = b) as G.
  { intros f b Fs y z. rewrite Fs. destruct (Nat.eq_dec x y) as [<-|NE].
    - rewrite know_same. split; intros (Z & q & Q & W); (split; [exact Z|]).
      + exists k'. split; [reflexivity|]. congruence.
      + injection Q as <-. exists k. split; [exact K|]. congruence.
    - rewrite know_other by exact NE. reflexivity. }
  assert (a < length h) as AL. { rewrite <- LN. apply nth_error_Some. congruence. }
  split.
  - rewrite set_nth_length. exact LN.
  - exact ND.
  - intros z e Z. destruct (Nat.eq_dec a z) as [<-|NE].
    + exists v. split; [apply set_nth_same; exact AL|]. rewrite A in Z. injection Z as <-. exists k'. split; [apply know_same|exact O].
    + destruct (HP _ _ Z) as (w & W & H). exists w. split; [rewrite set_nth_other by exact NE; exact W|].
      destruct e as [y|n]; cbn in *; [|exact H]. destruct H as (q & Q & H). exists q. split; [|exact H].
      rewrite know_other; [exact Q|]. intros ->. apply NE. eapply NoDup_nth; eassumption.
  - intros y z. apply (G ob false OB).
  - intros y z. apply (G fu true FU).
  - intros y q Q. destruct (Nat.eq_dec x y) as [<-|NE]; [eapply KN, K|]. rewrite know_other in Q by exact NE. eapply KN, Q.
Qed.

(** Looking up. *)
Lemma tables_obj h ob fu kn ow es x k :
  tables h ob fu kn ow es -> kn x = Some k -> l_fun L k = false ->
  exists a, ob x = Some a /\ nth_error es a = Some (Linked x) /\ nth_error h a = Some (obj_sid k).
Proof.
  intros T K F. pose proof (t_known _ _ _ _ _ _ T _ _ K) as I. apply In_nth_error in I. destruct I as [a A].
  exists a. split; [|split; [exact A|]].
  - apply (t_obj _ _ _ _ _ _ T). split; [exact A|]. exists k. split; assumption.
  - destruct (t_heap _ _ _ _ _ _ T _ _ A) as (v & V & q & Q & H). rewrite K in Q. injection Q as <-. unfold linked_sid in H.
    rewrite F in H. subst. exact V.
Qed.
Lemma tables_fun h ob fu kn ow es x k :
  tables h ob fu kn ow es -> kn x = Some k -> l_fun L k = true ->
  exists a inl, fu x = Some a /\ nth_error es a = Some (Linked x) /\ nth_error h a = Some (fun_sid k inl)
    /\ l_thread L k = false /\ value (l_status L k) = None.
Proof.
  intros T K F. pose proof (t_known _ _ _ _ _ _ T _ _ K) as I. apply In_nth_error in I. destruct I as [a A].
  destruct (t_heap _ _ _ _ _ _ T _ _ A) as (v & V & q & Q & H). rewrite K in Q. injection Q as <-. unfold linked_sid in H.
  rewrite F in H. destruct H as ((inl & ->) & TH & VA). exists a, inl. split; [|split; [exact A|split; [exact V|tauto]]].
  apply (t_fun _ _ _ _ _ _ T). split; [exact A|]. exists k. split; assumption.
Qed.
Lemma tables_no_obj h ob fu kn ow es x :
  tables h ob fu kn ow es -> kn x = None -> ob x = None.
Proof.
  intros T K. destruct (ob x) as [a|] eqn:E; [|reflexivity]. apply (t_obj _ _ _ _ _ _ T) in E.
  destruct E as (_ & k & Q & _). congruence.
Qed.
Lemma tables_no_fun h ob fu kn ow es x :
  tables h ob fu kn ow es -> kn x = None -> fu x = None.
Proof.
  intros T K. destruct (fu x) as [a|] eqn:E; [|reflexivity]. apply (t_fun _ _ _ _ _ _ T) in E.
  destruct E as (_ & k & Q & _). congruence.
Qed.

Lemma sees_some es f g x e : sees es f g -> g x = Some e -> exists a, f x = Some a /\ nth_error es a = Some e.
Proof. intros S G. specialize (S x). rewrite G in S. destruct (f x) as [a|]; [|contradiction]. exists a. split; [reflexivity|exact S]. Qed.
Lemma sees_none es f g x : sees es f g -> g x = None -> f x = None.
Proof. intros S G. specialize (S x). rewrite G in S. destruct (f x); [contradiction|reflexivity]. Qed.
Lemma sees_back es f g x a : sees es f g -> f x = Some a -> exists e, g x = Some e /\ nth_error es a = Some e.
Proof. intros S G. specialize (S x). rewrite G in S. destruct (g x) as [e|]; [|contradiction]. exists e. split; [reflexivity|exact S]. Qed.

Definition klass_in (s : sstate) (e : entity) : option klass :=
  match describe L s e with
  | Some (IObject _ _ _ _) => Some KObj
  | Some (IFunction _ _ _) => Some KFun
  | Some (IConstant _) => Some KConst
  | Some (IType _ _) => Some KType
  | None => None
  end.

Lemma holds_klass s e v : holds (known L s) (owns L s) e v -> klass_in s e = Some (klass_of L v).
Proof.
  destruct e as [x|n]; cbn; unfold klass_in, describe.
  - intros (k & -> & H). unfold linked_sid in H. destruct (l_fun L k).
    + destruct H as ((inl & ->) & _). reflexivity.
    + subst. reflexivity.
  - intros (o & -> & H). destruct o; cbn in H.
    + destruct H as (st & i & -> & _). reflexivity.
    + subst. reflexivity.
    + subst. reflexivity.
Qed.

(** require_ordinary_identifier_type asks for the kind of what the file scope shows. *)
Lemma klass_ok_iff c s es x k : Rf c s es ->
  klass_ok L c x k = match file L s x with
                     | None => true
                     | Some e => match klass_in s e with Some k' => klass_eqb k' k | None => false end
                     end.
Proof.
  intros (T & S & _). unfold klass_ok. destruct (file L s x) as [e|] eqn:F.
  - destruct (sees_some _ _ _ _ _ S F) as (a & -> & A). destruct (t_heap _ _ _ _ _ _ T _ _ A) as (v & -> & H).
    rewrite (holds_klass _ _ _ H). reflexivity.
  - rewrite (sees_none _ _ _ _ S F). reflexivity.
Qed.


(** *** Declarations with linkage in the file scope *)

Lemma set_nth_twice {A} n (v w : A) l : set_nth n w (set_nth n v l) = set_nth n w l.
Proof. revert n. induction l; intros [|n]; cbn; congruence. Qed.

Lemma set_nth_app {A} (v w : A) l : set_nth (length l) w (l ++ [v]) = l ++ [w].
Proof. induction l; cbn; congruence. Qed.

Lemma update_add_ord x a v w c :
  update L a w (add_ord L x a (update L a v c)) = add_ord L x a (update L a w c).
Proof. unfold add_ord, update. cbn. destruct (ord L c x); cbn; rewrite set_nth_twice; reflexivity. Qed.

Lemma update_add_new x v w c :
  update L (fresh L c) w (add_ord L x (fresh L c) (add_obj L x (fresh L c) (alloc L v c)))
  = add_ord L x (fresh L c) (add_obj L x (fresh L c) (alloc L w c)).
Proof. unfold add_ord, update, add_obj, alloc, fresh. cbn. destruct (ord L c x); cbn; rewrite set_nth_app; reflexivity. Qed.

Lemma nth_fresh c v : nth_error (heap L c ++ [v]) (fresh L c) = Some v.
Proof. apply nth_app_last. Qed.
Lemma heap_add_ord x a c : heap L (add_ord L x a c) = heap L c.
Proof. unfold add_ord. destruct (ord L c x); reflexivity. Qed.
Lemma blocks_add_ord x a c : blocks L (add_ord L x a c) = blocks L c.
Proof. unfold add_ord. destruct (ord L c x); reflexivity. Qed.

Lemma Rf_add_ord c s es x a e :
  scopes L s = [] ->
  tables (heap L c) (objs L c) (funs L c) (known L s) (owns L s) es -> sees es (ord L c) (file L s) -> named (file L s) ->
  nth_error es a = Some e -> (file L s x = None \/ file L s x = Some e) -> (forall y, e = Linked y -> y = x) ->
  Rf (add_ord L x a c) (enter L x e s) es.
Proof.
  intros SC T S N A G NM. unfold enter. rewrite SC. split; [|split].
  - unfold add_ord. destruct (ord L c x); exact T.
  - cbn. pose proof (sees_keep es _ _ x a e S (t_nodup _ _ _ _ _ _ T) A G) as K.
    unfold add_ord. destruct (ord L c x); exact K.
  - cbn. destruct e as [y|n]; [|apply named_bind_own; exact N]. rewrite (NM y eq_refl). apply named_bind. exact N.
Qed.

Lemma Rf_known c s es x a k k' v :
  Rf c s es -> scopes L s = [] -> known L s x = Some k -> nth_error es a = Some (Linked x) ->
  (file L s x = None \/ file L s x = Some (Linked x)) -> l_fun L k' = l_fun L k -> linked_sid k' v ->
  Rf (add_ord L x a (update L a v c)) (enter L x (Linked x) (learn L x k' s)) es.
Proof.
  intros (T & S & N) SC K A G FK V. apply Rf_add_ord; try assumption.
  - cbn. apply (tables_update _ _ _ _ _ _ x k k' a v); assumption.
  - intros y Q. congruence.
Qed.

Lemma Rf_new_obj c s es x k v :
  Rf c s es -> scopes L s = [] -> known L s x = None -> file L s x = None -> l_fun L k = false -> linked_sid k v ->
  Rf (add_ord L x (fresh L c) (add_obj L x (fresh L c) (alloc L v c))) (enter L x (Linked x) (learn L x k s))
    (es ++ [Linked x]).
Proof.
  intros (T & S & N) SC K G FK V. apply Rf_add_ord; try assumption.
  - cbn. pose proof (tables_new_linked _ _ _ _ _ _ x k v T K V) as Q. rewrite FK in Q. exact Q.
  - cbn. eapply sees_extends; [apply extends_one|exact S].
  - unfold fresh. rewrite <- (t_len _ _ _ _ _ _ T). apply nth_app_last.
  - left. exact G.
  - intros y Q. congruence.
Qed.

Lemma Rf_new_fun c s es x k v :
  Rf c s es -> scopes L s = [] -> known L s x = None -> file L s x = None -> l_fun L k = true -> linked_sid k v ->
  Rf (add_ord L x (fresh L c) (add_fun L x (fresh L c) (alloc L v c))) (enter L x (Linked x) (learn L x k s))
    (es ++ [Linked x]).
Proof.
  intros (T & S & N) SC K G FK V. apply Rf_add_ord; try assumption.
  - cbn. pose proof (tables_new_linked _ _ _ _ _ _ x k v T K V) as Q. rewrite FK in Q. exact Q.
  - cbn. eapply sees_extends; [apply extends_one|exact S].
  - unfold fresh. rewrite <- (t_len _ _ _ _ _ _ T). apply nth_app_last.
  - left. exact G.
  - intros y Q. congruence.
Qed.

Lemma Rf_new_own c s es x o v :
  Rf c s es -> scopes L s = [] -> file L s x = None -> own_sid o v ->
  Rf (add_ord L x (fresh L c) (alloc L v c)) (enter L x (Own (length (owns L s))) (create L o s))
    (es ++ [Own (length (owns L s))]).
Proof.
  intros (T & S & N) SC G V. apply Rf_add_ord; try assumption.
  - cbn. apply tables_new_own; assumption.
  - cbn. eapply sees_extends; [apply extends_one|exact S].
  - unfold fresh. rewrite <- (t_len _ _ _ _ _ _ T). apply nth_app_last.
  - left. exact G.
  - intros y Q. congruence.
Qed.

(** A name that the file scope shows as linked is known. *)
Lemma Rf_linked_known c s es x : Rf c s es -> file L s x = Some (Linked x) -> exists k, known L s x = Some k.
Proof.
  intros (T & S & N) F. destruct (sees_some _ _ _ _ _ S F) as (a & _ & A).
  destruct (t_heap _ _ _ _ _ _ T _ _ A) as (v & _ & k & K & _). exists k. exact K.
Qed.

Definition model_file (body : bool) (d : decl) (c : cstate) : res cstate :=
  if body then
    req (is_fun L (d_type L d) && is_none (d_init L d))
      match d_class L d with
      | ScNone | ScExtern | ScStatic => g_define_identifier L false d c
      | _ => Refused
      end
  else g_define_identifier L (is_none (d_init L d)) d c.

Lemma klass_eqb_refl k : klass_eqb k k = true.
Proof. destruct k; reflexivity. Qed.

(** What the file scope shows of a name with linkage, when it does not conflict. *)
Lemma no_conflict c s es d :
  Rf c s es -> scopes L s = [] -> conflicts L s d = false ->
  file L s (d_name L d) = None
  \/ file L s (d_name L d) = Some (Linked (d_name L d))
     /\ exists k, known L s (d_name L d) = Some k /\ l_fun L k = is_fun L (d_type L d)
                  /\ compat L (l_type L k) (d_type L d) = true.
Proof.
  intros RF SC C. unfold conflicts, current in C. rewrite SC in C.
  destruct (file L s (d_name L d)) as [[x|n]|] eqn:F; [|discriminate|left; reflexivity]. right.
  pose proof (proj2 (proj2 RF) _ _ F) as ->. split; [reflexivity|].
  destruct (Rf_linked_known _ _ _ _ RF F) as (k & K). rewrite K in C. apply orb_false_iff in C. destruct C as [C D].
  apply negb_false_iff in C, D. apply eqb_prop in C. exists k. auto.
Qed.

Lemma no_conflict_klass c s es d :
  Rf c s es -> scopes L s = [] -> conflicts L s d = false ->
  klass_ok L c (d_name L d) (if is_fun L (d_type L d) then KFun else KObj) = true.
Proof.
  intros RF SC C. rewrite (klass_ok_iff _ _ _ _ _ RF).
  destruct (no_conflict _ _ _ _ RF SC C) as [->|(-> & k & K & F & _)]; [reflexivity|].
  unfold klass_in, describe. rewrite K, F. destruct (is_fun L (d_type L d)); reflexivity.
Qed.

(** *** The constraints, one by one *)

Record clean (body : bool) (s : sstate) (d : decl) : Prop := {
  cl_inline : d_inline L d = true -> is_fun L (d_type L d) = true /\ typedef (d_class L d) = false;
  cl_auto : at_file L s = true -> auto (d_class L d) = false;
  cl_funthread : is_fun L (d_type L d) = true -> thread (d_class L d) = false;
  cl_thread : at_file L s = false -> is_fun L (d_type L d) = false -> d_class L d <> ScThread;
  cl_threads : has_linkage L s d = true -> is_fun L (d_type L d) = false ->
    forall k, known L s (d_name L d) = Some k -> l_fun L k = false -> l_thread L k = thread (d_class L d);
  cl_vm : vm L (d_type L d) = true -> at_file L s = false /\ has_linkage L s d = false;
  cl_vla : static (d_class L d) = true -> vla L (d_type L d) = false;
  cl_init : typedef (d_class L d) = false -> forall i, d_init L d = Some i ->
    is_fun L (d_type L d) = false /\ vla L (d_type L d) = false /\ exists t', completed L (d_type L d) i = Some t';
  cl_const : typedef (d_class L d) = false -> at_file L s || static (d_class L d) = true ->
    forall i, d_init L d = Some i -> constant L i = true;
  cl_extinit : at_file L s = false -> has_linkage L s d = true -> d_init L d = None;
  cl_link : has_linkage L s d = true -> conflicts L s d = false;
  cl_own : has_linkage L s d = false -> redeclared_alone L s d = false;
  cl_once : has_linkage L s d = true -> is_definition L (defines L body s d) = true ->
    forall k, known L s (d_name L d) = Some k -> l_internal L k = true -> is_definition L (l_status L k) = false;
  cl_body : body = true -> is_fun L (d_type L d) = true /\ typedef (d_class L d) = false /\ auto (d_class L d) = false
                           /\ thread (d_class L d) = false
}.

Ltac bsplit := repeat match goal with
  | |- (_ || _) = false => apply orb_false_iff; split
  end.

Lemma clean_iff body s d : violation L body s d = false <-> clean body s d.
Proof.
  unfold violation. cbv zeta. split.
  - intros V. repeat (apply orb_false_iff in V; let G := fresh "V" in destruct V as [V G]).
    split; intros.
    + rewrite H in V. cbn in V. apply orb_false_iff in V. destruct V as [V ?]. apply negb_false_iff in V. auto.
    + rewrite H in V11. exact V11.
    + rewrite H in V10. exact V10.
    + rewrite H, H0 in V9. cbn in V9. intros Q. rewrite Q in V9. discriminate.
    + rewrite H, H0, H1, H2 in V8. cbn in V8. apply negb_false_iff in V8. apply eqb_prop in V8. exact V8.
    + rewrite H in V7. cbn in V7. apply orb_false_iff in V7. exact V7.
    + rewrite H in V6. rewrite andb_true_r in V6. exact V6.
    + rewrite H, H0 in V5. cbn in V5. apply orb_false_iff in V5. destruct V5 as [V5 W]. apply orb_false_iff in V5.
      destruct V5 as [V5 W']. split; [exact V5|split; [exact W'|]]. destruct (completed L (d_type L d) i) as [t'|]; [|discriminate].
      exists t'. reflexivity.
    + rewrite H, H0, H1 in V4. cbn in V4. apply negb_false_iff in V4. exact V4.
    + rewrite H, H0 in V3. cbn in V3. unfold has_init in V3. destruct (d_init L d); [discriminate|reflexivity].
    + rewrite H in V2. exact V2.
    + rewrite H in V2. exact V2.
    + rewrite H, H0, H1, H2 in V1. exact V1.
    + rewrite H in V0. cbn in V0. repeat (apply orb_false_iff in V0; let G := fresh "V" in destruct V0 as [V0 G]).
      apply negb_false_iff in V0. auto.
  - intros C. destruct C as [C1 C2 C3 C4 C5 C6 C7 C8 C9 C10 C11 C12 C13 C14]. bsplit.
    + destruct (d_inline L d); [|reflexivity]. destruct (C1 eq_refl) as [-> ->]. reflexivity.
    + destruct (at_file L s); [|reflexivity]. rewrite (C2 eq_refl). reflexivity.
    + destruct (is_fun L (d_type L d)); [|reflexivity]. rewrite (C3 eq_refl). reflexivity.
    + destruct (at_file L s); [reflexivity|]. destruct (is_fun L (d_type L d)); [reflexivity|]. cbn.
      specialize (C4 eq_refl eq_refl). destruct (d_class L d); try reflexivity. congruence.
    + destruct (has_linkage L s d); [|reflexivity]. destruct (is_fun L (d_type L d)); [reflexivity|]. cbn.
      destruct (known L s (d_name L d)) as [k|] eqn:K; [|reflexivity]. destruct (l_fun L k) eqn:F; [reflexivity|]. cbn.
      rewrite (C5 eq_refl eq_refl k eq_refl F), eqb_reflx. reflexivity.
    + destruct (vm L (d_type L d)); [|reflexivity]. destruct (C6 eq_refl) as [-> ->]. reflexivity.
    + destruct (static (d_class L d)); [|apply andb_false_r]. rewrite (C7 eq_refl). reflexivity.
    + destruct (typedef (d_class L d)); [reflexivity|]. cbn. destruct (d_init L d) as [i|]; [|reflexivity].
      destruct (C8 eq_refl i eq_refl) as (-> & -> & t' & ->). reflexivity.
    + destruct (typedef (d_class L d)); [reflexivity|]. destruct (at_file L s || static (d_class L d)); [|reflexivity]. cbn.
      destruct (d_init L d) as [i|]; [|reflexivity]. rewrite (C9 eq_refl eq_refl i eq_refl). reflexivity.
    + destruct (at_file L s); [reflexivity|]. destruct (has_linkage L s d); [|reflexivity]. unfold has_init.
      rewrite (C10 eq_refl eq_refl). reflexivity.
    + destruct (has_linkage L s d); auto.
    + destruct (has_linkage L s d); [|reflexivity]. destruct (is_definition L (defines L body s d)); [|reflexivity].
      destruct (known L s (d_name L d)) as [k|] eqn:K; [|reflexivity]. destruct (l_internal L k) eqn:I; [|reflexivity].
      rewrite (C13 eq_refl eq_refl k eq_refl I). reflexivity.
    + destruct body; [|reflexivity]. destruct (C14 eq_refl) as (-> & -> & -> & ->). reflexivity.
Qed.

Record meant (body : bool) (s : sstate) (d : decl) : Prop := {
  mt_init : typedef (d_class L d) || body = true -> d_init L d = None;
  mt_known : has_linkage L s d = true -> forall k, known L s (d_name L d) = Some k ->
    l_internal L k = internal L s d /\ l_fun L k = is_fun L (d_type L d) /\ compat L (l_type L k) (d_type L d) = true
    /\ (is_definition L (defines L body s d) = true -> is_definition L (l_status L k) = false);
  mt_tentative : has_linkage L s d = true -> static (d_class L d) = true -> is_fun L (d_type L d) = false ->
    d_init L d = None -> incomplete L (d_type L d) = false;
  mt_own : has_linkage L s d = false -> typedef (d_class L d) = false -> incomplete L (final_type L d) = false;
  mt_fun : at_file L s = false -> is_fun L (d_type L d) = true ->
    static (d_class L d) = false /\ auto (d_class L d) = false
}.

Lemma meant_if body s d : undefined L body s d = false -> meant body s d.
Proof.
  unfold undefined. cbv zeta. intros V. repeat (apply orb_false_iff in V; let G := fresh "V" in destruct V as [V G]).
  split; intros.
  - rewrite H in V. unfold has_init in V. destruct (d_init L d); [discriminate|reflexivity].
  - rewrite H, H0 in V3. cbn in V3. repeat (apply orb_false_iff in V3; let G := fresh "V" in destruct V3 as [V3 G]).
    apply negb_false_iff in V3, V6, V5. apply eqb_prop in V3, V6. repeat split; auto. intros Q. rewrite Q in V4. exact V4.
  - rewrite H, H0, H1 in V2. unfold has_init in V2. rewrite H2 in V2. exact V2.
  - rewrite H, H0 in V1. exact V1.
  - rewrite H, H0 in V0. cbn in V0. apply orb_false_iff in V0. exact V0.
Qed.

(** *** Objects with linkage in the file scope *)

Section FileObject.
Variables (c : cstate) (s : sstate) (es : list entity) (d : decl).
Hypothesis RF : Rf c s es.
Hypothesis SC : scopes L s = [].
Hypothesis NF : is_fun L (d_type L d) = false.
Hypothesis NT : typedef (d_class L d) = false.
Hypothesis CL : clean false s d.
Hypothesis MT : meant false s d.
Hypothesis CV : covers L s d.

Local Notation x := (d_name L d).
Local Notation t := (d_type L d).

Lemma fo_file : at_file L s = true.
Proof. unfold at_file. rewrite SC. reflexivity. Qed.
Lemma fo_linkage : has_linkage L s d = true.
Proof. unfold has_linkage. rewrite NT, fo_file. reflexivity. Qed.
Lemma fo_vm : vm L t = false.
Proof.
  destruct (vm L t) eqn:E; [|reflexivity]. destruct (cl_vm _ _ _ CL E) as [Q _]. rewrite fo_file in Q. discriminate.
Qed.
Lemma fo_klass : klass_ok L c x KObj = true.
Proof. pose proof (no_conflict_klass _ _ _ _ RF SC (cl_link _ _ _ CL fo_linkage)) as K. rewrite NF in K. exact K. Qed.
Lemma fo_shown : file L s x = None \/ file L s x = Some (Linked x).
Proof. destruct (no_conflict _ _ _ _ RF SC (cl_link _ _ _ CL fo_linkage)) as [Q|[Q _]]; [left|right]; exact Q. Qed.
Lemma fo_new : known L s x = None -> file L s x = None.
Proof.
  intros K. destruct fo_shown as [Q|Q]; [exact Q|]. destruct (Rf_linked_known _ _ _ _ RF Q) as (k & H). congruence.
Qed.
Lemma fo_known k : known L s x = Some k ->
  l_fun L k = false /\ l_thread L k = thread (d_class L d) /\ compat L (l_type L k) t = true
  /\ l_internal L k = internal L s d.
Proof.
  intros K. destruct (mt_known _ _ _ MT fo_linkage k K) as (I & F & C & _). rewrite NF in F.
  repeat split; auto. apply (cl_threads _ _ _ CL fo_linkage NF k K F).
Qed.
Lemma fo_internal_new : known L s x = None -> internal L s d = static (d_class L d).
Proof.
  intros K. unfold internal. destruct (static (d_class L d)); [reflexivity|]. destruct (extern (d_class L d) || is_fun L (d_type L d)); [|reflexivity].
  unfold visible. rewrite SC. cbn. rewrite (fo_new K). reflexivity.
Qed.

Definition declared_k (k : linked) : linked :=
  LinkedInfo L (l_fun L k) (l_internal L k) (l_thread L k) (joint L (l_type L k) (final_type L d))
    (merge L (l_status L k) (defines L false s d)).
Definition first_k : linked :=
  LinkedInfo L (is_fun L t) (internal L s d) (thread (d_class L d)) (final_type L d) (defines L false s d).
Lemma fo_declare :
  declare L false s d = enter L x (Linked x) (learn L x (match known L s x with Some k => declared_k k | None => first_k end) s).
Proof. unfold declare. rewrite fo_linkage. reflexivity. Qed.

Definition result (r : res cstate) : Prop :=
  exists c' es', r = Ok c' /\ Rf c' (declare L false s d) es' /\ extends es es' /\ blocks L c' = blocks L c.

Lemma fo_declare_external :
  extern (d_class L d) = true -> d_init L d = None -> result (g_declare_external L (thread (d_class L d)) x t c).
Proof.
  intros EX IN. unfold result. rewrite fo_declare. unfold g_declare_external. rewrite fo_vm, fo_klass. cbn [req negb].
  assert (static (d_class L d) = false) as NS by (destruct (d_class L d); try discriminate; reflexivity).
  assert (defines L false s d = Declared L) as DF. { unfold defines. rewrite IN, EX, orb_true_r. reflexivity. }
  assert (final_type L d = t) as FT by (unfold final_type; rewrite IN; reflexivity).
  pose proof (proj1 RF) as T. destruct (known L s x) as [k|] eqn:K.
  - destruct (fo_known k K) as (F & TH & C & I). destruct (tables_obj _ _ _ _ _ _ _ _ T K F) as (a & -> & A & ->).
    unfold obj_sid at 1. cbv beta iota. rewrite C.
    assert (linked_storage (thread (d_class L d)) (if l_internal L k then stat_storage (l_thread L k) else ext_storage (l_thread L k)) = true) as ->.
    { rewrite TH. destruct (l_internal L k), (thread (d_class L d)); reflexivity. }
    unfold with_composite. destruct (cv_composite _ _ _ CV k fo_linkage K) as (-> & _). cbn [req].
    eexists _, es. split; [reflexivity|]. split; [|split; [apply extends_refl|rewrite blocks_add_ord; reflexivity]].
    eapply Rf_known; try eassumption; [apply fo_shown|reflexivity|]. unfold linked_sid, declared_k, obj_sid. cbn [l_fun l_internal l_thread l_type l_status]. rewrite F.
    unfold linkage_of, outer. cbn [l_fun l_internal l_thread l_type l_status]. rewrite DF, FT. destruct (l_status L k); reflexivity.
  - rewrite (tables_no_obj _ _ _ _ _ _ _ T K). eexists _, _. split; [reflexivity|].
    split; [|split; [apply extends_one|rewrite blocks_add_ord; reflexivity]].
    eapply Rf_new_obj; try eassumption; [apply fo_new; exact K|]. unfold linked_sid, first_k, obj_sid, outer, linkage_of. cbn [l_fun l_internal l_thread l_type l_status].
    rewrite NF, (fo_internal_new K), NS, DF, FT. reflexivity.
Qed.

Lemma fo_init i : d_init L d = Some i ->
  exists t', completed L t i = Some t' /\ constant L i = true /\ final_type L d = t' /\ defines L false s d = Defined L (Some i).
Proof.
  intros I. destruct (cl_init _ _ _ CL NT i I) as (_ & _ & t' & C). exists t'. split; [exact C|]. split.
  - apply (cl_const _ _ _ CL NT); [|exact I]. rewrite fo_file. reflexivity.
  - unfold final_type, defines. rewrite I. rewrite C. split; reflexivity.
Qed.

Lemma fo_define_external :
  static (d_class L d) = false -> internal L s d = false -> (extern (d_class L d) = true -> d_init L d <> None) ->
  result (g_define_external L (thread (d_class L d)) x t (d_init L d) c).
Proof.
  intros NS NI EX. unfold result. rewrite fo_declare. unfold g_define_external. rewrite fo_vm, fo_klass. cbn [req negb].
  pose proof (proj1 RF) as T. destruct (known L s x) as [k|] eqn:K.
  - destruct (fo_known k K) as (F & TH & C & I). destruct (tables_obj _ _ _ _ _ _ _ _ T K F) as (a & -> & A & ->).
    unfold obj_sid at 1. cbv beta iota. rewrite C. rewrite NI in I. rewrite I, TH.
    assert (storage_eqb (ext_storage (thread (d_class L d))) (ext_storage (thread (d_class L d))) = true) as ->
      by (destruct (thread (d_class L d)); reflexivity).
    unfold with_composite. destruct (cv_composite _ _ _ CV k fo_linkage K) as (-> & CI & _). cbn [req].
    assert (a < length (heap L c)) as AL. { rewrite <- (t_len _ _ _ _ _ _ T). apply nth_error_Some. congruence. }
    destruct (d_init L d) as [i|] eqn:IN.
    + destruct (fo_init i IN) as (t' & CM & CN & FT & DF).
      assert (is_definition L (l_status L k) = false) as ND.
      { destruct (mt_known _ _ _ MT fo_linkage k K) as (_ & _ & _ & Q). apply Q. rewrite DF. reflexivity. }
      assert (value (l_status L k) = None) as -> by (destruct (l_status L k); [reflexivity..|discriminate]).
      cbn [is_none orb req g_initialize]. rewrite CM, CN. cbn [req]. rewrite heap_add_ord. cbn [heap update].
      rewrite set_nth_same by exact AL. rewrite update_add_ord.
      eexists _, es. split; [reflexivity|]. split; [|split; [apply extends_refl|rewrite blocks_add_ord; reflexivity]].
      eapply Rf_known; try eassumption; [apply fo_shown|reflexivity|]. unfold linked_sid, declared_k, obj_sid. cbn [l_fun l_internal l_thread l_type l_status]. rewrite F.
      unfold linkage_of, outer. cbn [l_fun l_internal l_thread l_type l_status]. rewrite DF, I, TH. rewrite CI by (unfold has_init; rewrite IN; reflexivity). rewrite FT.
      destruct (l_status L k); try discriminate; reflexivity.
    + cbn [is_none orb req g_initialize].
      eexists _, es. split; [reflexivity|]. split; [|split; [apply extends_refl|rewrite blocks_add_ord; reflexivity]].
      assert (defines L false s d = Tentative L) as DF.
      { unfold defines. rewrite IN, NF. destruct (extern (d_class L d)); [|reflexivity]. exfalso. apply EX; reflexivity. }
      eapply Rf_known; try eassumption; [apply fo_shown|reflexivity|]. unfold linked_sid, declared_k, obj_sid. cbn [l_fun l_internal l_thread l_type l_status]. rewrite F.
      unfold linkage_of, outer. cbn [l_fun l_internal l_thread l_type l_status]. rewrite DF, I, TH. unfold final_type. rewrite IN. destruct (l_status L k); reflexivity.
  - rewrite (tables_no_obj _ _ _ _ _ _ _ T K). cbv zeta. destruct (d_init L d) as [i|] eqn:IN.
    + destruct (fo_init i IN) as (t' & CM & CN & FT & DF). cbn [g_initialize]. rewrite CM, CN. cbn [req].
      rewrite heap_add_ord. cbn [heap add_obj alloc]. rewrite nth_fresh.
      rewrite update_add_new. eexists _, _. split; [reflexivity|].
      split; [|split; [apply extends_one|rewrite blocks_add_ord; reflexivity]].
      eapply Rf_new_obj; try eassumption; [apply fo_new; exact K|]. unfold linked_sid, first_k, obj_sid, outer, linkage_of. cbn [l_fun l_internal l_thread l_type l_status].
      rewrite NF, NI, DF, FT. reflexivity.
    + cbn [g_initialize]. assert (defines L false s d = Tentative L) as DF.
      { unfold defines. rewrite IN, NF. destruct (extern (d_class L d)); [|reflexivity]. exfalso. apply EX; reflexivity. }
      eexists _, _. split; [reflexivity|].
      split; [|split; [apply extends_one|rewrite blocks_add_ord; reflexivity]].
      eapply Rf_new_obj; try eassumption; [apply fo_new; exact K|]. unfold linked_sid, first_k, obj_sid, outer, linkage_of. cbn [l_fun l_internal l_thread l_type l_status].
      unfold final_type. rewrite NF, NI, DF, IN. reflexivity.
Qed.

Lemma fo_define_static :
  static (d_class L d) = true -> result (g_define_static L (thread (d_class L d)) x t (d_init L d) c).
Proof.
  intros NS. unfold result. rewrite fo_declare. unfold g_define_static. rewrite fo_vm, fo_klass. cbn [req negb].
  assert (internal L s d = true) as NI by (unfold internal; rewrite NS; reflexivity).
  assert (extern (d_class L d) = false) as NE by (destruct (d_class L d); try discriminate; reflexivity).
  pose proof (proj1 RF) as T. destruct (known L s x) as [k|] eqn:K.
  - destruct (fo_known k K) as (F & TH & C & I). destruct (tables_obj _ _ _ _ _ _ _ _ T K F) as (a & -> & A & ->).
    unfold obj_sid at 1. cbv beta iota. rewrite C. rewrite NI in I. unfold outer. rewrite I, TH.
    assert (storage_eqb (stat_storage (thread (d_class L d))) (stat_storage (thread (d_class L d))) = true) as ->
      by (destruct (thread (d_class L d)); reflexivity).
    unfold with_composite. destruct (cv_composite _ _ _ CV k fo_linkage K) as (-> & CI & _). cbn [req negb andb].
    assert (a < length (heap L c)) as AL. { rewrite <- (t_len _ _ _ _ _ _ T). apply nth_error_Some. congruence. }
    destruct (d_init L d) as [i|] eqn:IN.
    + destruct (fo_init i IN) as (t' & CM & CN & FT & DF).
      assert (is_definition L (l_status L k) = false) as ND.
      { destruct (mt_known _ _ _ MT fo_linkage k K) as (_ & _ & _ & Q). apply Q. rewrite DF. reflexivity. }
      assert (value (l_status L k) = None) as -> by (destruct (l_status L k); [reflexivity..|discriminate]).
      cbn [is_none orb req g_initialize]. rewrite CM, CN. cbn [req]. rewrite heap_add_ord. cbn [heap update].
      rewrite set_nth_same by exact AL. rewrite update_add_ord.
      eexists _, es. split; [reflexivity|]. split; [|split; [apply extends_refl|rewrite blocks_add_ord; reflexivity]].
      eapply Rf_known; try eassumption; [apply fo_shown|reflexivity|]. unfold linked_sid, declared_k, obj_sid. cbn [l_fun l_internal l_thread l_type l_status]. rewrite F.
      unfold linkage_of, outer. cbn [l_fun l_internal l_thread l_type l_status]. rewrite DF, I, TH. rewrite CI by (unfold has_init; rewrite IN; reflexivity). rewrite FT.
      destruct (l_status L k); try discriminate; reflexivity.
    + cbn [is_none orb req g_initialize].
      eexists _, es. split; [reflexivity|]. split; [|split; [apply extends_refl|rewrite blocks_add_ord; reflexivity]].
      assert (defines L false s d = Tentative L) as DF by (unfold defines; rewrite IN, NF, NE; reflexivity).
      eapply Rf_known; try eassumption; [apply fo_shown|reflexivity|]. unfold linked_sid, declared_k, obj_sid. cbn [l_fun l_internal l_thread l_type l_status]. rewrite F.
      unfold linkage_of, outer. cbn [l_fun l_internal l_thread l_type l_status]. rewrite DF, I, TH. unfold final_type. rewrite IN. destruct (l_status L k); reflexivity.
  - rewrite (tables_no_obj _ _ _ _ _ _ _ T K). destruct (d_init L d) as [i|] eqn:IN.
    + destruct (fo_init i IN) as (t' & CM & CN & FT & DF). cbn [is_none negb orb req g_initialize]. cbv zeta. rewrite CM, CN. cbn [req].
      rewrite heap_add_ord. cbn [heap add_obj alloc]. rewrite nth_fresh.
      rewrite update_add_new. eexists _, _. split; [reflexivity|].
      split; [|split; [apply extends_one|rewrite blocks_add_ord; reflexivity]].
      eapply Rf_new_obj; try eassumption; [apply fo_new; exact K|]. unfold linked_sid, first_k, obj_sid, outer, linkage_of. cbn [l_fun l_internal l_thread l_type l_status].
      rewrite NF, NI, DF, FT. reflexivity.
    + cbn [g_initialize]. assert (defines L false s d = Tentative L) as DF by (unfold defines; rewrite IN, NF, NE; reflexivity).
      pose proof (mt_tentative _ _ _ MT fo_linkage NS NF IN) as IC. rewrite IC. cbn [is_none negb orb req].
      eexists _, _. split; [reflexivity|].
      split; [|split; [apply extends_one|rewrite blocks_add_ord; reflexivity]].
      eapply Rf_new_obj; try eassumption; [apply fo_new; exact K|]. unfold linked_sid, first_k, obj_sid, outer, linkage_of. cbn [l_fun l_internal l_thread l_type l_status].
      unfold final_type. rewrite NF, NI, DF, IN. reflexivity.
Qed.

Lemma file_object : result (g_define_identifier L (is_none (d_init L d)) d c).
Proof.
  pose proof fo_declare_external as A. pose proof fo_define_external as B. pose proof fo_define_static as C.
  unfold g_define_identifier. rewrite NF.
  assert (d_inline L d = false) as ->.
  { destruct (d_inline L d) eqn:E; [|reflexivity]. destruct (cl_inline _ _ _ CL E) as [Q _]. congruence. }
  pose proof (cl_auto _ _ _ CL fo_file) as AU. pose proof (cv_extern _ _ _ CV fo_file) as CE.
  assert (is_none (d_init L d) || negb (is_none (d_init L d)) = true) as -> by (destruct (d_init L d); reflexivity).
  cbn [req negb].
  assert (static (d_class L d) = false -> extern (d_class L d) = false -> internal L s d = false) as NI.
  { intros Q W. unfold internal. rewrite Q, W, NF. reflexivity. }
  destruct (d_class L d) eqn:CLS; try discriminate.
  - apply B; [reflexivity|apply NI; reflexivity|discriminate].
  - destruct (d_init L d) as [i|] eqn:IN; cbn [is_none].
    + apply B; [reflexivity|apply CE; [reflexivity|]|discriminate]. unfold has_init. rewrite IN. reflexivity.
    + apply A; reflexivity.
  - apply C. reflexivity.
  - apply B; [reflexivity|apply NI; reflexivity|discriminate].
  - destruct (d_init L d) as [i|] eqn:IN; cbn [is_none].
    + apply B; [reflexivity|apply CE; [reflexivity|]|discriminate]. unfold has_init. rewrite IN. reflexivity.
    + apply A; reflexivity.
  - apply C. reflexivity.
Qed.
End FileObject.

(** *** Functions in the file scope, declared or defined *)

Definition result_of (body : bool) (c : cstate) (s : sstate) (es : list entity) (d : decl) (r : res cstate) : Prop :=
  exists c' es', r = Ok c' /\ Rf c' (declare L body s d) es' /\ extends es es' /\ blocks L c' = blocks L c.

Section FileFunction.
Variables (body : bool) (c : cstate) (s : sstate) (es : list entity) (d : decl).
Hypothesis RF : Rf c s es.
Hypothesis SC : scopes L s = [].
Hypothesis FN : is_fun L (d_type L d) = true.
Hypothesis NT : typedef (d_class L d) = false.
Hypothesis CL : clean body s d.
Hypothesis MT : meant body s d.
Hypothesis CV : covers L s d.
Local Notation x := (d_name L d).
Local Notation t := (d_type L d).

Lemma ff_file : at_file L s = true.
Proof. unfold at_file. rewrite SC. reflexivity. Qed.
Lemma ff_linkage : has_linkage L s d = true.
Proof. unfold has_linkage. rewrite NT, ff_file. reflexivity. Qed.
Lemma ff_vm : vm L t = false.
Proof.
  destruct (vm L t) eqn:E; [|reflexivity]. destruct (cl_vm _ _ _ CL E) as [Q _]. rewrite ff_file in Q. discriminate.
Qed.
Lemma ff_init : d_init L d = None.
Proof.
  destruct (d_init L d) as [i|] eqn:I; [|reflexivity]. destruct (cl_init _ _ _ CL NT i I) as [Q _]. congruence.
Qed.
Lemma ff_klass : klass_ok L c x KFun = true.
Proof. pose proof (no_conflict_klass _ _ _ _ RF SC (cl_link _ _ _ CL ff_linkage)) as K. rewrite FN in K. exact K. Qed.
Lemma ff_shown : file L s x = None \/ file L s x = Some (Linked x).
Proof. destruct (no_conflict _ _ _ _ RF SC (cl_link _ _ _ CL ff_linkage)) as [Q|[Q _]]; [left|right]; exact Q. Qed.
Lemma ff_new : known L s x = None -> file L s x = None.
Proof.
  intros K. destruct ff_shown as [Q|Q]; [exact Q|]. destruct (Rf_linked_known _ _ _ _ RF Q) as (k & H). congruence.
Qed.
Lemma ff_known k : known L s x = Some k ->
  l_fun L k = true /\ compat L (l_type L k) t = true /\ l_internal L k = internal L s d
  /\ composite L (l_type L k) t = Some (joint L (l_type L k) t)
  /\ (body = true -> is_definition L (l_status L k) = false).
Proof.
  intros K. destruct (mt_known _ _ _ MT ff_linkage k K) as (I & F & C & D). rewrite FN in F.
  destruct (cv_composite _ _ _ CV k ff_linkage K) as (CC & _).
  repeat split; auto. intros ->. apply D. reflexivity.
Qed.
Lemma ff_internal_new : known L s x = None -> internal L s d = static (d_class L d).
Proof.
  intros K. unfold internal. destruct (static (d_class L d)); [reflexivity|]. rewrite FN, orb_true_r.
  unfold visible. rewrite SC. cbn. rewrite (ff_new K). reflexivity.
Qed.
Lemma ff_final : final_type L d = t.
Proof. unfold final_type. rewrite ff_init. reflexivity. Qed.
Lemma ff_thread : thread (d_class L d) = false.
Proof. apply (cl_funthread _ _ _ CL FN). Qed.
Lemma ff_defines : defines L body s d = if body then Defined L None else Declared L.
Proof. unfold defines. rewrite ff_init, FN. reflexivity. Qed.

Lemma ff_declare :
  declare L body s d = enter L x (Linked x) (learn L x
    (match known L s x with
     | Some k => LinkedInfo L (l_fun L k) (l_internal L k) (l_thread L k) (joint L (l_type L k) t)
                   (merge L (l_status L k) (if body then Defined L None else Declared L))
     | None => LinkedInfo L true (static (d_class L d)) false t (if body then Defined L None else Declared L)
     end) s).
Proof.
  unfold declare. rewrite ff_linkage, ff_final, ff_defines, ff_thread, FN. destruct (known L s x) eqn:K; [reflexivity|].
  rewrite (ff_internal_new K). reflexivity.
Qed.

Ltac fin := match goal with |- exists c' es', Ok ?c0 = Ok c' /\ _ => exists c0 end.

Lemma ff_declare_function :
  body = false -> static (d_class L d) = false -> result_of body c s es d (g_declare_function L (d_inline L d) x t c).
Proof.
  intros B NS. unfold result_of. rewrite ff_declare. unfold g_declare_function. rewrite ff_vm, ff_klass. cbn [req negb].
  pose proof (proj1 RF) as T. destruct (known L s x) as [k|] eqn:K.
  - destruct (ff_known k K) as (F & C & I & CC & _). destruct (tables_fun _ _ _ _ _ _ _ _ T K F) as (a & inl & -> & A & -> & TH & VA).
    unfold fun_sid at 1. cbv beta iota. rewrite C.
    assert (linked_storage false (if l_internal L k then StStatic else StExtern) = true) as -> by (destruct (l_internal L k); reflexivity).
    unfold with_composite. rewrite CC. cbn [req]. fin. exists es. split; [reflexivity|].
    split; [|split; [apply extends_refl|rewrite blocks_add_ord; reflexivity]].
    eapply Rf_known; try eassumption; [apply ff_shown|reflexivity|]. unfold linked_sid, fun_sid.
    cbn [l_fun l_internal l_thread l_type l_status]. rewrite F. split; [|split; [exact TH|]].
    + exists (inl || d_inline L d). unfold outer. cbn [l_fun l_internal l_thread l_type l_status]. rewrite B.
      destruct (l_status L k); reflexivity.
    + rewrite B. destruct (l_status L k); try reflexivity. exact VA.
  - rewrite (tables_no_fun _ _ _ _ _ _ _ T K). cbv zeta. fin. eexists. split; [reflexivity|].
    split; [|split; [apply extends_one|rewrite blocks_add_ord; reflexivity]].
    eapply Rf_new_fun; try eassumption; [apply ff_new; exact K|reflexivity|]. unfold linked_sid, fun_sid, outer.
    cbn [l_fun l_internal l_thread l_type l_status]. rewrite B, NS. repeat split. exists (d_inline L d). reflexivity.
Qed.

Lemma ff_define_function :
  body = true -> static (d_class L d) = false -> result_of body c s es d (g_define_function L (d_inline L d) x t c).
Proof.
  intros B NS. unfold result_of. rewrite ff_declare. unfold g_define_function. rewrite ff_vm, ff_klass. cbn [req negb].
  pose proof (proj1 RF) as T. destruct (known L s x) as [k|] eqn:K.
  - destruct (ff_known k K) as (F & C & I & CC & ND). specialize (ND B).
    destruct (tables_fun _ _ _ _ _ _ _ _ T K F) as (a & inl & -> & A & -> & TH & VA).
    unfold fun_sid at 1. cbv beta iota. rewrite C, ND.
    assert (linked_storage false (if l_internal L k then StStatic else StExtern) = true) as -> by (destruct (l_internal L k); reflexivity).
    unfold with_composite. rewrite CC. cbn [req negb]. fin. exists es. split; [reflexivity|].
    split; [|split; [apply extends_refl|rewrite blocks_add_ord; reflexivity]].
    eapply Rf_known; try eassumption; [apply ff_shown|reflexivity|]. unfold linked_sid, fun_sid.
    cbn [l_fun l_internal l_thread l_type l_status]. rewrite F. rewrite B.
    assert (merge L (l_status L k) (Defined L None) = Defined L None) as -> by (destruct (l_status L k); try discriminate; reflexivity).
    split; [|split; [exact TH|reflexivity]].
    exists (inl || d_inline L d). unfold outer. cbn [l_fun l_internal l_thread l_type l_status declared_only].
    rewrite andb_false_r. reflexivity.
  - rewrite (tables_no_fun _ _ _ _ _ _ _ T K). cbv zeta. fin. eexists. split; [reflexivity|].
    split; [|split; [apply extends_one|rewrite blocks_add_ord; reflexivity]].
    eapply Rf_new_fun; try eassumption; [apply ff_new; exact K|reflexivity|]. unfold linked_sid, fun_sid, outer.
    cbn [l_fun l_internal l_thread l_type l_status]. rewrite B, NS. repeat split. exists (d_inline L d). reflexivity.
Qed.

Lemma ff_define_static_function :
  static (d_class L d) = true -> result_of body c s es d (g_define_static_function L (d_inline L d) x (negb body) t c).
Proof.
  intros NS. unfold result_of. rewrite ff_declare. unfold g_define_static_function. rewrite ff_vm, ff_klass. cbn [req negb].
  pose proof (proj1 RF) as T. destruct (known L s x) as [k|] eqn:K.
  - destruct (ff_known k K) as (F & C & I & CC & ND).
    assert (l_internal L k = true) as LI. { rewrite I. unfold internal. rewrite NS. reflexivity. }
    destruct (tables_fun _ _ _ _ _ _ _ _ T K F) as (a & inl & -> & A & -> & TH & VA).
    unfold fun_sid at 1. unfold outer. cbv beta iota. rewrite C, LI.
    unfold with_composite. rewrite CC. cbn [req negb andb storage_eqb].
    assert (negb (is_definition L (l_status L k)) || negb body = true) as ->.
    { destruct body; [rewrite (ND eq_refl)|]; [reflexivity|apply orb_true_r]. }
    cbn [req]. fin. exists es. split; [reflexivity|].
    split; [|split; [apply extends_refl|rewrite blocks_add_ord; reflexivity]].
    eapply Rf_known; try eassumption; [apply ff_shown|reflexivity|]. unfold linked_sid, fun_sid.
    cbn [l_fun l_internal l_thread l_type l_status]. rewrite F. split; [|split; [exact TH|]].
    + exists (inl || d_inline L d). unfold outer. cbn [l_fun l_internal l_thread l_type l_status]. rewrite ?LI. cbn [negb andb]. f_equal. destruct body; destruct (l_status L k); try reflexivity.
    + destruct body; destruct (l_status L k); try reflexivity; exact VA.
  - rewrite (tables_no_fun _ _ _ _ _ _ _ T K). cbv zeta. fin. eexists. split; [reflexivity|].
    split; [|split; [apply extends_one|rewrite blocks_add_ord; reflexivity]].
    eapply Rf_new_fun; try eassumption; [apply ff_new; exact K|reflexivity|]. unfold linked_sid, fun_sid, outer.
    cbn [l_fun l_internal l_thread l_type l_status]. rewrite NS. split; [|destruct body; split; reflexivity].
    exists (d_inline L d). destruct body; reflexivity.
Qed.

Lemma file_function : result_of body c s es d (model_file body d c).
Proof.
  pose proof ff_declare_function as A. pose proof ff_define_function as B. pose proof ff_define_static_function as C.
  pose proof (cl_auto _ _ _ CL ff_file) as AU. pose proof ff_thread as TH. pose proof ff_init as IN.
  unfold model_file, g_define_identifier. rewrite FN, IN. cbn [is_none req andb].
  destruct body; (destruct (d_class L d) eqn:CLS; try discriminate); cbn [is_none req andb]; auto.
Qed.
End FileFunction.

(** *** Type names and constants in the file scope *)

Lemma redeclared_none s d : redeclared_alone L s d = false ->
  current L s (d_name L d) = None
  \/ exists n t, current L s (d_name L d) = Some (Own n) /\ nth_error (owns L s) n = Some (OwnType L t)
       /\ typedef (d_class L d) = true /\ same L t (d_type L d) = true /\ vm L (d_type L d) = false.
Proof.
  unfold redeclared_alone. destruct (current L s (d_name L d)) as [[y|n]|]; [discriminate| |left; reflexivity].
  destruct (nth_error (owns L s) n) as [[t0 d0|t0|]|] eqn:O; try discriminate. intros H. apply negb_false_iff in H.
  apply andb_prop in H. destruct H as [H V]. apply andb_prop in H. destruct H as [T S]. apply negb_true_iff in V.
  right. exists n, t0. auto.
Qed.

Lemma file_typedef c s es d :
  lang_ok -> Rf c s es -> scopes L s = [] -> typedef (d_class L d) = true -> clean false s d -> meant false s d -> covers L s d ->
  result_of false c s es d (model_file false d c).
Proof.
  intros OK RF SC TD CL MT CV. pose proof RF as (T & S & N).
  assert (at_file L s = true) as AF by (unfold at_file; rewrite SC; reflexivity).
  assert (has_linkage L s d = false) as HL by (unfold has_linkage; rewrite TD; reflexivity).
  assert (d_inline L d = false) as INL.
  { destruct (d_inline L d) eqn:E; [|reflexivity]. destruct (cl_inline _ _ _ CL E) as [_ Q]. congruence. }
  assert (vm L (d_type L d) = false) as VM.
  { destruct (vm L (d_type L d)) eqn:E; [|reflexivity]. destruct (cl_vm _ _ _ CL E) as [Q _]. congruence. }
  assert (d_init L d = None) as IN. { apply (mt_init _ _ _ MT). rewrite TD. reflexivity. }
  assert (model_file false d c = g_define_type L (d_name L d) (d_type L d) c) as ->.
  { unfold model_file, g_define_identifier. rewrite IN, INL. cbn [is_none negb orb req].
    destruct (d_class L d); try discriminate. destruct (is_fun L (d_type L d)); reflexivity. }
  unfold result_of, g_define_type, declare. rewrite VM, HL, TD, (klass_ok_iff _ _ _ _ _ RF). cbn [negb req].
  destruct (redeclared_none _ _ (cl_own _ _ _ CL HL)) as [CU|(n & t0 & CU & O & _ & SM & _)]; rewrite CU.
  - unfold current in CU. rewrite SC in CU. rewrite CU, (sees_none _ _ _ _ S CU). cbn [req].
    eexists _, _. split; [reflexivity|]. split; [|split; [apply extends_one|rewrite blocks_add_ord; reflexivity]].
    apply Rf_new_own; try assumption. reflexivity.
  - pose proof (cv_typedef _ _ _ CV n t0 TD CU O) as CP. rewrite SM in CP.
    unfold current in CU. rewrite SC in CU. rewrite CU. destruct (sees_some _ _ _ _ _ S CU) as (a & -> & A).
    destruct (t_heap _ _ _ _ _ _ T _ _ A) as (v & V & H). rewrite (holds_klass _ _ _ H), V. destruct H as (o & Q & H).
    rewrite O in Q. injection Q as <-. cbn in H. subst v. cbn [klass_of klass_eqb req]. rewrite CP. cbn [req].
    pose proof (ok_same OK _ _ SM) as <-. destruct (incomplete L t0); cbn [negb andb].
    + eexists _, es. split; [reflexivity|]. split; [exact RF|]. split; [apply extends_refl|reflexivity].
    + eexists _, es. split; [reflexivity|]. split; [exact RF|]. split; [apply extends_refl|reflexivity].
Qed.

Lemma file_decl body c s es d :
  lang_ok -> Rf c s es -> scopes L s = [] -> violation L body s d = false -> undefined L body s d = false -> covers L s d ->
  result_of body c s es d (model_file body d c).
Proof.
  intros OK RF SC V U CV. apply clean_iff in V. apply meant_if in U.
  destruct (typedef (d_class L d)) eqn:TD.
  - destruct body; [|apply file_typedef; assumption]. destruct (cl_body _ _ _ V eq_refl) as (_ & Q & _). congruence.
  - destruct (is_fun L (d_type L d)) eqn:F; [apply file_function; assumption|].
    destruct body; [destruct (cl_body _ _ _ V eq_refl) as (Q & _); congruence|].
    apply (file_object c s es d RF SC F TD V U CV).
Qed.

Lemma file_const c s es x :
  Rf c s es -> scopes L s = [] -> file L s x = None ->
  exists c' es', g_define_constant L x c = Ok c'
    /\ Rf c' (enter L x (Own (length (owns L s))) (create L (OwnConst L) s)) es' /\ extends es es' /\ blocks L c' = blocks L c.
Proof.
  intros RF SC F. pose proof RF as (T & S & N). unfold g_define_constant. rewrite (sees_none _ _ _ _ S F). cbn [is_none req].
  eexists _, _. split; [reflexivity|]. split; [|split; [apply extends_one|rewrite blocks_add_ord; reflexivity]].
  apply Rf_new_own; try assumption. reflexivity.
Qed.

(** *** Declarations in a block *)

Definition inside (c : cstate) (s : sstate) : Prop := scopes L s <> [] /\ blocks L c <> [].

Lemma R_inside c s es : R c s es -> scopes L s <> [] -> blocks L c <> [].
Proof. intros (_ & F & _) N. destruct F; congruence. Qed.

Lemma R_top c s es : R c s es -> scopes L s <> [] -> sees es (top L c) (current L s) /\ named (current L s).
Proof.
  intros (_ & F & N) NE. unfold top, current. destruct F as [|b g bs gs S F]; [congruence|].
  inversion N; subst. split; assumption.
Qed.

Lemma R_add_block c s es x a e :
  R c s es -> scopes L s <> [] -> nth_error es a = Some e -> (forall y, e = Linked y -> y = x) ->
  R (add_block L x a c) (enter L x e s) es.
Proof.
  intros ((T & S & N) & F & NM) NE A Q. unfold R, Rf, Rb, add_block, enter in *.
  destruct (blocks L c) as [|b bs], (scopes L s) as [|g gs]; try (inversion F; fail); [congruence|]. cbn.
  inversion F as [|? ? ? ? S1 F1]; subst. inversion NM as [|? ? N1 N2]; subst.
  split; [split; [|split]; assumption|]. split; constructor; try assumption; [apply sees_put; assumption|].
  destruct e as [y|n]; [|apply named_bind_own; exact N1]. rewrite (Q y eq_refl). apply named_bind. exact N1.
Qed.

Lemma R_rebind c s es x e :
  R c s es -> scopes L s <> [] -> current L s x = Some e -> (forall y, e = Linked y -> y = x) -> R c (enter L x e s) es.
Proof.
  intros ((T & S & N) & F & NM) NE CU Q. unfold R, Rf, Rb, enter, current in *.
  destruct (scopes L s) as [|g gs] eqn:SC; [congruence|]. cbn. inversion F as [|b ? bs ? S1 F1 EB]; subst.
  inversion NM as [|? ? N1 N2]; subst.
  assert (forall y, bind_ x e g y = g y) as EQ.
  { intros y. unfold bind_. destruct (Nat.eqb x y) eqn:E; [|reflexivity]. apply Nat.eqb_eq in E. subst. congruence. }
  split; [split; [|split]; assumption|]. split; constructor; try assumption.
  - intros y. rewrite EQ. apply S1.
  - intros y z. rewrite EQ. apply N1.
Qed.

Lemma R_new_own c s es x o v :
  R c s es -> scopes L s <> [] -> own_sid o v ->
  R (add_block L x (fresh L c) (alloc L v c)) (enter L x (Own (length (owns L s))) (create L o s))
    (es ++ [Own (length (owns L s))]).
Proof.
  intros ((T & S & N) & B) NE V. apply R_add_block; try assumption.
  - split; [split; [|split]|]; cbn.
    + apply tables_new_own; assumption.
    + eapply sees_extends; [apply extends_one|exact S].
    + exact N.
    + eapply Rb_extends; [apply extends_one|exact B].
  - unfold fresh. rewrite <- (t_len _ _ _ _ _ _ T). apply nth_app_last.
  - intros y Q. congruence.
Qed.

Lemma R_new_obj c s es x k v :
  R c s es -> scopes L s <> [] -> known L s x = None -> l_fun L k = false -> linked_sid k v ->
  R (add_block L x (fresh L c) (add_obj L x (fresh L c) (alloc L v c))) (enter L x (Linked x) (learn L x k s))
    (es ++ [Linked x]).
Proof.
  intros ((T & S & N) & B) NE K FK V. apply R_add_block; try assumption.
  - split; [split; [|split]|]; cbn.
    + pose proof (tables_new_linked _ _ _ _ _ _ x k v T K V) as Q. rewrite FK in Q. exact Q.
    + eapply sees_extends; [apply extends_one|exact S].
    + exact N.
    + eapply Rb_extends; [apply extends_one|exact B].
  - unfold fresh. rewrite <- (t_len _ _ _ _ _ _ T). apply nth_app_last.
  - intros y Q. congruence.
Qed.

Lemma R_new_fun c s es x k v :
  R c s es -> scopes L s <> [] -> known L s x = None -> l_fun L k = true -> linked_sid k v ->
  R (add_block L x (fresh L c) (add_fun L x (fresh L c) (alloc L v c))) (enter L x (Linked x) (learn L x k s))
    (es ++ [Linked x]).
Proof.
  intros ((T & S & N) & B) NE K FK V. apply R_add_block; try assumption.
  - split; [split; [|split]|]; cbn.
    + pose proof (tables_new_linked _ _ _ _ _ _ x k v T K V) as Q. rewrite FK in Q. exact Q.
    + eapply sees_extends; [apply extends_one|exact S].
    + exact N.
    + eapply Rb_extends; [apply extends_one|exact B].
  - unfold fresh. rewrite <- (t_len _ _ _ _ _ _ T). apply nth_app_last.
  - intros y Q. congruence.
Qed.

Lemma R_update c s es x a k k' v :
  R c s es -> known L s x = Some k -> nth_error es a = Some (Linked x) -> l_fun L k' = l_fun L k -> linked_sid k' v ->
  R (update L a v c) (learn L x k' s) es.
Proof.
  intros ((T & S & N) & B) K A FK V. split; [split; [|split]|]; try assumption. cbn.
  apply (tables_update _ _ _ _ _ _ x k k' a v); assumption.
Qed.

Lemma update_add_block x a v c : update L a v (add_block L x a c) = add_block L x a (update L a v c).
Proof. unfold update, add_block. cbn. destruct (blocks L c) eqn:B; cbn; rewrite ?B; reflexivity. Qed.

Definition result_in (c : cstate) (s : sstate) (es : list entity) (d : decl) (r : res cstate) : Prop :=
  exists c' es', r = Ok c' /\ R c' (declare L false s d) es' /\ extends es es'.

Lemma at_file_false s : scopes L s <> [] -> at_file L s = false.
Proof. unfold at_file. destruct (scopes L s); congruence. Qed.

Lemma block_conflict c s es d :
  R c s es -> scopes L s <> [] -> conflicts L s d = false ->
  current L s (d_name L d) = None /\ top L c (d_name L d) = None
  \/ current L s (d_name L d) = Some (Linked (d_name L d))
     /\ exists k a, known L s (d_name L d) = Some k /\ top L c (d_name L d) = Some a
                    /\ nth_error es a = Some (Linked (d_name L d)).
Proof.
  intros RR NE C. destruct (R_top _ _ _ RR NE) as (S & N). unfold conflicts in C.
  destruct (current L s (d_name L d)) as [[y|n]|] eqn:CU; [|discriminate|].
  - right. pose proof (N _ _ CU) as ->. split; [reflexivity|]. destruct (sees_some _ _ _ _ _ S CU) as (a & TA & A).
    destruct (t_heap _ _ _ _ _ _ (proj1 (proj1 RR)) _ _ A) as (v & _ & k & K & _). exists k, a. auto.
  - left. split; [reflexivity|]. apply (sees_none _ _ _ _ S CU).
Qed.

Lemma visible_known c s es x y : R c s es -> visible L s x = Some (Linked y) -> y = x /\ exists k, known L s x = Some k.
Proof.
  intros ((T & S & N) & F & NM). unfold visible.
  revert F NM. generalize (blocks L c). induction (scopes L s) as [|g gs IH]; intros bs F NM; cbn.
  - intros H. pose proof (N _ _ H) as ->. split; [reflexivity|]. destruct (sees_some _ _ _ _ _ S H) as (a & _ & A).
    destruct (t_heap _ _ _ _ _ _ T _ _ A) as (v & _ & k & K & _). exists k. exact K.
  - inversion F as [|b ? bs' ? S1 F1]; subst. inversion NM as [|? ? N1 N2]; subst.
    destruct (g x) as [e|] eqn:G; [|apply (IH bs'); assumption].
    intros H. injection H as ->. pose proof (N1 _ _ G) as ->. split; [reflexivity|].
    destruct (sees_some _ _ _ _ _ S1 G) as (a & _ & A).
    destruct (t_heap _ _ _ _ _ _ T _ _ A) as (v & _ & k & K & _). exists k. exact K.
Qed.

Lemma internal_unknown c s es d :
  R c s es -> known L s (d_name L d) = None -> static (d_class L d) = false -> internal L s d = false.
Proof.
  intros RR K NS. unfold internal. rewrite NS. destruct (extern (d_class L d) || is_fun L (d_type L d)); [|reflexivity].
  destruct (visible L s (d_name L d)) as [[y|n]|] eqn:V; try reflexivity. destruct (visible_known _ _ _ _ _ RR V) as (-> & k & Q).
  congruence.
Qed.

(** Objects without linkage. *)
Lemma block_object c s es d st :
  R c s es -> scopes L s <> [] -> has_linkage L s d = false -> typedef (d_class L d) = false ->
  clean false s d -> meant false s d -> covers L s d -> duration_of st = storage_duration (d_class L d) ->
  lang_ok -> result_in c s es d (l_define_object L st (d_name L d) (d_type L d) (d_init L d) c).
Proof.
  intros RR NE HL TD CL MT CV DU OK. pose proof (at_file_false _ NE) as AF. destruct (R_top _ _ _ RR NE) as (S & N).
  unfold result_in, declare. rewrite HL, TD.
  destruct (redeclared_none _ _ (cl_own _ _ _ CL HL)) as [CU|(n & t0 & CU & O & Q & _)]; [|congruence].
  pose proof (sees_none _ _ _ _ S CU) as TO. pose proof (mt_own _ _ _ MT HL TD) as IC.
  assert (negb (vm L (d_type L d)) || is_none (d_init L d) = true) as E1.
  { destruct (vm L (d_type L d)) eqn:VM; [|reflexivity]. destruct (d_init L d) as [i|] eqn:IN; [|reflexivity].
    destruct (cl_init _ _ _ CL TD i IN) as (_ & Q & _). pose proof (cv_init _ _ _ CV AF) as W. unfold has_init in W.
    rewrite IN in W. rewrite (W eq_refl VM) in Q. discriminate. }
  unfold l_define_object. rewrite E1, TO. cbn [req]. unfold final_type in *. destruct (d_init L d) as [i|] eqn:IN; cbn [is_none negb orb].
  - destruct (cl_init _ _ _ CL TD i IN) as (_ & _ & t' & CM). rewrite CM in *. rewrite IC. cbn [req negb].
    eexists _, _. split; [reflexivity|]. split; [|apply extends_one]. apply R_new_own; try assumption.
    cbn. exists st, (Some i). split; [reflexivity|exact DU].
  - rewrite IC. cbn [negb req]. eexists _, _. split; [reflexivity|]. split; [|apply extends_one].
    apply R_new_own; try assumption. cbn. exists st, None. split; [reflexivity|exact DU].
Qed.

Lemma block_extern c s es d :
  R c s es -> scopes L s <> [] -> is_fun L (d_type L d) = false -> d_class L d = ScExtern ->
  clean false s d -> meant false s d -> covers L s d ->
  result_in c s es d (l_declare_external L (d_name L d) (d_type L d) c).
Proof.
  intros RR NE NF CC CL MT CV. pose proof (at_file_false _ NE) as AF.
  assert (has_linkage L s d = true) as HL by (unfold has_linkage; rewrite CC, orb_true_r; reflexivity).
  assert (vm L (d_type L d) = false) as VM.
  { destruct (vm L (d_type L d)) eqn:E; [|reflexivity]. destruct (cl_vm _ _ _ CL E). congruence. }
  pose proof (cl_extinit _ _ _ CL AF HL) as IN.
  unfold result_in, declare. rewrite HL. unfold l_declare_external. rewrite VM. cbn [negb req].
  assert (final_type L d = d_type L d) as -> by (unfold final_type; rewrite IN; reflexivity).
  assert (defines L false s d = Declared L) as -> by (unfold defines; rewrite IN, NF, CC; reflexivity).
  rewrite NF, CC. cbn [thread].
  pose proof (proj1 (proj1 RR)) as T. destruct (known L s (d_name L d)) as [k|] eqn:K.
  - destruct (mt_known _ _ _ MT HL k K) as (I & F & C & _). rewrite NF in F.
    pose proof (cl_threads _ _ _ CL HL NF k K F) as TH. rewrite CC in TH. cbn in TH.
    destruct (cv_composite _ _ _ CV k HL K) as (CO & _).
    destruct (tables_obj _ _ _ _ _ _ _ _ T K F) as (a & -> & A & ->). unfold obj_sid at 1. cbv beta iota. rewrite C, TH.
    assert (linked_storage false (if l_internal L k then stat_storage false else ext_storage false) = true) as ->
      by (destruct (l_internal L k); reflexivity).
    cbn [req]. unfold with_composite. rewrite CO.
    assert (linked_sid (LinkedInfo L (l_fun L k) (l_internal L k) (l_thread L k) (joint L (l_type L k) (d_type L d)) (merge L (l_status L k) (Declared L)))
              (SObj L (joint L (l_type L k) (d_type L d)) (if l_internal L k then stat_storage false else ext_storage false)
                 (linkage_of L k) (outer k) (value (l_status L k)))) as LS.
    { unfold linked_sid, obj_sid, outer, linkage_of. cbn [l_fun l_internal l_thread l_type l_status]. rewrite F, TH.
      destruct (l_status L k); reflexivity. }
    rewrite TH in LS.
    destruct (block_conflict _ _ _ _ RR NE (cl_link _ _ _ CL HL)) as [[CU ->]|(CU & k2 & b & K2 & -> & B)].
    + eexists _, es. split; [reflexivity|]. split; [|apply extends_refl]. rewrite update_add_block.
      apply R_add_block; [eapply R_update; [exact RR|exact K|exact A|reflexivity|exact LS]|exact NE|exact A|]. intros y Q. congruence.
    + pose proof (NoDup_nth _ _ _ _ (t_nodup _ _ _ _ _ _ T) A B) as <-. rewrite Nat.eqb_refl. cbn [req].
      eexists _, es. split; [reflexivity|]. split; [|apply extends_refl].
      apply R_rebind; [eapply R_update; [exact RR|exact K|exact A|reflexivity|exact LS]|exact NE|exact CU|]. intros y Q. congruence.
  - rewrite (tables_no_obj _ _ _ _ _ _ _ T K).
    destruct (block_conflict _ _ _ _ RR NE (cl_link _ _ _ CL HL)) as [[CU ->]|(CU & k2 & b & K2 & _)]; [|congruence].
    eexists _, _. split; [reflexivity|]. split; [|apply extends_one].
    rewrite (internal_unknown _ _ _ _ RR K) by (rewrite CC; reflexivity). apply R_new_obj; try assumption; reflexivity.
Qed.

Lemma block_function c s es d :
  R c s es -> scopes L s <> [] -> is_fun L (d_type L d) = true -> typedef (d_class L d) = false ->
  clean false s d -> meant false s d -> covers L s d ->
  result_in c s es d (l_declare_function L (d_inline L d) (d_name L d) (d_type L d) c).
Proof.
  intros RR NE FN TD CL MT CV. pose proof (at_file_false _ NE) as AF.
  assert (has_linkage L s d = true) as HL by (unfold has_linkage; rewrite TD, FN, orb_true_r; reflexivity).
  assert (vm L (d_type L d) = false) as VM.
  { destruct (vm L (d_type L d)) eqn:E; [|reflexivity]. destruct (cl_vm _ _ _ CL E). congruence. }
  pose proof (cl_extinit _ _ _ CL AF HL) as IN. destruct (mt_fun _ _ _ MT AF FN) as (NS & NA).
  pose proof (cl_funthread _ _ _ CL FN) as NTH.
  unfold result_in, declare. rewrite HL. unfold l_declare_function. rewrite VM. cbn [negb req].
  assert (final_type L d = d_type L d) as -> by (unfold final_type; rewrite IN; reflexivity).
  assert (defines L false s d = Declared L) as -> by (unfold defines; rewrite IN, FN; reflexivity).
  rewrite FN, NTH.
  pose proof (proj1 (proj1 RR)) as T. destruct (known L s (d_name L d)) as [k|] eqn:K.
  - destruct (mt_known _ _ _ MT HL k K) as (I & F & C & _). rewrite FN in F.
    destruct (cv_composite _ _ _ CV k HL K) as (CO & _).
    destruct (tables_fun _ _ _ _ _ _ _ _ T K F) as (a & inl & -> & A & -> & TH & VA). unfold fun_sid at 1. cbv beta iota. rewrite C.
    cbn [req]. unfold with_composite. rewrite CO.
    assert (linked_sid (LinkedInfo L (l_fun L k) (l_internal L k) (l_thread L k) (joint L (l_type L k) (d_type L d)) (merge L (l_status L k) (Declared L)))
              (SFun L (joint L (l_type L k) (d_type L d)) (if l_internal L k then StStatic else StExtern) (inl || d_inline L d)
                 (outer k) (is_definition L (l_status L k)))) as LS.
    { unfold linked_sid, fun_sid, outer. cbn [l_fun l_internal l_thread l_type l_status]. rewrite F. split; [|split; [exact TH|]].
      - exists (inl || d_inline L d). destruct (l_status L k); reflexivity.
      - destruct (l_status L k); try reflexivity. exact VA. }
    destruct (block_conflict _ _ _ _ RR NE (cl_link _ _ _ CL HL)) as [[CU ->]|(CU & k2 & b & K2 & -> & B)].
    + eexists _, es. split; [reflexivity|]. split; [|apply extends_refl]. rewrite update_add_block.
      apply R_add_block; [eapply R_update; [exact RR|exact K|exact A|reflexivity|exact LS]|exact NE|exact A|]. intros y Q. congruence.
    + pose proof (NoDup_nth _ _ _ _ (t_nodup _ _ _ _ _ _ T) A B) as <-. rewrite Nat.eqb_refl. cbn [req].
      eexists _, es. split; [reflexivity|]. split; [|apply extends_refl].
      apply R_rebind; [eapply R_update; [exact RR|exact K|exact A|reflexivity|exact LS]|exact NE|exact CU|]. intros y Q. congruence.
  - rewrite (tables_no_fun _ _ _ _ _ _ _ T K).
    destruct (block_conflict _ _ _ _ RR NE (cl_link _ _ _ CL HL)) as [[CU ->]|(CU & k2 & b & K2 & _)]; [|congruence].
    eexists _, _. split; [reflexivity|]. split; [|apply extends_one].
    rewrite (internal_unknown _ _ _ _ RR K) by exact NS. apply R_new_fun; try assumption; try reflexivity.
    unfold linked_sid, fun_sid, outer. cbn. repeat split. exists (d_inline L d). reflexivity.
Qed.

Lemma block_typedef c s es d :
  lang_ok -> R c s es -> scopes L s <> [] -> typedef (d_class L d) = true -> clean false s d -> meant false s d -> covers L s d ->
  result_in c s es d (l_define_type L (d_name L d) (d_type L d) c).
Proof.
  intros OK RR NE TD CL MT CV. destruct (R_top _ _ _ RR NE) as (S & N). pose proof (proj1 (proj1 RR)) as T.
  assert (has_linkage L s d = false) as HL by (unfold has_linkage; rewrite TD; reflexivity).
  unfold result_in, declare, l_define_type. rewrite HL, TD.
  destruct (redeclared_none _ _ (cl_own _ _ _ CL HL)) as [CU|(n & t0 & CU & O & _ & SM & _)]; rewrite CU.
  - rewrite (sees_none _ _ _ _ S CU). eexists _, _. split; [reflexivity|]. split; [|apply extends_one].
    apply R_new_own; try assumption. reflexivity.
  - pose proof (cv_typedef _ _ _ CV n t0 TD CU O) as CP. rewrite SM in CP.
    destruct (sees_some _ _ _ _ _ S CU) as (a & -> & A). destruct (t_heap _ _ _ _ _ _ T _ _ A) as (v & V & H). rewrite V.
    destruct H as (o & Q & H). rewrite O in Q. injection Q as <-. cbn in H. subst v. rewrite CP. cbn [req].
    pose proof (ok_same OK _ _ SM) as <-. exists c, es.
    split; [destruct (incomplete L t0); reflexivity|]. split; [exact RR|apply extends_refl].
Qed.

Lemma block_decl c s es d :
  lang_ok -> R c s es -> scopes L s <> [] -> violation L false s d = false -> undefined L false s d = false -> covers L s d ->
  result_in c s es d (l_define_identifier L (is_none (d_init L d)) d c).
Proof.
  intros OK RR NE V U CV. apply clean_iff in V. apply meant_if in U. pose proof (at_file_false _ NE) as AF.
  unfold l_define_identifier. destruct (is_fun L (d_type L d)) eqn:FN.
  - destruct (mt_fun _ _ _ U AF FN) as (NS & NA). pose proof (cl_funthread _ _ _ V FN) as NTH.
    assert (d_init L d = None) as IN.
    { destruct (typedef (d_class L d)) eqn:TD; [apply (mt_init _ _ _ U); rewrite TD; reflexivity|].
      destruct (d_init L d) as [i|] eqn:IN; [|reflexivity]. destruct (cl_init _ _ _ V TD i IN) as [Q _]. congruence. }
    rewrite IN. cbn [is_none req].
    destruct (d_class L d) eqn:CC; try discriminate.
    + apply block_function; try assumption. rewrite CC. reflexivity.
    + assert (d_inline L d = false) as ->.
      { destruct (d_inline L d) eqn:E; [|reflexivity]. destruct (cl_inline _ _ _ V E) as [_ Q]. rewrite CC in Q. discriminate. }
      cbn [negb req]. apply block_typedef; try assumption. rewrite CC. reflexivity.
    + apply block_function; try assumption. rewrite CC. reflexivity.
  - assert (d_inline L d = false) as ->.
    { destruct (d_inline L d) eqn:E; [|reflexivity]. destruct (cl_inline _ _ _ V E) as [Q _]. congruence. }
    assert (is_none (d_init L d) || negb (is_none (d_init L d)) = true) as -> by (destruct (d_init L d); reflexivity).
    cbn [negb req]. pose proof (cl_thread _ _ _ V AF FN) as NT. pose proof (cv_thread _ _ _ CV AF) as NX.
    pose proof (cl_extinit _ _ _ V AF) as XI.
    destruct (d_class L d) eqn:CC; try congruence.
    + apply block_object; try assumption; unfold has_linkage; rewrite CC, ?AF, ?FN; reflexivity.
    + apply block_typedef; try assumption. rewrite CC. reflexivity.
    + unfold has_linkage in XI. rewrite CC, orb_true_r in XI. rewrite (XI eq_refl). cbn [is_none req]. apply block_extern; assumption.
    + unfold l_define_static.
      assert (negb (vm L (d_type L d)) || is_ptr L (d_type L d) = true) as ->.
      { destruct (vm L (d_type L d)) eqn:VM; [|reflexivity]. pose proof (cv_static _ _ _ CV AF) as Q. rewrite CC in Q.
        destruct (Q eq_refl VM) as [W| ->]; [|reflexivity]. pose proof (cl_vla _ _ _ V) as Z. rewrite CC in Z. rewrite (Z eq_refl) in W. discriminate. }
      cbn [req]. apply block_object; try assumption; unfold has_linkage; rewrite CC, ?AF, ?FN; reflexivity.
    + unfold l_define_static.
      assert (negb (vm L (d_type L d)) || is_ptr L (d_type L d) = true) as ->.
      { destruct (vm L (d_type L d)) eqn:VM; [|reflexivity]. pose proof (cv_static _ _ _ CV AF) as Q. rewrite CC in Q.
        destruct (Q eq_refl VM) as [W| ->]; [|reflexivity]. pose proof (cl_vla _ _ _ V) as Z. rewrite CC in Z. rewrite (Z eq_refl) in W. discriminate. }
      cbn [req]. apply block_object; try assumption; unfold has_linkage; rewrite CC, ?AF, ?FN; reflexivity.
    + apply block_object; try assumption; unfold has_linkage; rewrite CC, ?AF, ?FN; reflexivity.
    + apply block_object; try assumption; unfold has_linkage; rewrite CC, ?AF, ?FN; reflexivity.
Qed.

(** *** One step, and the whole unit *)

Definition view (v : sid) : info L :=
  match v with
  | SObj _ t st lk _ _ => IObject L t (duration_of st) lk
  | SFun _ t st _ _ _ => IFunction L t (match st with StStatic => LInternal | _ => LExternal end)
  | SConst _ => IConstant L
  | STypedef _ t => IType L t
  end.

Lemma holds_describe s e v : holds (known L s) (owns L s) e v -> describe L s e = Some (view v).
Proof.
  destruct e as [x|n]; cbn.
  - intros (k & -> & H). unfold linked_sid in H. destruct (l_fun L k) eqn:F.
    + destruct H as ((inl & ->) & _). cbn. unfold linkage_of. destruct (l_internal L k); reflexivity.
    + subst v. cbn. destruct (l_internal L k), (l_thread L k); reflexivity.
  - intros (o & -> & H). destruct o; cbn in H.
    + destruct H as (st & i & -> & <-). reflexivity.
    + subst. reflexivity.
    + subst. reflexivity.
Qed.

Lemma resolve_visible c s es x : R c s es ->
  match visible L s x, resolve L c x with
  | Some e, Some a => nth_error es a = Some e
  | None, None => True
  | _, _ => False
  end.
Proof.
  intros ((T & S & N) & F & NM). unfold visible, resolve. clear NM. revert F. generalize (blocks L c).
  induction (scopes L s) as [|g gs IH]; intros bs F; inversion F as [|b ? bs' ? S1 F1]; subst; cbn.
  - specialize (S x). destruct (file L s x), (ord L c x); exact S.
  - specialize (S1 x). destruct (g x), (b x); try contradiction; [exact S1|]. apply IH. exact F1.
Qed.

(** What the uses of names must agree on. *)
Definition agree (es : list entity) (m : nat * sid) (o : entity * info L) : Prop :=
  nth_error es (fst m) = Some (fst o) /\ view (snd m) = snd o.

Lemma Rf_outside c s es : Rf c s es -> Rf c (outside L s) es.
Proof. intros H. exact H. Qed.

Lemma step_ok e c s es s' o :
  lang_ok -> R c s es -> covers_event L s e -> sstep L e s = Valid (s', o) ->
  exists c' es' m, step L e c = Ok (c', m) /\ R c' s' es' /\ extends es es' /\ Forall2 (agree es') m o.
Proof.
  intros OK RR CV ST. destruct e as [d|x|d| | |x]; cbn in ST.
  - unfold judge in ST. destruct (violation L false s d) eqn:V; [discriminate|].
    destruct (undefined L false s d) eqn:U; [discriminate|]. injection ST as <- <-. cbn [step].
    destruct (scopes L s) as [|g gs] eqn:SC.
    + pose proof (proj2 RR) as [B _]. rewrite SC in B. inversion B as [E|]. cbv beta zeta. 
      destruct (file_decl false c s es d OK (proj1 RR) SC V U CV) as (c' & es' & M & RF & EX & BL).
      unfold model_file in M. rewrite M. cbn [bind]. exists c', es', []. split; [reflexivity|]. split; [|split; [exact EX|constructor]].
      split; [exact RF|]. rewrite BL, <- E. 
      assert (scopes L (declare L false s d) = []) as ->.
      { unfold declare, enter, learn, create. cbn. rewrite SC. destruct (has_linkage L s d); [reflexivity|].
        destruct (typedef (d_class L d)); [|reflexivity]. destruct (current L s (d_name L d)); [exact SC|reflexivity]. }
      split; constructor.
    + assert (scopes L s <> []) as NE by congruence. pose proof (R_inside _ _ _ RR NE) as NB.
      destruct (block_decl c s es d OK RR NE V U CV) as (c' & es' & M & RF & EX).
      exists c', es', []. split; [|split; [exact RF|split; [exact EX|constructor]]].
      destruct (blocks L c); [congruence|]. rewrite M. reflexivity.
  - destruct (current L s x) eqn:CU; [discriminate|]. injection ST as <- <-. cbn [step].
    destruct (scopes L s) as [|g gs] eqn:SC.
    + unfold current in CU. rewrite SC in CU. destruct (file_const c s es x (proj1 RR) SC CU) as (c' & es' & M & RF & EX & BL).
      pose proof (proj2 RR) as [B _]. rewrite SC in B. inversion B as [E|]. rewrite M. cbn [bind].
      exists c', es', []. split; [reflexivity|]. split; [|split; [exact EX|constructor]]. split; [exact RF|].
      rewrite BL, <- E. unfold enter, create. cbn. rewrite SC. split; constructor.
    + assert (scopes L s <> []) as NE by congruence. pose proof (R_inside _ _ _ RR NE) as NB.
      destruct (R_top _ _ _ RR NE) as (S & N).
      exists (add_block L x (fresh L c) (alloc L (SConst L) c)), (es ++ [Own (length (owns L s))]), [].
      split; [|split; [apply R_new_own; try assumption; reflexivity|split; [apply extends_one|constructor]]].
      destruct (blocks L c) eqn:BL; [congruence|]. unfold l_define_constant. rewrite (sees_none _ _ _ _ S CU). reflexivity.
  - destruct (scopes L s) as [|g [|? ?]] eqn:SC; try discriminate. unfold judge in ST.
    destruct (violation L true (outside L s) d) eqn:V; [discriminate|].
    destruct (undefined L true (outside L s) d) eqn:U; [discriminate|]. injection ST as <- <-.
    destruct (file_decl true c (outside L s) es d OK (proj1 RR) eq_refl V U CV) as (c' & es' & M & RF & EX & BL).
    exists c', es', []. split; [unfold model_file in M; cbn [step]; rewrite M; reflexivity|]. split; [|split; [exact EX|constructor]].
    split; [exact RF|]. rewrite BL. pose proof (proj2 RR) as B. rewrite SC in B. cbn. eapply Rb_extends; eassumption.
  - injection ST as <- <-. eexists _, es, []. split; [reflexivity|]. split; [|split; [apply extends_refl|constructor]].
    destruct RR as (RF & F & N). split; [exact RF|]. cbn. split; constructor; try assumption.
    + intros y. exact I.
    + intros y z. discriminate.
  - destruct (scopes L s) as [|g gs] eqn:SC; [discriminate|]. injection ST as <- <-.
    destruct RR as (RF & F & N). rewrite SC in F, N. cbn [step]. inversion F as [|b ? bs ? S1 F1 E]; subst. inversion N; subst.
    eexists _, es, []. split; [reflexivity|]. split; [|split; [apply extends_refl|constructor]].
    split; [exact RF|]. split; assumption.
  - pose proof (resolve_visible _ _ _ x RR) as RV. destruct (visible L s x) as [e|]; [|discriminate].
    destruct (describe L s e) as [i|] eqn:D; [|discriminate]. injection ST as <- <-. cbn [step].
    destruct (resolve L c x) as [a|]; [|contradiction]. destruct (t_heap _ _ _ _ _ _ (proj1 (proj1 RR)) _ _ RV) as (v & -> & H).
    exists c, es, [(a, v)]. split; [reflexivity|]. split; [exact RR|]. split; [apply extends_refl|]. constructor; [|constructor].
    split; [exact RV|]. cbn. rewrite (holds_describe _ _ _ H) in D. congruence.
Qed.

Lemma agree_extends es es' m o : extends es es' -> Forall2 (agree es) m o -> Forall2 (agree es') m o.
Proof.
  intros [l ->] F. induction F as [|a b m o [A B] F IH]; constructor; [|exact IH]. split; [apply nth_app_old; exact A|exact B].
Qed.

Lemma run_ok evs : forall c s es s' o,
  lang_ok -> R c s es -> covered L s evs -> sruns L evs s = Valid (s', o) ->
  exists c' es' m, run L evs c = Ok (c', m) /\ R c' s' es' /\ extends es es' /\ Forall2 (agree es') m o.
Proof.
  induction evs as [|e evs IH]; intros c s es s' o OK RR CV ST; cbn in *.
  - injection ST as <- <-. exists c, es, []. split; [reflexivity|]. split; [exact RR|]. split; [apply extends_refl|constructor].
  - destruct CV as [C1 C2]. destruct (sstep L e s) as [[s1 o1]| |] eqn:SE; try discriminate.
    destruct (sruns L evs s1) as [[s2 o2]| |] eqn:SR; try discriminate. injection ST as <- <-.
    destruct (step_ok e c s es s1 o1 OK RR C1 SE) as (c1 & es1 & m1 & M1 & R1 & E1 & A1).
    destruct (IH c1 s1 es1 s2 o2 OK R1 C2 SR) as (c2 & es2 & m2 & M2 & R2 & E2 & A2).
    exists c2, es2, (m1 ++ m2). rewrite M1. cbn. rewrite M2. cbn. split; [reflexivity|]. split; [exact R2|].
    split; [eapply extends_trans; eassumption|]. apply Forall2_app; [eapply agree_extends; eassumption|exact A2].
Qed.

Lemma R_init : R (cinit L) (sinit L) [].
Proof.
  split; [split; [|split]|]; cbn.
  - split; cbn; try reflexivity; try constructor; try (intros [|a]; discriminate); try discriminate;
      try (intros [H _]; destruct a; discriminate).
  - intros y. exact I.
  - intros y z. discriminate.
  - split; constructor.
Qed.

(** *** The symbols *)

Lemma symbols_ok c s es x : R c s es -> symbols L c x = due L s x.
Proof.
  intros ((T & _ & _) & _). unfold symbols, due. destruct (known L s x) as [k|] eqn:K.
  - destruct (l_fun L k) eqn:F.
    + destruct (tables_fun _ _ _ _ _ _ _ _ T K F) as (a & inl & FA & A & H & TH & VA).
      assert (objs L c x = None) as ->.
      { destruct (objs L c x) as [b|] eqn:B; [|reflexivity]. apply (t_obj _ _ _ _ _ _ T) in B. destruct B as (_ & k' & Q & W). congruence. }
      rewrite FA. cbn. rewrite H. cbn. unfold outer. rewrite TH.
      destruct (l_internal L k), (l_status L k); cbn in *; congruence.
    + destruct (tables_obj _ _ _ _ _ _ _ _ T K F) as (a & OA & A & H).
      assert (funs L c x = None) as ->.
      { destruct (funs L c x) as [b|] eqn:B; [|reflexivity]. apply (t_fun _ _ _ _ _ _ T) in B. destruct B as (_ & k' & Q & W). congruence. }
      rewrite OA. cbn. rewrite H. cbn. unfold outer.
      destruct (l_internal L k), (l_status L k), (l_thread L k); reflexivity.
  - rewrite (tables_no_obj _ _ _ _ _ _ _ T K), (tables_no_fun _ _ _ _ _ _ _ T K). reflexivity.
Qed.

End Proofs.
