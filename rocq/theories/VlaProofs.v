(** Proofs about the storage of variable length arrays: the code is typed by the arrays
    in scope at each instruction, and typed code keeps the chain of scopes. *)

From Coq Require Import ZArith Bool List Lia.
Import ListNotations.
From Verif Require Import VlaModel VlaSpec.

Scheme stmt_mut := Induction for stmt Sort Prop
  with items_mut := Induction for items Sort Prop.
Combined Scheme stmt_items_ind from stmt_mut, items_mut.

(** * Lists *)

Lemma nodup_app {A} (a b : list A) :
  NoDup (a ++ b) <-> NoDup a /\ NoDup b /\ (forall x, In x a -> ~ In x b).
Proof.
  induction a as [|x a IH]; simpl.
  - intuition. constructor.
  - rewrite !NoDup_cons_iff, IH, in_app_iff. split.
    + intros (N & A1 & B & D). repeat split; auto.
      intros y [<-|Hy]; auto.
    + intros ((N & A1) & B & D). repeat split; auto.
      intros [H|H]; [auto | exact (D x (or_introl eq_refl) H)].
Qed.

Lemma position_eqb_eq a b : position_eqb a b = true <-> a = b.
Proof. unfold position_eqb. destruct (list_eq_dec Nat.eq_dec a b); split; congruence. Qed.

Lemma no_duplicate_nodup l : no_duplicate l = true -> NoDup l.
Proof.
  induction l as [|x l IH]; simpl; [constructor|].
  rewrite andb_true_iff, negb_true_iff. intros (H & H'). constructor; auto.
  intros Hin. assert (existsb (Nat.eqb x) l = true) as E.
  { apply existsb_exists. exists x. rewrite Nat.eqb_refl. auto. }
  congruence.
Qed.

(** * Places *)


(** No place occurs twice. *)
Fixpoint uniq (s : stmt) : Prop :=
  match s with
  | SUse _ | SReturn _ | SGoto _ _ | SAlloca | SBreak | SContinue => True
  | SBlock l => uniq_items l
  | SIf k s1 s2 => ~ occurs (AtUse k) s1 /\ ~ occurs (AtUse k) s2 /\ uniq s1 /\ uniq s2
                   /\ (forall x, occurs x s1 -> ~ occurs x s2)
  | SWhile k s | SDo s k | SSwitch k s => ~ occurs (AtUse k) s /\ uniq s
  | SFor k1 k2 k3 s =>
    ~ occurs (AtUse k1) s /\ ~ occurs (AtUse k2) s /\ ~ occurs (AtUse k3) s /\ uniq s
  | SCase s | SDefault s => uniq s
  | SLabel l s => ~ occurs (AtLabel l) s /\ uniq s
  end
with uniq_items (l : items) : Prop :=
  match l with
  | INil => True
  | IVla _ r => uniq_items r
  | IStmt s r => uniq s /\ uniq_items r /\ (forall x, occurs x s -> ~ occurs_items x r)
  end.

Lemma occurs_in :
  (forall s x, occurs x s <-> match x with AtUse k => In k (uses s) | AtLabel l => In l (label_names s) end) /\
  (forall l x, occurs_items x l <->
     match x with AtUse k => In k (uses_items l) | AtLabel n => In n (label_names_items l) end).
Proof.
  apply stmt_items_ind; simpl; intros;
    repeat match goal with H : forall x, occurs x _ <-> _ |- _ => rewrite H; clear H
           | H : forall x, occurs_items x _ <-> _ |- _ => rewrite H; clear H end;
    destruct x as [n|n]; simpl; rewrite ?in_app_iff;
    intuition (try congruence; subst; auto).
Qed.

Lemma uniq_of :
  (forall s, NoDup (uses s) -> NoDup (label_names s) -> uniq s) /\
  (forall l, NoDup (uses_items l) -> NoDup (label_names_items l) -> uniq_items l).
Proof.
  assert (O1 := proj1 occurs_in). assert (O2 := proj2 occurs_in).
  apply stmt_items_ind; simpl; intros; auto;
    repeat match goal with
           | H : NoDup (_ :: _) |- _ => apply NoDup_cons_iff in H; destruct H; simpl in *
           | H : NoDup (_ ++ _) |- _ => apply nodup_app in H; destruct H as (? & ? & ?)
           end;
    rewrite ?O1; simpl in *; rewrite ?in_app_iff in *;
    repeat match goal with |- _ /\ _ => split end; auto;
    try (intros; intuition fail).
  - intros x. rewrite !O1. destruct x; auto.
  - intros x. rewrite O1, O2. destruct x; auto.
Qed.

Lemma visible_occurs :
  (forall s x v, visible x v s -> occurs x s) /\
  (forall l x v, visible_items x v l -> occurs_items x l).
Proof.
  apply stmt_items_ind; simpl; intros; try contradiction; eauto;
    repeat match goal with H : _ \/ _ |- _ => destruct H | H : _ /\ _ |- _ => destruct H end;
    subst; auto;
    repeat match goal with
           | H : forall x v, visible x v ?s -> occurs x ?s, G : visible _ _ ?s |- _ => apply H in G
           | H : forall x v, visible_items x v ?s -> occurs_items x ?s, G : visible_items _ _ ?s |- _ => apply H in G
           end; auto.
Qed.

(** * Positions *)

Definition ctx (p : path) : list nat := flat_map (fun f => rev (f_range f)) p.

Lemma ctx_add p v : p <> [] -> ctx (add_element p v) = v :: ctx p.
Proof. destruct p as [|f r]; [congruence|]. intros _. unfold ctx. simpl. rewrite rev_app_distr. reflexivity. Qed.

Lemma ctx_push p pos k all : ctx (push p pos k all) = ctx p.
Proof. reflexivity. Qed.

Definition all_of (s : stmt) : list nat := match s with SBlock l => decls l | _ => [] end.
Definition kind_of (s : stmt) : option kind :=
  match s with
  | SBlock _ => Some KBlock | SIf _ _ _ => Some KIf | SWhile _ _ => Some KWhile | SDo _ _ => Some KDo
  | SFor _ _ _ _ => Some KFor | SSwitch _ _ => Some KSwitch | _ => None
  end.

Fixpoint item_at (l : items) (n : nat) (p : path) : option (stmt * path) :=
  match l with
  | INil => None
  | IVla v r => match n with O => None | S n => item_at r n (add_element p v) end
  | IStmt s r => match n with O => Some (s, p) | S n => item_at r n p end
  end.

Definition child (s : stmt) (p : path) (pos : position) (i : nat) : option (stmt * path) :=
  match s with
  | SBlock l => item_at l i (push p pos KBlock (decls l))
  | SIf _ s1 s2 =>
    match i with
    | O => Some (s1, push p pos KIf []) | S O => Some (s2, push p pos KIf []) | _ => None
    end
  | SWhile _ s => match i with O => Some (s, push p pos KWhile []) | _ => None end
  | SDo s _ => match i with O => Some (s, push p pos KDo []) | _ => None end
  | SFor _ _ _ s => match i with O => Some (s, push p pos KFor []) | _ => None end
  | SSwitch _ s => match i with O => Some (s, push p pos KSwitch []) | _ => None end
  | SCase s | SDefault s | SLabel _ s => match i with O => Some (s, p) | _ => None end
  | _ => None
  end.

Section Function.
Variable body : items.
Variable strict : bool.

Fixpoint at_ (pos : position) : option (stmt * path) :=
  match pos with
  | [] => Some (SBlock body, [])
  | i :: pos' => match at_ pos' with Some (s, p) => child s p pos' i | None => None end
  end.

Lemma at_child pos s p i x : at_ pos = Some (s, p) -> child s p pos i = x -> at_ (i :: pos) = x.
Proof. intros H <-. simpl. rewrite H. reflexivity. Qed.

(** The items of a block from the [i]th on. *)
Definition items_at (l : items) (i : nat) (pos : position) (p : path) : Prop :=
  forall n x, item_at l n p = Some x -> at_ ((i + n)%nat :: pos) = Some x.

Lemma items_at_vla v r i pos p : items_at (IVla v r) i pos p -> items_at r (S i) pos (add_element p v).
Proof.
  intros H n x E. specialize (H (S n) x). simpl in *. rewrite <- plus_n_Sm in H. auto.
Qed.
Lemma items_at_stmt s r i pos p :
  items_at (IStmt s r) i pos p -> at_ (i :: pos) = Some (s, p) /\ items_at r (S i) pos p.
Proof.
  intros H. split.
  - specialize (H O _ eq_refl). rewrite <- plus_n_O in H. exact H.
  - intros n x E. specialize (H (S n) x). simpl in *. rewrite <- plus_n_Sm in H. auto.
Qed.
Lemma items_at_block l pos p :
  at_ pos = Some (SBlock l, p) -> items_at l 0 pos (push p pos KBlock (decls l)).
Proof. intros H n x E. cbn [plus]. eapply at_child; eauto. Qed.

Fixpoint path_ok (p : path) : Prop :=
  match p with
  | [] => True
  | f :: r =>
    path_ok r /\
    (exists s, at_ (f_id f) = Some (s, r) /\ f_all f = all_of s /\ kind_of s = Some (f_kind f)) /\
    (exists z, f_all f = f_range f ++ z) /\
    (strict = true -> (length (f_all f) <= 1)%nat)
  end.

Lemma path_ok_push p pos s k all :
  path_ok p -> at_ pos = Some (s, p) -> all = all_of s -> kind_of s = Some k ->
  (strict = true -> (length all <= 1)%nat) ->
  path_ok (push p pos k all).
Proof.
  intros H1 H2 H3 H4 H5. simpl. repeat split; auto.
  - exists s. auto.
  - exists all. auto.
Qed.

Lemma path_ok_add p v f r z :
  path_ok p -> p = f :: r -> f_all f = f_range f ++ v :: z -> path_ok (add_element p v).
Proof.
  intros H -> E. simpl in *. destruct H as (A & B & C & D). repeat split; auto.
  exists z. rewrite <- app_assoc. exact E.
Qed.

(** * Typing *)

Variable L : list (nat * path).

Definition delta (t : point) : list nat :=
  match t with
  | PThen q | PElse q | PBegin q | PCont q | PEnd q | PCase q =>
    match at_ q with Some (_, p) => ctx p | None => [] end
  | PLabel l => match lookup_label L l with Some p => ctx p | None => [] end
  end.

Inductive ti : ins -> list nat -> list nat -> Prop :=
| TiUse k G : (forall v, visible_items (AtUse k) v body <-> In v G) -> ti (Use k) G G
| TiDeclare v G : ~ In v G -> ti (Declare v) G (v :: G)
| TiAlloca G : strict = false -> ti Alloca G G
| TiPop v xs G : (strict = true -> xs = []) -> ti (PopScope v) (xs ++ v :: G) G
| TiMark t : ti (Mark t) (delta t) (delta t)
| TiJmp t G : ti (Jmp t) (delta t) G
| TiBranch t : ti (Branch t) (delta t) (delta t)
| TiRet G G' : ti Ret G G'.

Inductive typed : list ins -> list nat -> list nat -> Prop :=
| TNil G : typed [] G G
| TCons i c G G1 G2 : ti i G G1 -> typed c G1 G2 -> typed (i :: c) G G2.

Lemma typed_app a b G1 G2 G3 : typed a G1 G2 -> typed b G2 G3 -> typed (a ++ b) G1 G3.
Proof. induction 1; simpl; auto. intros. econstructor; eauto. Qed.

Lemma typed_one i G G' : ti i G G' -> typed [i] G G'.
Proof. intros. econstructor; eauto. constructor. Qed.

Lemma ti_mark t G : delta t = G -> ti (Mark t) G G.
Proof. intros <-. constructor. Qed.
Lemma ti_jmp t G G' : delta t = G -> ti (Jmp t) G G'.
Proof. intros <-. constructor. Qed.
Lemma ti_branch t G : delta t = G -> ti (Branch t) G G.
Proof. intros <-. constructor. Qed.

(** * Jumps *)

Lemma split_at_spec pos p a g :
  split_at pos p = Some (a, g) -> f_id g = pos /\ exists r, p = a ++ g :: r.
Proof.
  revert a. induction p as [|f p IH]; simpl; intros a H; [discriminate|].
  destruct (position_eqb (f_id f) pos) eqn:E.
  - inversion H; subst. apply position_eqb_eq in E. split; eauto.
    exists p. reflexivity.
  - destruct (split_at pos p) as [[a' g']|]; [|discriminate]. inversion H; subst.
    destruct (IH a' eq_refl) as (E1 & r & ->). split; auto. exists r. reflexivity.
Qed.

Lemma common_parent_spec p1 p2 a f b g :
  common_parent p1 p2 = Some (a, f, (b, g)) ->
  f_id f = f_id g /\ (exists r, p1 = a ++ f :: r) /\ (exists r, p2 = b ++ g :: r).
Proof.
  revert a. induction p1 as [|h p IH]; simpl; intros a H; [discriminate|].
  destruct (split_at (f_id h) p2) as [[b' g']|] eqn:E.
  - inversion H; subst. destruct (split_at_spec _ _ _ _ E) as (E1 & E2). repeat split; auto.
    exists p. reflexivity.
  - destruct (common_parent p p2) as [[[a' f'] x]|] eqn:E2; [|discriminate]. inversion H; subst.
    destruct (IH a' eq_refl) as (E3 & (r & ->) & E4). repeat split; auto. exists r. reflexivity.
Qed.

Lemma path_ok_app a p : path_ok (a ++ p) -> path_ok p.
Proof. induction a; simpl; auto. intros (H & _). auto. Qed.

Lemma common_parent_ok p1 p2 a f b g :
  path_ok p1 -> path_ok p2 -> common_parent p1 p2 = Some (a, f, (b, g)) ->
  exists r, p1 = a ++ f :: r /\ p2 = b ++ g :: r /\ f_all f = f_all g /\ f_kind f = f_kind g.
Proof.
  intros P1 P2 H. destruct (common_parent_spec _ _ _ _ _ _ H) as (E & (r1 & ->) & (r2 & ->)).
  apply path_ok_app in P1. apply path_ok_app in P2. simpl in *.
  destruct P1 as (_ & (s1 & A1 & B1 & C1) & _). destruct P2 as (_ & (s2 & A2 & B2 & C2) & _).
  rewrite E in A1. rewrite A1 in A2. inversion A2; subst. exists r2.
  repeat split; congruence.
Qed.

(** The match of the ranges: a target range is matched exactly if it is an initial part of
    the origin range. *)
Lemma last_cons_default {A} (r : list A) x y : last (y :: r) x = last r y.
Proof. revert y. induction r as [|z r IH]; intros y; [reflexivity|]. change (last (z :: r) x = last (z :: r) y).
  rewrite IH. clear IH. revert z. induction r; intros; simpl; auto. destruct r; auto. apply IHr. Qed.

Lemma last_in {A} (r : list A) x : In (last r x) (x :: r).
Proof. revert x. induction r as [|y r IH]; intros x; [left; reflexivity|]. rewrite last_cons_default. right. apply IH. Qed.

(* iterating over all elements [pre] done, the origin range ends at [o], the target at [t] *)
Lemma match_ranges_spec all :
  NoDup all ->
  forall r1 z1 r2 z2 x1 x2, all = (x1 :: r1) ++ z1 -> all = (x2 :: r2) ++ z2 ->
  forall rest, match_ranges all all (Some (last r1 x1)) (Some (last r2 x2)) = Some rest ->
  rest = z1 /\ exists w, x2 :: r2 = (x1 :: r1) ++ w.
Proof.
  induction all as [|y all IH]; intros N r1 z1 r2 z2 x1 x2 E1 E2 rest H; [discriminate|].
  simpl in E1, E2. injection E1 as <- E1. injection E2 as <- E2. inversion N as [|? ? N1 N2]; subst.
  cbn [match_ranges is_tail] in H. rewrite Nat.eqb_refl in H.
  destruct (Nat.eqb y (last r1 y)) eqn:T.
  - apply Nat.eqb_eq in T. destruct r1 as [|x1' r1].
    + inversion H; subst. split; auto. exists r2. reflexivity.
    + exfalso. apply N1. rewrite last_cons_default in T.
      apply in_app_iff. left. rewrite T. apply last_in.
  - destruct (Nat.eqb y (last r2 y)) eqn:O; [discriminate|].
    destruct r1 as [|x1' r1]; [simpl in T; rewrite Nat.eqb_refl in T; discriminate|].
    destruct r2 as [|x2' r2]; [simpl in O; rewrite Nat.eqb_refl in O; discriminate|].
    rewrite !last_cons_default in H.
    destruct (IH N2 r1 z1 r2 z2 x1' x2' eq_refl E2 rest H) as (-> & w & E).
    split; auto. exists w. simpl in *. congruence.
Qed.

(** What the jumps of tidy functions satisfy. *)
Definition left_ok (f : frame) : Prop := f_all f <> [] -> f_range f <> [].
Definition not_mid (f : frame) : Prop := f_range f = [] \/ f_range f = f_all f.

Lemma nodup_path p f : path_ok p -> In f p -> exists s r, at_ (f_id f) = Some (s, r) /\ f_all f = all_of s.
Proof.
  induction p as [|g p IH]; simpl; [tauto|]. intros (H1 & (s & A & B & _) & _) [<-|H]; eauto.
Qed.

(** A jump that is not refused does not enter the scope of an array. *)
Lemma no_vla_ctx ts : existsb contains_vla ts = false -> path_ok ts \/ True ->
  (forall f, In f ts -> f_kind f <> KBlock -> f_all f = []) ->
  (forall f, In f ts -> exists z, f_all f = f_range f ++ z) ->
  ctx ts = [].
Proof.
  induction ts as [|f ts IH]; intros H _ K R; [reflexivity|].
  simpl in H. apply orb_false_iff in H. destruct H as (H & H'). unfold ctx. simpl.
  fold (ctx ts). rewrite IH; auto; [|intros; apply K; simpl; auto|intros; apply R; simpl; auto].
  rewrite app_nil_r. destruct (R f (or_introl eq_refl)) as (z & E).
  assert (f_all f = []) as E0.
  { unfold contains_vla in H. destruct (f_kind f) eqn:Ek; try (apply K; simpl; auto; congruence).
    destruct (f_all f); congruence. }
  rewrite E0 in E. destruct (f_range f); [reflexivity|discriminate].
Qed.

Lemma path_ok_in p f : path_ok p -> In f p ->
  (f_kind f <> KBlock -> f_all f = []) /\ (exists z, f_all f = f_range f ++ z) /\
  (strict = true -> (length (f_all f) <= 1)%nat).
Proof.
  induction p as [|g p IH]; simpl; [tauto|]. intros (H1 & (s & A & B & C) & D & E) [<-|H]; auto.
  split; auto. rewrite B. destruct s; simpl in *; intros; auto; try congruence.
Qed.

Lemma ctx_app a b : ctx (a ++ b) = ctx a ++ ctx b.
Proof. apply flat_map_app. Qed.

Lemma range_iter_ok f z : f_all f = f_range f ++ z -> f_range f <> [] -> range_iter f = f_all f.
Proof. unfold range_iter. destruct (f_range f); congruence. Qed.

Lemma jump_entry origin target t c :
  (forall s p q, at_ q = Some (s, p) -> NoDup (all_of s)) ->
  path_ok origin -> path_ok target -> perform_jump origin target t = Some c ->
  incl (ctx target) (ctx origin).
Proof.
  intros ND PO PT H. unfold perform_jump in H.
  destruct (common_parent origin target) as [[[os fo] [ts ft]]|] eqn:E; [|discriminate].
  destruct (common_parent_ok _ _ _ _ _ _ PO PT E) as (r & -> & -> & EA & EK).
  destruct (existsb contains_vla ts) eqn:V; [discriminate|].
  destruct (match_ranges _ _ _ _) as [rest|] eqn:M; [|discriminate].
  rewrite !ctx_app. rewrite (no_vla_ctx ts V); auto.
  2: { intros f Hf. apply (path_ok_in _ f PT). apply in_app_iff. auto. }
  2: { intros f Hf. apply (path_ok_in _ f PT). apply in_app_iff. auto. }
  simpl. intros x Hx. apply in_app_iff. right. unfold ctx in *. simpl in *.
  apply in_app_iff in Hx. apply in_app_iff. destruct Hx as [Hx|Hx]; auto. left.
  apply in_rev in Hx. apply in_rev. rewrite rev_involutive.
  apply path_ok_app in PO. apply path_ok_app in PT. simpl in PO, PT.
  destruct PO as (_ & (s & A & B & _) & (zo & Zo) & _). destruct PT as (_ & _ & (zt & Zt) & _).
  specialize (ND _ _ _ A). rewrite <- B in ND.
  unfold range_iter, range_tail in M.
  destruct (f_range ft) as [|x1 r1] eqn:R1; [contradiction|].
  destruct (f_range fo) as [|x2 r2] eqn:R2.
  - rewrite Zt in M. discriminate.
  - rewrite <- EA in *. destruct (match_ranges_spec _ ND _ _ _ _ _ _ Zt Zo _ M) as (_ & w & Ew).
    rewrite Ew. apply in_app_iff. auto.
Qed.

Lemma typed_left os G : path_ok os \/ True ->
  (forall f, In f os -> (f_kind f <> KBlock -> f_all f = []) /\ (exists z, f_all f = f_range f ++ z) /\
                        (strict = true -> (length (f_all f) <= 1)%nat) /\ left_ok f) ->
  typed (flat_map pop_of os) (ctx os ++ G) G.
Proof.
  intros _. induction os as [|f os IH]; intros H; [constructor|].
  unfold ctx. simpl. fold (ctx os). rewrite <- app_assoc.
  eapply typed_app; [|apply IH; intros; apply H; simpl; auto].
  destruct (H f (or_introl eq_refl)) as (K & (z & Z) & S1 & LO). unfold pop_of, contains_vla, left_ok in *.
  destruct (f_all f) as [|v a] eqn:A.
  - destruct (f_range f); [|discriminate]. simpl. destruct (f_kind f); constructor.
  - destruct (f_kind f); try (exfalso; apply (list_eq_dec Nat.eq_dec [] [] ) ; fail).
    2-6: exfalso; assert (v :: a = []) by (apply K; congruence); discriminate.
    destruct (f_range f) as [|w rg] eqn:R; [exfalso; apply LO; congruence|].
    simpl in Z. inversion Z; subst. apply typed_one.
    simpl. rewrite <- !app_assoc. simpl. constructor.
    intros T. specialize (S1 T). simpl in S1. destruct rg; [reflexivity|simpl in S1; lia].
Qed.

Lemma jump_typed origin target t c G :
  (forall s p q, at_ q = Some (s, p) -> NoDup (all_of s)) ->
  path_ok origin -> path_ok target -> perform_jump origin target t = Some c ->
  delta t = ctx target ->
  (forall os fo x, common_parent origin target = Some (os, fo, x) -> Forall left_ok os) ->
  Forall not_mid target ->
  typed c (ctx origin) G.
Proof.
  intros ND PO PT H D LO NM. unfold perform_jump in H.
  destruct (common_parent origin target) as [[[os fo] [ts ft]]|] eqn:E; [|discriminate].
  destruct (common_parent_ok _ _ _ _ _ _ PO PT E) as (r & -> & -> & EA & EK).
  destruct (existsb contains_vla ts) eqn:V; [discriminate|].
  destruct (match_ranges _ _ _ _) as [rest|] eqn:M; [|discriminate].
  inversion H; subst; clear H.
  rewrite ctx_app in *. rewrite (no_vla_ctx ts V) in D; auto.
  2: { intros f Hf. apply (path_ok_in _ f PT). apply in_app_iff. auto. }
  2: { intros f Hf. apply (path_ok_in _ f PT). apply in_app_iff. auto. }
  simpl in D. specialize (LO _ _ _ eq_refl). rewrite Forall_forall in LO.
  eapply typed_app.
  { apply typed_left; auto. intros f Hf.
    destruct (path_ok_in _ f PO) as (A & B & C); [apply in_app_iff; auto|]. auto. }
  assert (NF : not_mid ft).
  { rewrite Forall_forall in NM. apply NM. apply in_app_iff. simpl. auto. }
  apply path_ok_app in PO. apply path_ok_app in PT. simpl in PO, PT.
  destruct PO as (_ & (s & A & B & _) & (zo & Zo) & SO). destruct PT as (_ & _ & (zt & Zt) & _).
  specialize (ND _ _ _ A). rewrite <- B in ND.
  change (delta t = rev (f_range ft) ++ ctx r) in D.
  change (typed (match rest with
                 | [] => []
                 | _ :: _ => match f_all fo with v :: _ => [PopScope v] | [] => [] end
                 end ++ [Jmp t]) (rev (f_range fo) ++ ctx r) G).
  unfold range_iter, range_tail in M.
  destruct (f_range ft) as [|x1 r1] eqn:R1.
  - (* nothing in scope at the target *)
    simpl in M. inversion M; subst; clear M.
    destruct (f_range fo) as [|x2 r2] eqn:R2.
    + simpl. apply typed_one, ti_jmp. exact D.
    + rewrite Zo. simpl. econstructor; [|apply typed_one, ti_jmp; exact D].
      rewrite <- app_assoc. simpl. constructor. intros T. specialize (SO T). rewrite Zo in SO.
      simpl in SO. destruct r2; [reflexivity|simpl in SO; lia].
  - destruct NF as [NF|NF]; [congruence|].
    destruct (f_range fo) as [|x2 r2] eqn:R2.
    + exfalso. rewrite Zt in M. discriminate.
    + rewrite <- EA in *. destruct (match_ranges_spec _ ND _ _ _ _ _ _ Zt Zo _ M) as (-> & w & Ew).
      assert (zt = []).
      { rewrite R1 in NF. rewrite NF in Zt. rewrite <- (app_nil_r (f_all fo)) in Zt at 1.
        apply app_inv_head in Zt. auto. }
      subst zt. simpl. apply typed_one, ti_jmp. rewrite D. f_equal. f_equal.
      rewrite app_nil_r in Zt. rewrite Ew in Zo. rewrite Zt in Zo.
      rewrite <- (app_nil_r (x1 :: r1)), <- !app_assoc in Zo.
      apply app_inv_head in Zo. simpl in Zo. symmetry in Zo. apply app_eq_nil in Zo. destruct Zo as (-> & _).
      rewrite app_nil_r in Ew. rewrite <- Ew. reflexivity.
Qed.


(** * The invariants of tidy functions *)

Fixpoint stays_path (s : stmt) (p : path) (bl cl : bool) : Prop :=
  match p with
  | [] => True
  | f :: r =>
    (f_all f <> [] -> f_range f = [] -> stays s bl cl = true) /\
    stays_path s r (bl || is_loop_switch (f_kind f)) (cl || is_loop (f_kind f))
  end.
Definition calm_path (s : stmt) (p : path) : Prop := forall f, In f p -> not_mid f \/ calm s = true.

Lemma stays_path_impl s1 s2 p :
  forall bl cl bl' cl',
  (forall x y, stays s1 (bl || x) (cl || y) = true -> stays s2 (bl' || x) (cl' || y) = true) ->
  stays_path s1 p bl cl -> stays_path s2 p bl' cl'.
Proof.
  induction p as [|f p IH]; simpl; auto.
  intros bl cl bl' cl' I (H1 & H2). split.
  - intros A B. specialize (H1 A B). specialize (I false false). rewrite !orb_false_r in I. auto.
  - eapply IH; [|exact H2]. intros x y. rewrite <- !orb_assoc. apply I.
Qed.

Lemma stays_path_push s1 s2 p pos k :
  (forall x y, stays s1 x y = true -> stays s2 (is_loop_switch k || x) (is_loop k || y) = true) ->
  stays_path s1 p false false -> stays_path s2 (push p pos k []) false false.
Proof.
  intros I H. simpl. split; [congruence|].
  eapply stays_path_impl; [|exact H]. intros x y E. simpl in E. auto.
Qed.

Lemma stays_path_same s1 s2 p :
  (forall x y, stays s1 x y = true -> stays s2 x y = true) ->
  stays_path s1 p false false -> stays_path s2 p false false.
Proof. intros I. apply stays_path_impl. auto. Qed.

Lemma calm_path_push s1 s2 p pos k :
  (calm s1 = true -> calm s2 = true) -> calm_path s1 p -> calm_path s2 (push p pos k []).
Proof.
  intros I H f [<-|Hf]; [left; left; reflexivity|]. destruct (H f Hf); auto.
Qed.
Lemma calm_path_same s1 s2 p :
  (calm s1 = true -> calm s2 = true) -> calm_path s1 p -> calm_path s2 p.
Proof. intros I H f Hf. destruct (H f Hf); auto. Qed.

(** The path of the items of a block: the frame of the block, with the arrays declared so
    far and those of the remaining items. *)
Record block_path (l : items) (seen : bool) (f : frame) (r : path) : Prop := {
  bp_kind : f_kind f = KBlock;
  bp_all : f_all f = f_range f ++ decls l;
  bp_seen : seen = match f_range f with [] => false | _ => true end }.

Definition stays_rest (l : items) (r : path) : Prop := stays_path (SBlock l) r false false.
Definition calm_rest (l : items) (r : path) : Prop := calm_path (SBlock l) r.

Lemma stays_item s r f rest seen :
  block_path (IStmt s r) seen f rest -> tidy_items (IStmt s r) seen = true ->
  stays_rest (IStmt s r) rest -> stays_path s (f :: rest) false false.
Proof.
  intros B T H. simpl in T. rewrite !andb_true_iff in T. destruct T as ((T1 & T2) & T3).
  simpl. split.
  - intros A R. destruct B as [Bk Ba Bs]. rewrite R in *. simpl in Ba. subst seen.
    destruct (decls r); [congruence|exact T3].
  - rewrite (bp_kind _ _ _ _ B). simpl. eapply stays_path_same; [|exact H].
    intros x y. simpl. rewrite andb_true_iff. tauto.
Qed.

Lemma calm_item s r f rest seen :
  block_path (IStmt s r) seen f rest -> tidy_items (IStmt s r) seen = true ->
  calm_rest (IStmt s r) rest -> calm_path s (f :: rest).
Proof.
  intros B T H. simpl in T. rewrite !andb_true_iff in T. destruct T as ((T1 & T2) & T3).
  intros g [<-|Hg].
  - destruct B as [Bk Ba Bs]. simpl in Ba. unfold not_mid.
    destruct (f_range f) as [|x y]; auto. subst seen.
    destruct (decls r) as [|v w]; auto. left. right. rewrite app_nil_r in Ba. auto.
  - destruct (H g Hg) as [H'|H']; auto. right. simpl in H'. rewrite andb_true_iff in H'. tauto.
Qed.

Lemma stays_rest_next s r rest : stays_rest (IStmt s r) rest -> stays_rest r rest.
Proof. apply stays_path_same. intros x y. simpl. rewrite andb_true_iff. tauto. Qed.
Lemma calm_rest_next s r rest : calm_rest (IStmt s r) rest -> calm_rest r rest.
Proof. apply calm_path_same. simpl. rewrite andb_true_iff. tauto. Qed.

Lemma block_path_next s r seen f rest : block_path (IStmt s r) seen f rest -> block_path r seen f rest.
Proof. intros [A B C]. constructor; auto. Qed.

Lemma block_path_vla v r seen f rest :
  block_path (IVla v r) seen f rest ->
  exists g, add_element (f :: rest) v = g :: rest /\ block_path r true g rest.
Proof.
  intros [A B C]. eexists. split; [reflexivity|]. constructor; simpl; auto.
  - rewrite <- app_assoc. exact B.
  - destruct (f_range f); reflexivity.
Qed.

Lemma block_path_start l pos p :
  exists f, push p pos KBlock (decls l) = f :: p /\ block_path l false f p.
Proof. eexists. split; [reflexivity|]. constructor; reflexivity. Qed.

(** * Labels *)

Definition label_ok (q : path) : Prop := path_ok q /\ Forall not_mid q.

Lemma labels_ok :
  (forall s pos p, at_ pos = Some (s, p) -> path_ok p -> tidy s = true -> calm_path s p ->
     (strict = true -> simple s = true) ->
     forall l q, In (l, q) (labels s pos p) -> label_ok q) /\
  (forall it i pos f r seen, items_at it i pos (f :: r) -> path_ok (f :: r) -> tidy_items it seen = true ->
     block_path it seen f r -> calm_rest it r -> (strict = true -> simple_items it = true) ->
     forall l q, In (l, q) (labels_items it i pos (f :: r)) -> label_ok q).
Proof.
  apply stmt_items_ind; simpl labels; simpl tidy; simpl simple;
    try (intros; simpl in *; contradiction).
  - (* block *)
    intros l IH pos p A PO T C SI m q H.
    destruct (block_path_start l pos p) as (f & E & B).
    rewrite E in H. eapply IH; eauto.
    + rewrite <- E. apply items_at_block. exact A.
    + rewrite <- E. eapply path_ok_push; eauto.
      intros S1. specialize (SI S1). rewrite andb_true_iff, Nat.leb_le in SI. tauto.
    + intros S1. specialize (SI S1). rewrite andb_true_iff in SI. tauto.
  - intros k s1 IH1 s2 IH2 pos p A PO T C SI m q H. rewrite andb_true_iff in T. destruct T as (T1 & T2).
    apply in_app_iff in H. destruct H as [H|H].
    + refine (IH1 _ _ _ _ T1 _ _ _ _ H).
      * eapply at_child; [exact A|reflexivity].
      * eapply path_ok_push; eauto; simpl; auto.
      * eapply calm_path_push; [|exact C]. simpl. rewrite andb_true_iff. tauto.
      * intros S1. specialize (SI S1). rewrite andb_true_iff in SI. tauto.
    + refine (IH2 _ _ _ _ T2 _ _ _ _ H).
      * eapply at_child; [exact A|reflexivity].
      * eapply path_ok_push; eauto; simpl; auto.
      * eapply calm_path_push; [|exact C]. simpl. rewrite andb_true_iff. tauto.
      * intros S1. specialize (SI S1). rewrite andb_true_iff in SI. tauto.
  - intros k s IH pos p A PO T C SI m q H. refine (IH _ _ _ _ T _ _ _ _ H); auto.
    + eapply at_child; [exact A|reflexivity].
    + eapply path_ok_push; eauto; simpl; auto.
    + eapply calm_path_push; [|exact C]. auto.
  - intros s IH k pos p A PO T C SI m q H. refine (IH _ _ _ _ T _ _ _ _ H); auto.
    + eapply at_child; [exact A|reflexivity].
    + eapply path_ok_push; eauto; simpl; auto.
    + eapply calm_path_push; [|exact C]. auto.
  - intros k1 k2 k3 s IH pos p A PO T C SI m q H. refine (IH _ _ _ _ T _ _ _ _ H); auto.
    + eapply at_child; [exact A|reflexivity].
    + eapply path_ok_push; eauto; simpl; auto.
    + eapply calm_path_push; [|exact C]. auto.
  - intros k s IH pos p A PO T C SI m q H. refine (IH _ _ _ _ T _ _ _ _ H); auto.
    + eapply at_child; [exact A|reflexivity].
    + eapply path_ok_push; eauto; simpl; auto.
    + eapply calm_path_push; [|exact C]. auto.
  - intros s IH pos p A PO T C SI m q H. refine (IH _ _ _ PO T _ _ _ _ H); auto.
    eapply at_child; [exact A|reflexivity].
  - intros s IH pos p A PO T C SI m q H. refine (IH _ _ _ PO T _ _ _ _ H); auto.
    eapply at_child; [exact A|reflexivity].
  - intros l s IH pos p A PO T C SI m q H. simpl in H. destruct H as [H|H].
    + inversion H; subst. split; auto. apply Forall_forall. intros f Hf.
      destruct (C f Hf) as [?|D]; auto. simpl in D. discriminate.
    + refine (IH _ _ _ PO T _ _ _ _ H); auto.
      * eapply at_child; [exact A|reflexivity].
      * intros f Hf. destruct (C f Hf) as [?|D]; auto. simpl in D. discriminate.
  - intros v r IH i pos f rest seen I PO T B C SI l q H. cbn [labels_items] in H.
    destruct (block_path_vla _ _ _ _ _ B) as (g & E & B').
    rewrite E in H. eapply (IH (S i) pos g rest true); eauto.
    + rewrite <- E. apply items_at_vla. exact I.
    + rewrite <- E. eapply path_ok_add; eauto. apply (bp_all _ _ _ _ B).
  - intros s IHs r IHr i pos f rest seen I PO T B C SI l q H. cbn [labels_items] in H.
    destruct (items_at_stmt _ _ _ _ _ I) as (A & I').
    apply in_app_iff in H. destruct H as [H|H].
    + refine (IHs _ _ A PO _ _ _ _ _ H).
      * simpl in T. rewrite !andb_true_iff in T. tauto.
      * eapply calm_item; eauto.
      * intros S1. specialize (SI S1). simpl in SI. rewrite andb_true_iff in SI. tauto.
    + refine (IHr _ _ _ _ _ I' PO _ (block_path_next _ _ _ _ _ B) (calm_rest_next _ _ _ C) _ _ _ H).
      * simpl in T. rewrite !andb_true_iff in T. tauto.
      * intros S1. specialize (SI S1). simpl in SI. rewrite andb_true_iff in SI. tauto.
Qed.

(** * Case labels *)

Lemma no_cases :
  (forall s pos, switches_legal s true = true -> cases s pos = []) /\
  (forall l i pos, switches_legal_items l true = true -> cases_items l i pos = []).
Proof.
  apply stmt_items_ind; simpl; intros; auto; try discriminate;
    rewrite ?andb_true_iff in *; repeat match goal with H : _ /\ _ |- _ => destruct H end;
    rewrite ?H, ?H0; auto.
Qed.

Lemma cases_ctx :
  (forall s pos p, at_ pos = Some (s, p) -> switches_legal s false = true ->
     forall c, In c (cases s pos) -> delta (PCase (fst c)) = ctx p) /\
  (forall l i pos p, items_at l i pos p -> switches_legal_items l false = true ->
     forall c, In c (cases_items l i pos) -> delta (PCase (fst c)) = ctx p).
Proof.
  apply stmt_items_ind; simpl cases; simpl switches_legal;
    try (intros; simpl in *; contradiction).
  - intros l IH pos p A SL c H.
    rewrite (IH _ _ _ (items_at_block _ _ _ A) SL c H). reflexivity.
  - intros k s1 IH1 s2 IH2 pos p A SL c H. rewrite andb_true_iff in SL. destruct SL as (L1 & L2).
    apply in_app_iff in H. destruct H as [H|H].
    + eapply (IH1 _ (push p pos KIf [])); eauto. eapply at_child; [exact A|reflexivity].
    + eapply (IH2 _ (push p pos KIf [])); eauto. eapply at_child; [exact A|reflexivity].
  - intros k s IH pos p A SL c H. eapply (IH _ (push p pos KWhile [])); eauto. eapply at_child; [exact A|reflexivity].
  - intros s IH k pos p A SL c H. eapply (IH _ (push p pos KDo [])); eauto. eapply at_child; [exact A|reflexivity].
  - intros k1 k2 k3 s IH pos p A SL c H. eapply (IH _ (push p pos KFor [])); eauto. eapply at_child; [exact A|reflexivity].
  - intros s IH pos p A SL c H. destruct H as [<-|H].
    + unfold delta. simpl fst. rewrite A. reflexivity.
    + eapply (IH (0%nat :: pos) p); eauto. eapply at_child; [exact A|reflexivity].
  - intros s IH pos p A SL c H. destruct H as [<-|H].
    + unfold delta. simpl fst. rewrite A. reflexivity.
    + eapply (IH (0%nat :: pos) p); eauto. eapply at_child; [exact A|reflexivity].
  - intros l s IH pos p A SL c H. eapply (IH (0%nat :: pos) p); eauto. eapply at_child; [exact A|reflexivity].
  - intros v r IH i pos p I SL c H. simpl in H, SL. rewrite (proj2 no_cases) in H; auto. contradiction.
  - intros s IHs r IHr i pos p I SL c H. simpl in H, SL. rewrite andb_true_iff in SL. destruct SL as (L1 & L2).
    destruct (items_at_stmt _ _ _ _ _ I) as (A & I').
    apply in_app_iff in H. destruct H as [H|H]; eauto.
Qed.


(** * Typing of statements *)

Lemma lookup_in l q : lookup_label L l = Some q -> In (l, q) L.
Proof.
  clear. induction L as [|[m r] K IH]; simpl; [discriminate|].
  destruct (Nat.eqb m l) eqn:E; [|auto]. apply Nat.eqb_eq in E. intros H. inversion H; subst. auto.
Qed.
Lemma in_lookup l q : NoDup (map fst L) -> In (l, q) L -> lookup_label L l = Some q.
Proof.
  clear. induction L as [|[m r] K IH]; simpl; [tauto|]. intros N [H|H].
  - inversion H; subst. rewrite Nat.eqb_refl. reflexivity.
  - inversion N as [|? ? N1 N2]; subst. destruct (Nat.eqb m l) eqn:E; [|auto].
    apply Nat.eqb_eq in E. subst. exfalso. apply N1. apply (in_map fst) in H. exact H.
Qed.

Lemma common_parent_prefix b q os fo x :
  common_parent (b ++ q) q = Some (os, fo, x) -> exists b', b = os ++ b'.
Proof.
  revert os. induction b as [|h b IH]; simpl; intros os H.
  - destruct q as [|g q]; [discriminate|]. simpl in H.
    assert (position_eqb (f_id g) (f_id g) = true) as E by (apply position_eqb_eq; reflexivity).
    rewrite E in H. inversion H; subst. exists []. reflexivity.
  - destruct (split_at (f_id h) q) as [[b1 g]|].
    + inversion H; subst. eexists. reflexivity.
    + destruct (common_parent (b ++ q) q) as [[[os' f'] y]|]; [|discriminate]. inversion H; subst.
      destruct (IH os' eq_refl) as (b' & ->). exists b'. reflexivity.
Qed.

Lemma find_structure_spec sel p d q :
  find_structure sel p = Some (d, q) ->
  exists a f, p = a ++ f :: q /\ f_id f = d /\ sel (f_kind f) = true /\
              (forall g, In g a -> sel (f_kind g) = false).
Proof.
  induction p as [|f p IH]; simpl; [discriminate|].
  destruct (sel (f_kind f)) eqn:E.
  - intros H. inversion H; subst. exists [], f. repeat split; auto. intros g [].
  - intros H. destruct (IH H) as (a & g & -> & E1 & E2 & E3). exists (f :: a), g.
    repeat split; auto. intros h [<-|Hh]; auto.
Qed.

Lemma stays_break a f q cl :
  (forall g, In g a -> is_loop_switch (f_kind g) = false) ->
  stays_path SBreak (a ++ f :: q) false cl -> Forall left_ok (a ++ [f]).
Proof.
  revert cl. induction a as [|h a IH]; intros cl K H; destruct H as (H1 & H2).
  - constructor; [|constructor]. intros A B. specialize (H1 A B). discriminate.
  - simpl. constructor; [intros A B; specialize (H1 A B); discriminate|].
    rewrite (K h (or_introl eq_refl)) in H2. eapply IH; [|exact H2]. intros; apply K; simpl; auto.
Qed.
Lemma stays_continue a f q bl :
  (forall g, In g a -> is_loop (f_kind g) = false) ->
  stays_path SContinue (a ++ f :: q) bl false -> Forall left_ok (a ++ [f]).
Proof.
  revert bl. induction a as [|h a IH]; intros bl K H; destruct H as (H1 & H2).
  - constructor; [|constructor]. intros A B. specialize (H1 A B). discriminate.
  - simpl. constructor; [intros A B; specialize (H1 A B); discriminate|].
    rewrite (K h (or_introl eq_refl)) in H2. eapply IH; [|exact H2]. intros; apply K; simpl; auto.
Qed.
Lemma stays_goto k l p bl cl : stays_path (SGoto k l) p bl cl -> Forall left_ok p.
Proof.
  revert bl cl. induction p as [|f p IH]; simpl; intros bl cl H; constructor.
  - intros A B. destruct H as (H & _). specialize (H A B). discriminate.
  - destruct H as (_ & H). eapply IH; eauto.
Qed.

Lemma loop_jump sel mk p d q c G (s : stmt) :
  (forall s' p' q', at_ q' = Some (s', p') -> NoDup (all_of s')) ->
  path_ok p -> find_structure sel p = Some (d, q) -> perform_jump p q (mk d) = Some c ->
  (forall x p' pos, at_ pos = Some (x, p') -> delta (mk pos) = ctx p') ->
  (forall a f, p = a ++ f :: q -> (forall g, In g a -> sel (f_kind g) = false) -> Forall left_ok (a ++ [f])) ->
  calm_path s p -> calm s = false ->
  typed c (ctx p) G.
Proof.
  intros ND PO F J D LO C CF.
  destruct (find_structure_spec _ _ _ _ F) as (a & f & E & Ed & Es & Ea).
  assert (PQ := PO). rewrite E in PQ. apply path_ok_app in PQ. destruct PQ as (PQ & (x & A & _) & _).
  eapply (jump_typed p q (mk d)); eauto.
  - eapply D. rewrite <- Ed. exact A.
  - intros os fo y H. specialize (LO a f E Ea).
    replace (a ++ f :: q) with ((a ++ [f]) ++ q) in E by (rewrite <- app_assoc; reflexivity).
    rewrite E in H. destruct (common_parent_prefix _ _ _ _ _ H) as (b' & Eb). rewrite Eb in LO.
    apply Forall_app in LO. tauto.
  - apply Forall_forall. intros g Hg. destruct (C g) as [?|?]; auto; [|congruence].
    rewrite E. apply in_app_iff. simpl. auto.
Qed.

Definition vis_ok (s : stmt) (p : path) : Prop :=
  forall x, occurs x s -> forall v, visible_items x v body <-> In v (ctx p) \/ visible x v s.
Definition vis_items_ok (l : items) (p : path) : Prop :=
  forall x, occurs_items x l -> forall v, visible_items x v body <-> In v (ctx p) \/ visible_items x v l.

Lemma vis_leaf s p k :
  vis_ok s p -> occurs (AtUse k) s -> (forall v, ~ visible (AtUse k) v s) ->
  forall v, visible_items (AtUse k) v body <-> In v (ctx p).
Proof. intros V O N v. rewrite (V _ O v). specialize (N v). tauto. Qed.

Lemma cat_some a b c : cat a b = Some c -> exists x y, a = Some x /\ b = Some y /\ c = x ++ y.
Proof. unfold cat. destruct a, b; try discriminate. intros H. inversion H. eauto. Qed.

Ltac uncat H :=
  match type of H with
  | cat _ _ = Some _ =>
    let x := fresh "c" in let y := fresh "c" in let E1 := fresh "E" in let E2 := fresh "E" in
    apply cat_some in H; destruct H as (x & y & E1 & E2 & ->); uncat E1; uncat E2
  | Some _ = Some _ => inversion H; subst; clear H
  | _ => idtac
  end.

Ltac bools := repeat rewrite andb_true_iff in *; repeat match goal with H : _ /\ _ |- _ => destruct H end.

Hypothesis ND : forall s p q, at_ q = Some (s, p) -> NoDup (all_of s).
Hypothesis NL : NoDup (map fst L).
Hypothesis LOK : forall l q, In (l, q) L -> label_ok q.

(** what is known of a statement *)
Record known (s : stmt) (pos : position) (p : path) : Prop := {
  k_at : at_ pos = Some (s, p);
  k_path : path_ok p;
  k_tidy : tidy s = true;
  k_stays : stays_path s p false false;
  k_calm : calm_path s p;
  k_simple : strict = true -> simple s = true;
  k_switch : exists b, switches_legal s b = true;
  k_uniq : uniq s;
  k_vis : vis_ok s p;
  k_nodup : NoDup (arrays s);
  k_new : forall v, In v (arrays s) -> ~ In v (ctx p);
  k_labels : incl (labels s pos p) L }.

Record known_items (l : items) (i : nat) (pos : position) (f : frame) (r : path) (seen : bool) : Prop := {
  ki_at : items_at l i pos (f :: r);
  ki_path : path_ok (f :: r);
  ki_block : block_path l seen f r;
  ki_tidy : tidy_items l seen = true;
  ki_stays : stays_rest l r;
  ki_calm : calm_rest l r;
  ki_simple : strict = true -> simple_items l = true;
  ki_switch : exists b, switches_legal_items l b = true;
  ki_uniq : uniq_items l;
  ki_vis : vis_items_ok l (f :: r);
  ki_nodup : NoDup (arrays_items l);
  ki_new : forall v, In v (arrays_items l) -> ~ In v (ctx (f :: r));
  ki_labels : incl (labels_items l i pos (f :: r)) L }.

Lemma vis_child s s' p pos k :
  vis_ok s p -> (forall x, occurs x s' -> occurs x s) ->
  (forall x v, occurs x s' -> (visible x v s <-> visible x v s')) ->
  vis_ok s' (push p pos k []).
Proof. intros V O I x Hx v. rewrite (V x (O x Hx) v), (I x v Hx). reflexivity. Qed.

Lemma k_block l pos p : known (SBlock l) pos p ->
  exists f, push p pos KBlock (decls l) = f :: p /\ known_items l 0 pos f p false.
Proof.
  intros [A PO T ST C SI (b & SW) U V N NW LB].
  destruct (block_path_start l pos p) as (f & E & B). exists f. split; auto.
  constructor; auto; try (rewrite <- E).
  - apply items_at_block. exact A.
  - eapply path_ok_push; eauto. intros S1. specialize (SI S1). simpl in SI.
    rewrite andb_true_iff, Nat.leb_le in SI. tauto.
  - intros S1. specialize (SI S1). simpl in SI. bools. auto.
  - exists b. exact SW.
  - intros x Hx v. rewrite ctx_push. apply (V x Hx v).
  - intros v Hv. rewrite ctx_push. exact (NW v Hv).
  - exact LB.
Qed.

Lemma k_vla v r i pos f rest seen : known_items (IVla v r) i pos f rest seen ->
  exists g, add_element (f :: rest) v = g :: rest /\ known_items r (S i) pos g rest true /\
            ~ In v (ctx (f :: rest)).
Proof.
  intros [I PO B T ST C SI (b & SW) U V N NW LB].
  destruct (block_path_vla _ _ _ _ _ B) as (g & E & B'). exists g. split; auto.
  assert (Hv : ~ In v (ctx (f :: rest))) by (apply NW; simpl; auto). split; auto.
  assert (EC : ctx (g :: rest) = v :: ctx (f :: rest)) by (rewrite <- E; apply ctx_add; congruence).
  simpl in N. apply NoDup_cons_iff in N. destruct N as (N1 & N2).
  assert (ST' : stays_rest r rest) by (eapply stays_path_same; [|exact ST]; auto).
  assert (C' : calm_rest r rest) by (eapply calm_path_same; [|exact C]; auto).
  constructor; auto.
  - rewrite <- E. apply items_at_vla. exact I.
  - rewrite <- E. eapply path_ok_add; eauto. apply (bp_all _ _ _ _ B).
  - exists true. simpl in SW. exact SW.
  - intros x Hx w. rewrite EC. rewrite (V x Hx w). simpl. intuition (subst; auto).
  - intros w Hw. rewrite EC. intros [<-|H]; [auto|]. exact (NW w (or_intror Hw) H).
  - cbn [labels_items] in LB. rewrite E in LB. exact LB.
Qed.

Lemma k_stmt s r i pos f rest seen : known_items (IStmt s r) i pos f rest seen ->
  known s (i :: pos) (f :: rest) /\ known_items r (S i) pos f rest seen.
Proof.
  intros [I PO B T ST C SI (b & SW) U V N NW LB].
  destruct (items_at_stmt _ _ _ _ _ I) as (A & I').
  assert (T' := T). simpl in T'. rewrite !andb_true_iff in T'. destruct T' as ((T1 & T2) & T3).
  simpl in SW, U, N. rewrite andb_true_iff in SW. destruct SW as (SW1 & SW2).
  destruct U as (U1 & U2 & U3). apply nodup_app in N. destruct N as (N1 & N2 & N3).
  cbn [labels_items] in LB. split; constructor; auto.
  - eapply stays_item; eauto.
  - eapply calm_item; eauto.
  - intros S1. specialize (SI S1). simpl in SI. bools. auto.
  - eauto.
  - intros x Hx v. rewrite (V x (or_introl Hx) v). simpl.
    assert (~ visible_items x v r) by (intros H; apply (proj2 visible_occurs) in H; exact (U3 x Hx H)). tauto.
  - intros v Hv. apply NW. simpl. apply in_app_iff. auto.
  - intros y Hy. apply LB. apply in_app_iff. auto.
  - eapply block_path_next; eauto.
  - eapply stays_rest_next; eauto.
  - eapply calm_rest_next; eauto.
  - intros S1. specialize (SI S1). simpl in SI. bools. auto.
  - eauto.
  - intros x Hx v. rewrite (V x (or_intror Hx) v). simpl.
    assert (~ visible x v s) by (intros H; apply (proj1 visible_occurs) in H; exact (U3 x H Hx)). tauto.
  - intros v Hv. apply NW. simpl. apply in_app_iff. auto.
  - intros y Hy. apply LB. apply in_app_iff. auto.
Qed.

(** the body of a structure that is not a block *)
Lemma k_child s s' i k pos p : known s pos p ->
  child s p pos i = Some (s', push p pos k []) -> kind_of s = Some k -> all_of s = [] ->
  (tidy s = true -> tidy s' = true) ->
  (forall x y, stays s x y = true -> stays s' (is_loop_switch k || x) (is_loop k || y) = true) ->
  (calm s = true -> calm s' = true) -> (simple s = true -> simple s' = true) ->
  (forall b, switches_legal s b = true -> exists b', switches_legal s' b' = true) ->
  uniq s' -> (forall x, occurs x s' -> occurs x s) ->
  (forall x v, occurs x s' -> (visible x v s <-> visible x v s')) ->
  NoDup (arrays s') -> incl (arrays s') (arrays s) ->
  incl (labels s' (i :: pos) (push p pos k [])) (labels s pos p) ->
  known s' (i :: pos) (push p pos k []).
Proof.
  intros [A PO T ST C SI (b & SW) U V N NW LB] H1 H2 H3 H4 H5 H6 H7 H8 H9 H10 H11 H12 H13 H14.
  constructor; auto.
  - eapply at_child; eauto.
  - eapply path_ok_push; eauto; simpl; auto.
  - eapply stays_path_push; eauto.
  - eapply calm_path_push; eauto.
  - eauto.
  - eapply vis_child; eauto.
  - intros y Hy. apply LB. apply H14. exact Hy.
Qed.

(** the statement of a label *)
Lemma k_same s s' pos p : known s pos p ->
  child s p pos 0 = Some (s', p) ->
  (tidy s = true -> tidy s' = true) ->
  (forall x y, stays s x y = true -> stays s' x y = true) ->
  (calm s = true -> calm s' = true) -> (simple s = true -> simple s' = true) ->
  (forall b, switches_legal s b = true -> exists b', switches_legal s' b' = true) ->
  uniq s' -> (forall x, occurs x s' -> occurs x s) ->
  (forall x v, occurs x s' -> (visible x v s <-> visible x v s')) ->
  NoDup (arrays s') -> incl (arrays s') (arrays s) ->
  incl (labels s' (0%nat :: pos) p) (labels s pos p) ->
  known s' (0%nat :: pos) p.
Proof.
  intros [A PO T ST C SI (b & SW) U V N NW LB] H1 H4 H5 H6 H7 H8 H9 H10 H11 H12 H13 H14.
  constructor; auto.
  - eapply at_child; eauto.
  - eapply stays_path_same; eauto.
  - eapply calm_path_same; eauto.
  - eauto.
  - intros x Hx v. rewrite (V x (H10 x Hx) v), (H11 x v Hx). reflexivity.
  - intros y Hy. apply LB. apply H14. exact Hy.
Qed.

Ltac solve_child K :=
  first [eapply k_child; [exact K | reflexivity | reflexivity | reflexivity | ..]
        | eapply k_same; [exact K | reflexivity | ..]];
  simpl; intros; bools; auto; try reflexivity; try tauto; eauto;
  try (apply incl_refl); try (intros ? ?; apply in_app_iff; auto; fail);
  try (intros ? ?; right; assumption).

Lemma typed_all :
  (forall s pos p c, known s pos p -> trans L s pos p = Some c -> typed c (ctx p) (ctx p)) /\
  (forall l i pos f r seen c, known_items l i pos f r seen -> trans_items L l i pos (f :: r) = Some c ->
     typed c (ctx (f :: r)) (rev (decls l) ++ ctx (f :: r))).
Proof.
  apply stmt_items_ind.
  - (* use *) intros k pos p c K H. simpl in H. inversion H; subst. apply typed_one. constructor.
    eapply vis_leaf; [apply (k_vis _ _ _ K)|simpl; auto|simpl; auto].
  - (* alloca *) intros pos p c K H. simpl in H. inversion H; subst. apply typed_one. constructor.
    destruct strict eqn:S1; auto. assert (H1 := k_simple _ _ _ K S1). discriminate.
  - (* block *) intros l IH pos p c K H. cbn [trans] in H. cbv zeta in H.
    destruct (k_block _ _ _ K) as (f & E & KI). rewrite E in H. cbn [firstn flat_map] in H. uncat H.
    assert (TI := IH _ _ _ _ _ _ KI E0).
    destruct (ki_block _ _ _ _ _ _ KI) as [Bk Ba Bs].
    assert (ER : f_range f = []) by (inversion E; reflexivity).
    assert (EA : f_all f = decls l) by (inversion E; reflexivity).
    assert (EC : ctx (f :: p) = ctx p) by (unfold ctx; simpl; rewrite ER; reflexivity).
    rewrite EC in TI. eapply typed_app; [exact TI|]. simpl. rewrite app_nil_r. unfold pop_of, contains_vla. rewrite Bk, EA.
    destruct (decls l) as [|v w] eqn:D; [constructor|].
    apply typed_one. simpl. rewrite <- app_assoc. simpl. constructor.
    intros S1. assert (H1 := k_simple _ _ _ K S1). simpl in H1. rewrite andb_true_iff, D, Nat.leb_le in H1.
    simpl in H1. destruct w; [reflexivity|simpl in H1; lia].
  - (* if *) intros k s1 IH1 s2 IH2 pos p c K H. cbn [trans] in H; cbv zeta in H. uncat H; cbn [app].
    assert (A := k_at _ _ _ K). assert (U := k_uniq _ _ _ K). simpl in U.
    destruct U as (U1 & U2 & U3 & U4 & U5).
    assert (N := k_nodup _ _ _ K). simpl in N. apply nodup_app in N. destruct N as (N1 & N2 & N3).
    assert (V1 : forall x v, visible x v s1 -> occurs x s1) by apply visible_occurs.
    assert (V2 : forall x v, visible x v s2 -> occurs x s2) by apply visible_occurs.
    assert (DT : delta (PThen pos) = ctx p) by (simpl; rewrite A; reflexivity).
    assert (DE : delta (PElse pos) = ctx p) by (simpl; rewrite A; reflexivity).
    econstructor; [constructor; eapply vis_leaf; [apply (k_vis _ _ _ K)|simpl; auto|]|].
    { simpl. intros v [Hv|Hv]; eauto. }
    econstructor; [apply ti_branch; exact DT|].
    eapply typed_app.
    { change (ctx p) with (ctx (push p pos KIf [])). eapply IH1; [|eassumption].
      solve_child K. split; auto. intros [?|?]; auto. exfalso. eapply U5; eauto. }
    econstructor; [apply ti_jmp; exact DE|].
    econstructor; [apply ti_mark; exact DT|].
    eapply typed_app.
    { change (ctx p) with (ctx (push p pos KIf [])). eapply IH2; [|eassumption].
      solve_child K. split; auto. intros [?|?]; auto. exfalso. eapply U5; eauto. }
    apply typed_one, ti_mark. exact DE.
  - (* while *) intros k s IH pos p c K H. cbn [trans] in H; cbv zeta in H. uncat H; cbn [app].
    assert (A := k_at _ _ _ K). assert (U := k_uniq _ _ _ K). simpl in U. destruct U as (U1 & U2).
    assert (N := k_nodup _ _ _ K). simpl in N.
    assert (V1 : forall x v, visible x v s -> occurs x s) by apply visible_occurs.
    assert (DC : delta (PCont pos) = ctx p) by (simpl; rewrite A; reflexivity).
    assert (DE : delta (PEnd pos) = ctx p) by (simpl; rewrite A; reflexivity).
    econstructor; [apply ti_mark; exact DC|].
    econstructor; [constructor; eapply vis_leaf; [apply (k_vis _ _ _ K)|simpl; auto|simpl; eauto]|].
    econstructor; [apply ti_branch; exact DE|].
    eapply typed_app.
    { change (ctx p) with (ctx (push p pos KWhile [])). eapply IH; [|eassumption]. solve_child K. }
    econstructor; [apply ti_jmp; exact DC|]. apply typed_one, ti_mark. exact DE.
  - (* do *) intros s IH k pos p c K H. cbn [trans] in H; cbv zeta in H. uncat H; cbn [app].
    assert (A := k_at _ _ _ K). assert (U := k_uniq _ _ _ K). simpl in U. destruct U as (U1 & U2).
    assert (N := k_nodup _ _ _ K). simpl in N.
    assert (V1 : forall x v, visible x v s -> occurs x s) by apply visible_occurs.
    assert (DB : delta (PBegin pos) = ctx p) by (simpl; rewrite A; reflexivity).
    assert (DC : delta (PCont pos) = ctx p) by (simpl; rewrite A; reflexivity).
    assert (DE : delta (PEnd pos) = ctx p) by (simpl; rewrite A; reflexivity).
    econstructor; [apply ti_mark; exact DB|].
    eapply typed_app.
    { change (ctx p) with (ctx (push p pos KDo [])). eapply IH; [|eassumption]. solve_child K. }
    econstructor; [apply ti_mark; exact DC|].
    econstructor; [constructor; eapply vis_leaf; [apply (k_vis _ _ _ K)|simpl; auto|simpl; eauto]|].
    econstructor; [apply ti_branch; exact DB|]. apply typed_one, ti_mark. exact DE.
  - (* for *) intros k1 k2 k3 s IH pos p c K H. cbn [trans] in H; cbv zeta in H. uncat H; cbn [app].
    assert (A := k_at _ _ _ K). assert (U := k_uniq _ _ _ K). simpl in U. destruct U as (U1 & U2 & U3 & U4).
    assert (N := k_nodup _ _ _ K). simpl in N.
    assert (V1 : forall x v, visible x v s -> occurs x s) by apply visible_occurs.
    assert (DB : delta (PBegin pos) = ctx p) by (simpl; rewrite A; reflexivity).
    assert (DC : delta (PCont pos) = ctx p) by (simpl; rewrite A; reflexivity).
    assert (DE : delta (PEnd pos) = ctx p) by (simpl; rewrite A; reflexivity).
    econstructor; [constructor; eapply vis_leaf; [apply (k_vis _ _ _ K)|simpl; auto|simpl; eauto]|].
    econstructor; [apply ti_mark; exact DB|].
    econstructor; [constructor; eapply vis_leaf; [apply (k_vis _ _ _ K)|simpl; auto|simpl; eauto]|].
    econstructor; [apply ti_branch; exact DE|].
    eapply typed_app.
    { change (ctx p) with (ctx (push p pos KFor [])). eapply IH; [|eassumption]. solve_child K. }
    econstructor; [apply ti_mark; exact DC|].
    econstructor; [constructor; eapply vis_leaf; [apply (k_vis _ _ _ K)|simpl; auto|simpl; eauto]|].
    econstructor; [apply ti_jmp; exact DB|]. apply typed_one, ti_mark. exact DE.
  - (* switch *) intros k s IH pos p c K H. cbn [trans] in H; cbv zeta in H.
    assert (A := k_at _ _ _ K). assert (U := k_uniq _ _ _ K). simpl in U. destruct U as (U1 & U2).
    assert (N := k_nodup _ _ _ K). simpl in N.
    assert (V1 : forall x v, visible x v s -> occurs x s) by apply visible_occurs.
    assert (DE : delta (PEnd pos) = ctx p) by (simpl; rewrite A; reflexivity).
    destruct (k_switch _ _ _ K) as (b & SW). simpl in SW.
    assert (CA : forall c, In c (cases s (0%nat :: pos)) -> delta (PCase (fst c)) = ctx p).
    { intros x Hx. change (ctx p) with (ctx (push p pos KSwitch [])).
      eapply (proj1 cases_ctx); [|exact SW|exact Hx]. eapply at_child; [exact A|reflexivity]. }
    assert (exists d, cat (Some (Use k :: map (fun c => Branch (PCase (fst c)))
                                   (filter (fun c => negb (snd c)) (cases s (0%nat :: pos)))
                                ++ [Jmp d]))
                        (cat (trans L s (0%nat :: pos) (push p pos KSwitch [])) (Some [Mark (PEnd pos)])) = Some c
                      /\ delta d = ctx p) as (d & H1 & D).
    { destruct (map fst (filter snd (cases s (0%nat :: pos)))) as [|d [|d2 dr]] eqn:F; [..|discriminate].
      - eauto.
      - exists (PCase d). split; [exact H|].
        assert (In d [d]) as Hd by (simpl; auto). rewrite <- F in Hd. apply in_map_iff in Hd.
        destruct Hd as (x & <- & Hx). apply filter_In in Hx. apply CA. tauto. }
    clear H. uncat H1; cbn [app].
    econstructor; [constructor; eapply vis_leaf; [apply (k_vis _ _ _ K)|simpl; auto|simpl; eauto]|].
    rewrite <- app_assoc. eapply typed_app; [|].
    { assert (forall l, (forall x, In x l -> delta (PCase (fst x)) = ctx p) ->
                typed (map (fun c : position * bool => Branch (PCase (fst c))) l) (ctx p) (ctx p)) as R.
      { induction l as [|x l IHl]; intros Hl; [constructor|]. simpl.
        econstructor; [apply ti_branch; apply Hl; simpl; auto|]. apply IHl. intros; apply Hl; simpl; auto. }
      apply R. intros x Hx. apply filter_In in Hx. apply CA. tauto. }
    econstructor; [apply ti_jmp; exact D|].
    eapply typed_app.
    { change (ctx p) with (ctx (push p pos KSwitch [])). eapply IH; [|eassumption]. solve_child K. }
    apply typed_one, ti_mark. exact DE.
  - (* case *) intros s IH pos p c K H. cbn [trans] in H. destruct (in_switch p); [|discriminate]. uncat H; cbn [app].
    assert (A := k_at _ _ _ K). assert (U := k_uniq _ _ _ K). simpl in U.
    assert (N := k_nodup _ _ _ K). simpl in N.
    econstructor; [apply ti_mark; simpl; rewrite A; reflexivity|].
    eapply IH; [|eassumption]. solve_child K.
  - (* default *) intros s IH pos p c K H. cbn [trans] in H. destruct (in_switch p); [|discriminate]. uncat H; cbn [app].
    assert (A := k_at _ _ _ K). assert (U := k_uniq _ _ _ K). simpl in U.
    assert (N := k_nodup _ _ _ K). simpl in N.
    econstructor; [apply ti_mark; simpl; rewrite A; reflexivity|].
    eapply IH; [|eassumption]. solve_child K.
  - (* label *) intros l s IH pos p c K H. cbn [trans] in H; cbv zeta in H. uncat H; cbn [app].
    assert (A := k_at _ _ _ K). assert (U := k_uniq _ _ _ K). simpl in U. destruct U as (U1 & U2).
    assert (N := k_nodup _ _ _ K). simpl in N.
    econstructor.
    { apply ti_mark. simpl. rewrite (in_lookup l p); auto. apply (k_labels _ _ _ K). simpl. auto. }
    eapply IH; [|eassumption]. solve_child K. discriminate.
  - (* goto *) intros k l pos p c K H. cbn [trans] in H. destruct (lookup_label L l) as [q|] eqn:F; [|discriminate].
    uncat H; cbn [app]. econstructor; [constructor; eapply vis_leaf; [apply (k_vis _ _ _ K)|simpl; auto|simpl; auto]|].
    destruct (LOK _ _ (lookup_in _ _ F)) as (PQ & NM).
    eapply (jump_typed p q (PLabel l)); eauto.
    + apply (k_path _ _ _ K).
    + simpl. rewrite F. reflexivity.
    + intros os fo x Hc. assert (LO := stays_goto _ _ _ _ _ (k_stays _ _ _ K)).
      destruct x as [ts ft]. destruct (common_parent_spec _ _ _ _ _ _ Hc) as (_ & (r & ->) & _).
      apply Forall_app in LO. tauto.
  - (* break *) intros pos p c K H. cbn [trans] in H; cbv zeta in H.
    destruct (find_structure is_loop_switch p) as [[d q]|] eqn:F; [|discriminate].
    eapply (loop_jump is_loop_switch PEnd p d q c _ SBreak); eauto.
    + apply (k_path _ _ _ K).
    + intros x p' pos' Hp. simpl. rewrite Hp. reflexivity.
    + intros a f -> Ha. eapply stays_break; [exact Ha|]. exact (k_stays _ _ _ K).
    + apply (k_calm _ _ _ K).
  - (* continue *) intros pos p c K H. cbn [trans] in H; cbv zeta in H.
    destruct (find_structure is_loop p) as [[d q]|] eqn:F; [|discriminate].
    eapply (loop_jump is_loop PCont p d q c _ SContinue); eauto.
    + apply (k_path _ _ _ K).
    + intros x p' pos' Hp. simpl. rewrite Hp. reflexivity.
    + intros a f -> Ha. eapply stays_continue; [exact Ha|]. exact (k_stays _ _ _ K).
    + apply (k_calm _ _ _ K).
  - (* return *) intros k pos p c K H. simpl in H. inversion H; subst.
    econstructor; [constructor; eapply vis_leaf; [apply (k_vis _ _ _ K)|simpl; auto|simpl; auto]|].
    apply typed_one. constructor.
  - (* no items *) intros i pos f r seen c K H. simpl in H. inversion H; subst. constructor.
  - (* array *) intros v r IH i pos f rest seen c K H. cbn [trans_items] in H.
    destruct (k_vla _ _ _ _ _ _ _ K) as (g & E & K' & NI). rewrite E in H. uncat H.
    econstructor; [constructor; exact NI|].
    assert (EC : ctx (g :: rest) = v :: ctx (f :: rest)) by (rewrite <- E; apply ctx_add; congruence).
    assert (T := IH _ _ _ _ _ _ K' E1). rewrite EC in T. simpl. rewrite <- app_assoc. exact T.
  - (* statement *) intros s IHs r IHr i pos f rest seen c K H. cbn [trans_items] in H.
    destruct (k_stmt _ _ _ _ _ _ _ K) as (K1 & K2). uncat H.
    eapply typed_app; eauto.
Qed.


(** * Goto statements, without the assumption of tidiness *)

Record known0 (s : stmt) (pos : position) (p : path) : Prop := {
  k0_at : at_ pos = Some (s, p);
  k0_path : path_ok p;
  k0_simple : strict = true -> simple s = true;
  k0_uniq : uniq s;
  k0_vis : vis_ok s p }.
Record known0_items (l : items) (i : nat) (pos : position) (f : frame) (r : path) : Prop := {
  k0i_at : items_at l i pos (f :: r);
  k0i_path : path_ok (f :: r);
  k0i_block : exists seen, block_path l seen f r;
  k0i_simple : strict = true -> simple_items l = true;
  k0i_uniq : uniq_items l;
  k0i_vis : vis_items_ok l (f :: r) }.

Lemma k0_block l pos p : known0 (SBlock l) pos p ->
  exists f, push p pos KBlock (decls l) = f :: p /\ known0_items l 0 pos f p.
Proof.
  intros [A PO SI U V].
  destruct (block_path_start l pos p) as (f & E & B). exists f. split; auto.
  constructor; auto; try (rewrite <- E); eauto.
  - apply items_at_block. exact A.
  - eapply path_ok_push; eauto. intros S1. specialize (SI S1). simpl in SI.
    rewrite andb_true_iff, Nat.leb_le in SI. tauto.
  - intros S1. specialize (SI S1). simpl in SI. bools. auto.
Qed.
Lemma k0_vla v r i pos f rest : known0_items (IVla v r) i pos f rest ->
  exists g, add_element (f :: rest) v = g :: rest /\ known0_items r (S i) pos g rest.
Proof.
  intros [I PO (seen & B) SI U V].
  destruct (block_path_vla _ _ _ _ _ B) as (g & E & B'). exists g. split; auto.
  assert (EC : ctx (g :: rest) = v :: ctx (f :: rest)) by (rewrite <- E; apply ctx_add; congruence).
  constructor; eauto.
  - rewrite <- E. apply items_at_vla. exact I.
  - rewrite <- E. eapply path_ok_add; eauto. apply (bp_all _ _ _ _ B).
  - intros x Hx w. rewrite EC. rewrite (V x Hx w). simpl. intuition (subst; auto).
Qed.
Lemma k0_stmt s r i pos f rest : known0_items (IStmt s r) i pos f rest ->
  known0 s (i :: pos) (f :: rest) /\ known0_items r (S i) pos f rest.
Proof.
  intros [I PO (seen & B) SI U V].
  destruct (items_at_stmt _ _ _ _ _ I) as (A & I').
  simpl in U. destruct U as (U1 & U2 & U3). split; constructor; auto.
  - intros S1. specialize (SI S1). simpl in SI. bools. auto.
  - intros x Hx v. rewrite (V x (or_introl Hx) v). simpl.
    assert (~ visible_items x v r) by (intros H; apply (proj2 visible_occurs) in H; exact (U3 x Hx H)). tauto.
  - exists seen. eapply block_path_next; eauto.
  - intros S1. specialize (SI S1). simpl in SI. bools. auto.
  - intros x Hx v. rewrite (V x (or_intror Hx) v). simpl.
    assert (~ visible x v s) by (intros H; apply (proj1 visible_occurs) in H; exact (U3 x H Hx)). tauto.
Qed.
Lemma k0_child s s' i k pos p : known0 s pos p ->
  child s p pos i = Some (s', push p pos k []) -> kind_of s = Some k -> all_of s = [] ->
  (simple s = true -> simple s' = true) ->
  uniq s' -> (forall x, occurs x s' -> occurs x s) ->
  (forall x v, occurs x s' -> (visible x v s <-> visible x v s')) ->
  known0 s' (i :: pos) (push p pos k []).
Proof.
  intros [A PO SI U V] H1 H2 H3 H7 H9 H10 H11.
  constructor; auto.
  - eapply at_child; eauto.
  - eapply path_ok_push; eauto; simpl; auto.
  - eapply vis_child; eauto.
Qed.
Lemma k0_same s s' pos p : known0 s pos p ->
  child s p pos 0 = Some (s', p) -> (simple s = true -> simple s' = true) ->
  uniq s' -> (forall x, occurs x s' -> occurs x s) ->
  (forall x v, occurs x s' -> (visible x v s <-> visible x v s')) ->
  known0 s' (0%nat :: pos) p.
Proof.
  intros [A PO SI U V] H1 H7 H9 H10 H11.
  constructor; auto.
  - eapply at_child; eauto.
  - intros x Hx v. rewrite (V x (H10 x Hx) v), (H11 x v Hx). reflexivity.
Qed.

Definition goto_spec (k l : nat) : Prop :=
  exists p q c, path_ok p /\ lookup_label L l = Some q /\ perform_jump p q (PLabel l) = Some c /\
                forall v, visible_items (AtUse k) v body <-> In v (ctx p).
Definition label_spec (l : nat) (q : path) : Prop :=
  path_ok q /\ forall v, visible_items (AtLabel l) v body <-> In v (ctx q).

Ltac child0 K U :=
  first [eapply k0_child; [exact K | reflexivity | reflexivity | reflexivity | ..]
        | eapply k0_same; [exact K | reflexivity | ..]];
  simpl; intros; bools; auto; try reflexivity; try tauto; eauto.

Lemma gotos_spec :
  (forall s pos p c, known0 s pos p -> trans L s pos p = Some c ->
     forall k l, In (k, l) (gotos s) -> goto_spec k l) /\
  (forall it i pos f r c, known0_items it i pos f r -> trans_items L it i pos (f :: r) = Some c ->
     forall k l, In (k, l) (gotos_items it) -> goto_spec k l).
Proof.
  apply stmt_items_ind; cbn [gotos gotos_items]; try (intros; simpl in *; contradiction).
  - intros it IH pos p c K H k l Hg. cbn [trans] in H. cbv zeta in H.
    destruct (k0_block _ _ _ K) as (f & E & KI). rewrite E in H. uncat H. eauto.
  - intros n s1 IH1 s2 IH2 pos p c K H k l Hg. cbn [trans] in H; cbv zeta in H. uncat H.
    assert (U := k0_uniq _ _ _ K). simpl in U. destruct U as (U1 & U2 & U3 & U4 & U5).
    assert (V1 : forall x v, visible x v s1 -> occurs x s1) by apply visible_occurs.
    assert (V2 : forall x v, visible x v s2 -> occurs x s2) by apply visible_occurs.
    apply in_app_iff in Hg. destruct Hg as [Hg|Hg].
    + eapply IH1; [|eassumption|exact Hg]. child0 K U.
      split; auto. intros [?|?]; auto. exfalso. eapply U5; eauto.
    + eapply IH2; [|eassumption|exact Hg]. child0 K U.
      split; auto. intros [?|?]; auto. exfalso. eapply U5; eauto.
  - intros n s IH pos p c K H k l Hg. cbn [trans] in H. uncat H.
    assert (U := k0_uniq _ _ _ K). simpl in U. destruct U as (U1 & U2).
    eapply IH; [|eassumption|exact Hg]. child0 K U.
  - intros s IH n pos p c K H k l Hg. cbn [trans] in H. uncat H.
    assert (U := k0_uniq _ _ _ K). simpl in U. destruct U as (U1 & U2).
    eapply IH; [|eassumption|exact Hg]. child0 K U.
  - intros n1 n2 n3 s IH pos p c K H k l Hg. cbn [trans] in H. uncat H.
    assert (U := k0_uniq _ _ _ K). simpl in U. destruct U as (U1 & U2 & U3 & U4).
    eapply IH; [|eassumption|exact Hg]. child0 K U.
  - intros n s IH pos p c K H k l Hg. cbn [trans] in H. cbv zeta in H.
    assert (U := k0_uniq _ _ _ K). simpl in U. destruct U as (U1 & U2).
    assert (exists x, trans L s (0%nat :: pos) (push p pos KSwitch []) = Some x) as (x & Hx).
    { destruct (map fst (filter snd (cases s (0%nat :: pos)))) as [|d1 [|d2 dr]] in H; try discriminate; uncat H; eauto. }
    eapply IH; [|exact Hx|exact Hg]. child0 K U.
  - intros s IH pos p c K H k l Hg. cbn [trans] in H. destruct (in_switch p); [|discriminate]. uncat H.
    assert (U := k0_uniq _ _ _ K). simpl in U. eapply IH; [|eassumption|exact Hg]. child0 K U.
  - intros s IH pos p c K H k l Hg. cbn [trans] in H. destruct (in_switch p); [|discriminate]. uncat H.
    assert (U := k0_uniq _ _ _ K). simpl in U. eapply IH; [|eassumption|exact Hg]. child0 K U.
  - intros n s IH pos p c K H k l Hg. cbn [trans] in H. uncat H.
    assert (U := k0_uniq _ _ _ K). simpl in U. destruct U as (U1 & U2).
    eapply IH; [|eassumption|exact Hg]. child0 K U.
  - intros n m pos p c K H k l [Hg|[]]. inversion Hg; subst. cbn [trans] in H.
    destruct (lookup_label L l) as [q|] eqn:F; [|discriminate]. uncat H.
    exists p, q. eexists. repeat split; [apply (k0_path _ _ _ K)|exact F|eassumption|..];
      rewrite (k0_vis _ _ _ K (AtUse k) eq_refl v); simpl; tauto.
  - intros v r IH i pos f rest c K H k l Hg. cbn [trans_items] in H.
    destruct (k0_vla _ _ _ _ _ _ K) as (g & E & K'). rewrite E in H. uncat H. eauto.
  - intros s IHs r IHr i pos f rest c K H k l Hg. cbn [trans_items] in H.
    destruct (k0_stmt _ _ _ _ _ _ K) as (K1 & K2). uncat H.
    apply in_app_iff in Hg. destruct Hg; eauto.
Qed.

Lemma labels_spec :
  (forall s pos p, known0 s pos p -> forall l q, In (l, q) (labels s pos p) -> label_spec l q) /\
  (forall it i pos f r, known0_items it i pos f r ->
     forall l q, In (l, q) (labels_items it i pos (f :: r)) -> label_spec l q).
Proof.
  apply stmt_items_ind; cbn [labels labels_items]; try (intros; simpl in *; contradiction).
  - intros it IH pos p K l q Hg.
    destruct (k0_block _ _ _ K) as (f & E & KI). rewrite E in Hg. eauto.
  - intros n s1 IH1 s2 IH2 pos p K l q Hg.
    assert (U := k0_uniq _ _ _ K). simpl in U. destruct U as (U1 & U2 & U3 & U4 & U5).
    assert (V1 : forall x v, visible x v s1 -> occurs x s1) by apply visible_occurs.
    assert (V2 : forall x v, visible x v s2 -> occurs x s2) by apply visible_occurs.
    apply in_app_iff in Hg. destruct Hg as [Hg|Hg].
    + eapply IH1; [|exact Hg]. child0 K U.
      split; auto. intros [?|?]; auto. exfalso. eapply U5; eauto.
    + eapply IH2; [|exact Hg]. child0 K U.
      split; auto. intros [?|?]; auto. exfalso. eapply U5; eauto.
  - intros n s IH pos p K l q Hg.
    assert (U := k0_uniq _ _ _ K). simpl in U. destruct U as (U1 & U2).
    eapply IH; [|exact Hg]. child0 K U.
  - intros s IH n pos p K l q Hg.
    assert (U := k0_uniq _ _ _ K). simpl in U. destruct U as (U1 & U2).
    eapply IH; [|exact Hg]. child0 K U.
  - intros n1 n2 n3 s IH pos p K l q Hg.
    assert (U := k0_uniq _ _ _ K). simpl in U. destruct U as (U1 & U2 & U3 & U4).
    eapply IH; [|exact Hg]. child0 K U.
  - intros n s IH pos p K l q Hg.
    assert (U := k0_uniq _ _ _ K). simpl in U. destruct U as (U1 & U2).
    eapply IH; [|exact Hg]. child0 K U.
  - intros s IH pos p K l q Hg.
    assert (U := k0_uniq _ _ _ K). simpl in U. eapply IH; [|exact Hg]. child0 K U.
  - intros s IH pos p K l q Hg.
    assert (U := k0_uniq _ _ _ K). simpl in U. eapply IH; [|exact Hg]. child0 K U.
  - intros n s IH pos p K l q Hg.
    assert (U := k0_uniq _ _ _ K). simpl in U. destruct U as (U1 & U2).
    destruct Hg as [Hg|Hg].
    + inversion Hg; subst. split; [apply (k0_path _ _ _ K)|]. intros v.
      rewrite (k0_vis _ _ _ K (AtLabel l) (or_introl eq_refl) v). simpl. split; auto.
      intros [?|H]; auto. apply (proj1 visible_occurs) in H. contradiction.
    + eapply IH; [|exact Hg]. child0 K U.
  - intros v r IH i pos f rest K l q Hg.
    destruct (k0_vla _ _ _ _ _ _ K) as (g & E & K'). rewrite E in Hg. eauto.
  - intros s IHs r IHr i pos f rest K l q Hg.
    destruct (k0_stmt _ _ _ _ _ _ K) as (K1 & K2).
    apply in_app_iff in Hg. destruct Hg; eauto.
Qed.

(** * The machine *)

Open Scope Z_scope.

Variable top : Z.

(** The arrays in scope, the innermost first, each with its area, the base before its
    declaration and the scope saved in its slot. *)
Fixpoint chain (E : nat -> Z) (M : nat -> option (Z * Z)) (G : list nat) (B S : Z) : Prop :=
  match G with
  | [] => S = 0 /\ B <= top /\ (strict = true -> B = top)
  | a :: G' =>
    exists lo size hi, M a = Some (lo, size) /\ 0 <= size /\ B <= lo /\ lo + size <= hi /\
      (S = 0 \/ S = hi) /\ (strict = true -> B = lo /\ S = hi /\ 0 < hi) /\
      chain E M G' hi (E a)
  end.

Lemma chain_lower E M G B B' S : strict = false -> B' <= B -> chain E M G B S -> chain E M G B' S.
Proof.
  intros NS H. destruct G as [|a G]; simpl.
  - intros (A & C & D). repeat split; auto; try lia. congruence.
  - intros (lo & size & hi & H1 & H2 & H3 & H4 & H5 & H6 & H7). exists lo, size, hi.
    repeat split; auto; try lia; congruence.
Qed.
Lemma chain_zero E M G B S : strict = false -> chain E M G B S -> chain E M G B 0.
Proof.
  intros NS. destruct G as [|a G]; simpl.
  - tauto.
  - intros (lo & size & hi & H1 & H2 & H3 & H4 & H5 & H6 & H7). exists lo, size, hi.
    repeat split; auto; congruence.
Qed.

Lemma chain_drop E M xs G B S : strict = false ->
  chain E M (xs ++ G) B S -> chain E M G B 0.
Proof.
  intros NS. revert B S. induction xs as [|x xs IH]; simpl; intros B S H.
  - eapply chain_zero; eauto.
  - destruct H as (lo & size & hi & H1 & H2 & H3 & H4 & H5 & H6 & H7).
    eapply chain_lower with (B := hi); eauto. lia.
Qed.

(* the base before the declaration of an array, from above *)
Lemma chain_pop E M xs v G B S : strict = false ->
  chain E M (xs ++ v :: G) B S -> S <> 0 -> chain E M G S (E v).
Proof.
  intros NS. destruct xs as [|x xs]; simpl.
  - intros (lo & size & hi & H1 & H2 & H3 & H4 & H5 & H6 & H7) N.
    destruct H5 as [?| ->]; [congruence|]. exact H7.
  - intros (lo & size & hi & H1 & H2 & H3 & H4 & H5 & H6 & H7) N.
    destruct H5 as [?| ->]; [congruence|]. clear - H7 NS.
    revert hi H7. generalize (E x). induction xs as [|y xs IH]; simpl; intros S hi H.
    + destruct H as (lo & size & h & H1 & H2 & H3 & H4 & H5 & H6 & H7).
      eapply chain_lower; [exact NS| |exact H7]. lia.
    + destruct H as (lo & size & h & H1 & H2 & H3 & H4 & H5 & H6 & H7).
      specialize (IH _ _ H7). eapply chain_lower; [exact NS| |exact IH]. lia.
Qed.

Lemma chain_pop_strict E M v G B S : strict = true ->
  chain E M (v :: G) B S -> S <> 0 /\ chain E M G S (E v).
Proof.
  intros ST (lo & size & hi & H1 & H2 & H3 & H4 & H5 & H6 & H7).
  destruct (H6 ST) as (-> & -> & H). split; [lia|exact H7].
Qed.

Lemma upd_other {A} (f : nat -> A) k v n : n <> k -> upd f k v n = f n.
Proof. intros H. unfold upd. destruct (Nat.eqb n k) eqn:E; auto. apply Nat.eqb_eq in E. congruence. Qed.
Lemma upd_same {A} (f : nat -> A) k v : upd f k v k = v.
Proof. unfold upd. rewrite Nat.eqb_refl. reflexivity. Qed.

Lemma chain_upd E M v e m G : ~ In v G -> forall B S,
  chain E M G B S -> chain (upd E v e) (upd M v m) G B S.
Proof.
  induction G as [|a G IH]; simpl; auto. intros N B S (lo & size & hi & H1 & H2 & H3 & H4 & H5 & H6 & H7).
  exists lo, size, hi. rewrite !upd_other by (intros ->; apply N; auto). repeat split; auto; try apply H6; auto.
Qed.

Lemma land_le x y : y < 0 -> Z.land x y <= x.
Proof.
  intros H. assert (0 <= Z.ldiff x y) by (apply Z.ldiff_nonneg; auto).
  assert (E := Z.lor_ldiff_and x y). assert (Z.land (Z.ldiff x y) (Z.land x y) = 0).
  { rewrite Z.land_comm, <- Z.land_assoc. apply Z.bits_inj'. intros n Hn.
    rewrite !Z.land_spec, Z.ldiff_spec, Z.bits_0. destruct (Z.testbit x n), (Z.testbit y n); reflexivity. }
  rewrite <- Z.add_nocarry_lxor in E || idtac.
  assert (Z.ldiff x y + Z.land x y = x).
  { rewrite Z.add_nocarry_lxor by assumption. rewrite Z.lxor_lor by assumption. exact E. }
  lia.
Qed.

Lemma alloca_le b size align : 0 <= align -> alloca_address b size align <= b - size.
Proof.
  intros H. unfold alloca_address. assert (L8 := land_le (b - size) (-8) ltac:(lia)).
  destruct (align =? 0) eqn:E; [exact L8|]. apply Z.eqb_neq in E.
  assert (L9 := land_le (Z.land (b - size) (-8)) (- align) ltac:(lia)). lia.
Qed.

Lemma find_mark_spec code t n :
  find_mark code t = Some n -> exists a b, code = a ++ Mark t :: b /\ length a = n.
Proof.
  revert n. induction code as [|i code IH]; simpl; intros n H; [discriminate|].
  assert (R : forall m, match find_mark code t with Some n => Some (S n) | None => None end = Some m ->
              exists a b, i :: code = a ++ Mark t :: b /\ length a = m).
  { intros m Hm. destruct (find_mark code t) as [k|]; [|discriminate]. inversion Hm; subst.
    destruct (IH k eq_refl) as (a & b & -> & <-). exists (i :: a), b. split; reflexivity. }
  destruct i; auto.
  destruct (match t0, t with
            | PThen a, PThen b | PElse a, PElse b | PBegin a, PBegin b
            | PCont a, PCont b | PEnd a, PEnd b | PCase a, PCase b => position_eqb a b
            | PLabel a, PLabel b => Nat.eqb a b
            | _, _ => false
            end) eqn:E; auto.
  inversion H; subst. exists [], code. split; [|reflexivity].
  destruct t0, t; try discriminate; rewrite ?position_eqb_eq, ?Nat.eqb_eq in E; subst; reflexivity.
Qed.

Lemma typed_split a b G G' : typed (a ++ b) G G' -> exists G1, typed a G G1 /\ typed b G1 G'.
Proof.
  revert G. induction a as [|i a IH]; simpl; intros G H; [exists G; split; [constructor|exact H]|].
  inversion H as [|? ? ? G1 ? T1 T2]; subst. destruct (IH _ T2) as (G2 & A & B).
  exists G2. split; auto. econstructor; eauto.
Qed.

Lemma nth_split_at (code : list ins) n i :
  nth_error code n = Some i -> exists a b, code = a ++ i :: b /\ length a = n.
Proof. intros H. destruct (nth_error_split _ _ H) as (a & b & E & F). eauto. Qed.

(** At the program counter, the rest of the code is typed with a chain. *)
Definition good (code : list ins) (G' : list nat) (st : state) : Prop :=
  exists a b G, code = a ++ b /\ length a = pc st /\ typed b G G' /\
                chain (slot st) (area st) G (base st) (scope st).

Lemma good_mark code G0 G' t n st G :
  typed code G0 G' -> find_mark code t = Some n -> delta t = G ->
  chain (slot st) (area st) G (base st) (scope st) -> good code G' (goto st n).
Proof.
  intros T F D C. destruct (find_mark_spec _ _ _ F) as (a & b & E & H).
  rewrite E in T. destruct (typed_split _ _ _ _ T) as (G1 & T1 & T2).
  exists a, (Mark t :: b), G. repeat split; auto.
  inversion T2 as [|? ? ? ? ? T3 T4]; subst. inversion T3; subst. exact T2.
Qed.

Lemma good_step code G0 G' st st' :
  typed code G0 G' -> good code G' st -> step code st st' -> good code G' st'.
Proof.
  intros T (a & b & G & E & LA & TB & C) S.
  assert (N : forall i, nth_error code (pc st) = Some i ->
              exists b' G1, code = (a ++ [i]) ++ b' /\ length (a ++ [i]) = Datatypes.S (pc st) /\ ti i G G1 /\ typed b' G1 G').
  { intros i H. rewrite E, nth_error_app2 in H by lia. rewrite <- LA, Nat.sub_diag in H.
    destruct b as [|j b]; [discriminate|]. simpl in H. inversion H; subst.
    inversion TB as [|? ? ? G1 ? T1 T2]; subst. exists b, G1. rewrite <- app_assoc, app_length. simpl.
    repeat split; auto. lia. }
  inversion S as [k H | t H | v size align H H1 H2 H3 | size align H H1 H2 H3 | v H | t n H H1 | t n H H1 | t H];
    subst; destruct (N _ H) as (b' & G1 & E1 & L1 & TI & TB').
  - inversion TI; subst. exists (a ++ [Use k]), b', G1. repeat split; auto.
  - inversion TI; subst. exists (a ++ [Mark t]), b', (delta t). repeat split; auto.
  - inversion TI; subst. exists (a ++ [Declare v]), b', (v :: G). repeat split; auto.
    simpl. exists (alloca_address (base st) size align), size, (base st). rewrite !upd_same.
    assert (AL := alloca_le (base st) size align ltac:(lia)).
    repeat split; auto; try lia. apply chain_upd; auto.
  - inversion TI; subst. exists (a ++ [Alloca]), b', G1. repeat split; auto. simpl.
    assert (AL := alloca_le (base st) size align ltac:(lia)).
    eapply chain_lower; [assumption| |eapply chain_zero; [assumption|exact C]]. lia.
  - inversion TI; subst. exists (a ++ [PopScope v]), b', G1.
    destruct strict eqn:ST.
    + match goal with X : true = true -> xs = [] |- _ => specialize (X eq_refl); subst xs end.
      destruct (chain_pop_strict _ _ _ _ _ _ ST C) as (NZ & C').
      assert (EZ : (scope st =? 0) = false) by (apply Z.eqb_neq; exact NZ).
      rewrite EZ. repeat split; auto.
    + destruct (scope st =? 0) eqn:EZ.
      * apply Z.eqb_eq in EZ. repeat split; auto. simpl. rewrite EZ.
        replace (xs ++ v :: G1) with ((xs ++ [v]) ++ G1) in C by (rewrite <- app_assoc; reflexivity).
        eapply chain_drop; eauto.
      * apply Z.eqb_neq in EZ. repeat split; auto. simpl. eapply chain_pop; eauto.
  - inversion TI; subst. eapply good_mark; eauto.
  - inversion TI; subst. eapply good_mark; eauto.
  - inversion TI; subst. exists (a ++ [Branch t]), b', (delta t). repeat split; auto.
Qed.

Lemma good_steps code G0 G' st st' :
  typed code G0 G' -> good code G' st -> steps code st st' -> good code G' st'.
Proof. intros T G S. induction S; auto. eapply good_step; eauto. Qed.

(** The areas of a chain lie between base and top, each below the one before. *)
Lemma chain_bounds E M G B S : chain E M G B S -> B <= top.
Proof.
  revert B S. induction G as [|a G IH]; simpl; intros B S H; [tauto|].
  destruct H as (lo & size & hi & H1 & H2 & H3 & H4 & H5 & H6 & H7). specialize (IH _ _ H7). lia.
Qed.

Lemma chain_area E M G : forall B S v, chain E M G B S -> In v G ->
  exists lo size, M v = Some (lo, size) /\ 0 <= size /\ B <= lo /\ lo + size <= top.
Proof.
  induction G as [|a G IH]; simpl; intros B S v H []; 
    destruct H as (lo & size & hi & H1 & H2 & H3 & H4 & H5 & H6 & H7); subst.
  - exists lo, size. assert (X := chain_bounds _ _ _ _ _ H7). repeat split; auto; lia.
  - destruct (IH _ _ _ H7 H0) as (lo' & size' & A1 & A2 & A3 & A4). exists lo', size'.
    repeat split; auto; lia.
Qed.

Lemma chain_disjoint E M G : forall B S v w lo1 size1 lo2 size2,
  chain E M G B S -> In v G -> In w G -> v <> w ->
  M v = Some (lo1, size1) -> M w = Some (lo2, size2) -> lo1 + size1 <= lo2 \/ lo2 + size2 <= lo1.
Proof.
  induction G as [|a G IH]; simpl; intros B S v w lo1 size1 lo2 size2 H Hv Hw N Mv Mw; [contradiction|].
  destruct H as (lo & size & hi & H1 & H2 & H3 & H4 & H5 & H6 & H7).
  destruct Hv as [->|Hv], Hw as [->|Hw]; [congruence|..].
  - destruct (chain_area _ _ _ _ _ _ H7 Hw) as (l & s & A1 & A2 & A3 & A4).
    rewrite Mw in A1. rewrite Mv in H1. inversion A1; inversion H1; subst. lia.
  - destruct (chain_area _ _ _ _ _ _ H7 Hv) as (l & s & A1 & A2 & A3 & A4).
    rewrite Mv in A1. rewrite Mw in H1. inversion A1; inversion H1; subst. lia.
  - exact (IH _ _ _ _ _ _ _ _ H7 Hv Hw N Mv Mw).
Qed.

End Function.

(** * Whole functions *)

Lemma labels_names :
  (forall s pos p, map fst (labels s pos p) = label_names s) /\
  (forall l i pos p, map fst (labels_items l i pos p) = label_names_items l).
Proof.
  apply stmt_items_ind; cbn [labels labels_items label_names label_names_items]; intros; rewrite ?map_app;
    cbn [map fst]; congruence.
Qed.

Lemma compile_inv body code : compile body = Some code ->
  exists c, code = c ++ [Ret] /\ trans (labels (SBlock body) [] []) (SBlock body) [] [] = Some c /\
            NoDup (label_names_items body).
Proof.
  unfold compile. intros H.
  destruct (no_duplicate _) eqn:E in H; [|discriminate].
  apply no_duplicate_nodup in E. rewrite (proj1 labels_names) in E. apply cat_some in H. destruct H as (c & d & H1 & H2 & ->).
  inversion H2; subst. exists c. repeat split; auto.
Qed.

Lemma decls_arrays : forall l v, In v (decls l) -> In v (arrays_items l).
Proof.
  fix IH 1. intros [|w r|s r] v; simpl; auto.
  - intros [->|H]; auto.
  - intros H. apply in_app_iff. auto.
Qed.
Lemma nodup_decls : forall l, NoDup (arrays_items l) -> NoDup (decls l).
Proof.
  fix IH 1. intros [|w r|s r]; simpl; intros H; [constructor|..].
  - inversion H; subst. constructor; auto. intros X. apply decls_arrays in X. contradiction.
  - apply nodup_app in H. apply IH. tauto.
Qed.
Lemma nodup_item : forall l n p s q, item_at l n p = Some (s, q) -> NoDup (arrays_items l) -> NoDup (arrays s).
Proof.
  fix IH 1. intros [|w r|s r] n p s' q; simpl; intros H D; [discriminate|..].
  - destruct n; [discriminate|]. inversion D; subst. eauto.
  - apply nodup_app in D. destruct n; [inversion H; subst; tauto|]. eapply IH; [exact H|tauto].
Qed.
Lemma nodup_child s p pos i s' q : child s p pos i = Some (s', q) -> NoDup (arrays s) -> NoDup (arrays s').
Proof.
  destruct s; simpl; try discriminate; intros H D;
    try (destruct i; [inversion H; subst; exact D|discriminate]).
  - eapply nodup_item; eauto.
  - apply nodup_app in D. destruct i as [|[|i]]; inversion H; subst; tauto.
Qed.
Lemma nodup_at body : NoDup (arrays_items body) ->
  forall q s p, at_ body q = Some (s, p) -> NoDup (arrays s).
Proof.
  intros D. induction q as [|i q IH]; simpl; intros s p H.
  - inversion H; subst. exact D.
  - destruct (at_ body q) as [[s0 p0]|] eqn:E; [|discriminate]. eapply nodup_child; eauto.
Qed.
Lemma nodup_all body : numbered body ->
  forall s p q, at_ body q = Some (s, p) -> NoDup (all_of s).
Proof.
  intros (_ & D) s p q H. assert (X := nodup_at body D q s p H).
  destruct s; try (simpl; constructor). apply nodup_decls. exact X.
Qed.

Lemma compile_typed body strict code :
  numbered body -> tidy_items body false = true -> switches_legal_items body false = true ->
  (strict = true -> simple (SBlock body) = true) ->
  compile body = Some code ->
  typed body strict (labels (SBlock body) [] []) code [] [].
Proof.
  intros N T SW SI H. destruct (compile_inv _ _ H) as (c & -> & HT & NL).
  assert (U : uniq (SBlock body)) by (apply (proj1 uniq_of); [apply N|exact NL]).
  assert (NL' : NoDup (map fst (labels (SBlock body) [] []))) by (rewrite (proj1 labels_names); exact NL).
  assert (LOK : forall l q, In (l, q) (labels (SBlock body) [] []) -> label_ok body strict q).
  { intros l q. apply (proj1 (labels_ok body strict)); simpl; auto. intros f []. }
  assert (K : known body strict (labels (SBlock body) [] []) (SBlock body) [] []).
  { constructor; simpl; auto.
    - intros f [].
    - exists false. exact SW.
    - intros x Hx v. simpl. tauto.
    - apply N.
    - apply incl_refl. }
  eapply typed_app.
  - exact (proj1 (typed_all body strict _ (nodup_all body N) NL' LOK) _ _ _ _ K HT).
  - econstructor; [apply TiRet|constructor].
Qed.

Lemma reach_good body strict code top g st :
  numbered body -> tidy_items body false = true -> switches_legal_items body false = true ->
  (strict = true -> simple (SBlock body) = true) ->
  compile body = Some code -> steps code (initial top g) st ->
  good body strict (labels (SBlock body) [] []) top code [] st.
Proof.
  intros N T SW SI H S. assert (TY := compile_typed _ _ _ N T SW SI H).
  eapply good_steps; eauto.
  exists [], code, []. repeat split; auto. simpl. lia.
Qed.

Lemma reach_chain body strict code top g st k :
  numbered body -> tidy_items body false = true -> switches_legal_items body false = true ->
  (strict = true -> simple (SBlock body) = true) ->
  compile body = Some code -> steps code (initial top g) st -> nth_error code (pc st) = Some (Use k) ->
  exists G, (forall v, visible_items (AtUse k) v body <-> In v G) /\
            chain strict top (slot st) (area st) G (base st) (scope st).
Proof.
  intros N T SW SI H S F.
  destruct (reach_good _ _ _ _ _ _ N T SW SI H S) as (a & b & G & -> & LA & TB & C).
  rewrite nth_error_app2, <- LA, Nat.sub_diag in F by lia. destruct b as [|i b]; [discriminate|].
  simpl in F. inversion F; subst. inversion TB as [|? ? ? G1 ? TI TB']; subst. inversion TI; subst.
  exists G1. split; auto.
Qed.

Lemma compile_alive body code top g st k :
  numbered body -> tidy_items body false = true -> switches_legal_items body false = true ->
  compile body = Some code -> steps code (initial top g) st -> nth_error code (pc st) = Some (Use k) ->
  alive top body k st.
Proof.
  intros N T SW H S F.
  destruct (reach_chain _ false _ _ _ _ _ N T SW ltac:(discriminate) H S F) as (G & V & C). split.
  - intros v Hv. apply V in Hv. eapply chain_area; eauto.
  - intros v w lo1 size1 lo2 size2 Hv Hw. apply V in Hv. apply V in Hw. eapply chain_disjoint; eauto.
Qed.

Lemma compile_released body code top g st k :
  numbered body -> tidy_items body false = true -> switches_legal_items body false = true ->
  simple (SBlock body) = true ->
  compile body = Some code -> steps code (initial top g) st -> nth_error code (pc st) = Some (Use k) ->
  released top body k st.
Proof.
  intros N T SW SI H S F.
  destruct (reach_chain _ true _ _ _ _ _ N T SW (fun _ => SI) H S F) as (G & V & C). split.
  - intros Hv. destruct G as [|a G]; [apply C; reflexivity|]. exfalso. apply (Hv a). apply V. left. reflexivity.
  - intros (v & Hv). apply V in Hv. destruct G as [|a G]; [contradiction|].
    destruct C as (lo & size & hi & H1 & H2 & H3 & H4 & H5 & H6 & H7). exists a, size.
    split; [apply V; left; reflexivity|]. destruct (H6 eq_refl) as (-> & _). exact H1.
Qed.

Lemma compile_gotos body code : numbered body -> compile body = Some code ->
  NoDup (label_names_items body) /\ (forall k l, In (k, l) (gotos_items body) -> In l (label_names_items body)) /\
  gotos_legal body.
Proof.
  intros N H. destruct (compile_inv _ _ H) as (c & -> & HT & NL).
  assert (U : uniq (SBlock body)) by (apply (proj1 uniq_of); [apply N|exact NL]).
  assert (K : known0 body false (SBlock body) [] []).
  { constructor; simpl; auto; try discriminate. intros x Hx v. simpl. tauto. }
  split; [exact NL|]. split.
  - intros k l Hg.
    destruct (proj1 (gotos_spec body false _) _ _ _ _ K HT k l Hg) as (p & q & j & P & LQ & PJ & V).
    apply lookup_in in LQ. apply (in_map fst) in LQ. rewrite (proj1 labels_names) in LQ. exact LQ.
  - intros k l Hg v Hv.
    destruct (proj1 (gotos_spec body false _) _ _ _ _ K HT k l Hg) as (p & q & j & P & LQ & PJ & V).
    apply lookup_in in LQ. destruct (proj1 (labels_spec body false) _ _ _ K _ _ LQ) as (Q & VQ).
    apply V. apply VQ in Hv. eapply jump_entry; eauto. apply nodup_all. exact N.
Qed.

(** * The places of jump statements *)

Ltac uncat H :=
  match type of H with
  | cat _ _ = Some _ =>
    let x := fresh "c" in let y := fresh "c" in let E1 := fresh "E" in let E2 := fresh "E" in
    apply cat_some in H; destruct H as (x & y & E1 & E2 & ->); uncat E1; uncat E2
  | Some _ = Some _ => inversion H; subst; clear H
  | _ => idtac
  end.


Lemma some_structure sel p d q : find_structure sel p = Some (d, q) -> existsb (fun f => sel (f_kind f)) p = true.
Proof.
  induction p as [|f p IH]; simpl; [discriminate|]. destruct (sel (f_kind f)); simpl; auto.
Qed.

Definition switchk (k : kind) : bool := match k with KSwitch => true | _ => false end.
Definition bl_of (p : path) := existsb (fun f => is_loop_switch (f_kind f)) p.
Definition cl_of (p : path) := existsb (fun f => is_loop (f_kind f)) p.
Definition sw_of (p : path) := existsb (fun f => switchk (f_kind f)) p.

Lemma add_kinds p v : bl_of (add_element p v) = bl_of p /\ cl_of (add_element p v) = cl_of p /\
  sw_of (add_element p v) = sw_of p.
Proof. destruct p; simpl; auto. Qed.

Lemma trans_bound L :
  (forall s pos p c, trans L s pos p = Some c -> bound s (bl_of p) (cl_of p) (sw_of p) = true) /\
  (forall l i pos p c, trans_items L l i pos p = Some c -> bound_items l (bl_of p) (cl_of p) (sw_of p) = true).
Proof.
  apply stmt_items_ind; cbn [bound bound_items]; auto.
  - intros l IH pos p c H. cbn [trans] in H. cbv zeta in H. uncat H. eapply (IH _ _ _ _ E).
  - intros k s1 IH1 s2 IH2 pos p c H. cbn [trans] in H. cbv zeta in H. uncat H.
    rewrite andb_true_iff. split; [eapply (IH1 _ (push p pos KIf []))|eapply (IH2 _ (push p pos KIf []))]; eassumption.
  - intros k s IH pos p c H. cbn [trans] in H. uncat H. eapply (IH _ (push p pos KWhile [])). eassumption.
  - intros s IH k pos p c H. cbn [trans] in H. uncat H. eapply (IH _ (push p pos KDo [])). eassumption.
  - intros k1 k2 k3 s IH pos p c H. cbn [trans] in H. uncat H. eapply (IH _ (push p pos KFor [])). eassumption.
  - intros k s IH pos p c H. cbn [trans] in H. cbv zeta in H.
    assert (exists x, trans L s (0%nat :: pos) (push p pos KSwitch []) = Some x) as (x & Hx).
    { destruct (map fst (filter snd (cases s (0%nat :: pos)))) as [|d1 [|d2 dr]] in H; try discriminate; uncat H; eauto. }
    eapply (IH _ (push p pos KSwitch [])). eassumption.
  - intros s IH pos p c H. cbn [trans] in H. destruct (in_switch p) eqn:E; [|discriminate]. uncat H.
    rewrite andb_true_iff. split; [|eauto]. unfold in_switch in E.
    destruct (find_structure _ p) as [[d q]|] eqn:F in E; [|discriminate]. eapply some_structure. exact F.
  - intros s IH pos p c H. cbn [trans] in H. destruct (in_switch p) eqn:E; [|discriminate]. uncat H.
    rewrite andb_true_iff. split; [|eauto]. unfold in_switch in E.
    destruct (find_structure _ p) as [[d q]|] eqn:F in E; [|discriminate]. eapply some_structure. exact F.
  - intros l s IH pos p c H. cbn [trans] in H. uncat H. eauto.
  - intros pos p c H. cbn [trans] in H.
    destruct (find_structure is_loop_switch p) as [[d q]|] eqn:F; [|discriminate].
    eapply some_structure. exact F.
  - intros pos p c H. cbn [trans] in H.
    destruct (find_structure is_loop p) as [[d q]|] eqn:F; [|discriminate].
    eapply some_structure. exact F.
  - intros v r IH i pos p c H. cbn [trans_items] in H. uncat H.
    destruct (add_kinds p v) as (E1 & E2 & E3). rewrite <- E1, <- E2, <- E3. eauto.
  - intros s IHs r IHr i pos p c H. cbn [trans_items] in H. uncat H.
    rewrite andb_true_iff. split; eauto.
Qed.

Lemma cases_defaults :
  (forall s pos, length (map fst (filter snd (cases s pos))) = defaults s) /\
  (forall l i pos, length (map fst (filter snd (cases_items l i pos))) = defaults_items l).
Proof.
  apply stmt_items_ind; cbn [cases cases_items defaults defaults_items]; intros;
    rewrite ?filter_app, ?map_app, ?app_length; cbn [filter snd map fst length]; auto.
Qed.

Lemma trans_defaults L :
  (forall s pos p c, trans L s pos p = Some c -> one_default s = true) /\
  (forall l i pos p c, trans_items L l i pos p = Some c -> one_default_items l = true).
Proof.
  apply stmt_items_ind; cbn [one_default one_default_items]; auto.
  - intros l IH pos p c H. cbn [trans] in H. cbv zeta in H. uncat H. eauto.
  - intros k s1 IH1 s2 IH2 pos p c H. cbn [trans] in H. cbv zeta in H. uncat H.
    rewrite andb_true_iff. split; eauto.
  - intros k s IH pos p c H. cbn [trans] in H. uncat H. eauto.
  - intros s IH k pos p c H. cbn [trans] in H. uncat H. eauto.
  - intros k1 k2 k3 s IH pos p c H. cbn [trans] in H. uncat H. eauto.
  - intros k s IH pos p c H. cbn [trans] in H. cbv zeta in H.
    assert (LE := proj1 cases_defaults s (0%nat :: pos)).
    rewrite andb_true_iff, Nat.leb_le.
    destruct (map fst (filter snd (cases s (0%nat :: pos)))) as [|d1 [|d2 dr]]; try discriminate;
      simpl in LE; uncat H; (split; [lia|eauto]).
  - intros s IH pos p c H. cbn [trans] in H. destruct (in_switch p); [|discriminate]. uncat H. eauto.
  - intros s IH pos p c H. cbn [trans] in H. destruct (in_switch p); [|discriminate]. uncat H. eauto.
  - intros l s IH pos p c H. cbn [trans] in H. uncat H. eauto.
  - intros v r IH i pos p c H. cbn [trans_items] in H. uncat H. eauto.
  - intros s IHs r IHr i pos p c H. cbn [trans_items] in H. uncat H.
    rewrite andb_true_iff. split; eauto.
Qed.

(** * Accepted functions *)

Fixpoint shorter (p : path) (n : nat) : Prop :=
  match p with
  | [] => True
  | f :: r => (length (f_id f) < n)%nat /\ shorter r (length (f_id f))
  end.
Definition rooted (p : path) : Prop := exists a f, p = a ++ [f] /\ f_id f = [] /\ f_kind f = KBlock.
Definition plain (p : path) : Prop := Forall (fun f => f_all f = [] /\ f_range f = []) p.

Lemma shorter_weak p n m : (n <= m)%nat -> shorter p n -> shorter p m.
Proof. destruct p; simpl; auto. intros H (A & B). split; auto. lia. Qed.
Lemma shorter_add p v n : shorter p n -> shorter (add_element p v) n.
Proof. destruct p; simpl; auto. Qed.
Lemma rooted_push p pos k all : rooted p -> rooted (push p pos k all).
Proof. intros (a & f & -> & H). exists (Build_frame pos k all [] :: a), f. split; auto. Qed.
Lemma rooted_add p v : rooted p -> rooted (add_element p v).
Proof.
  intros (a & f & -> & H & H'). destruct a as [|g a]; simpl.
  - exists []. eexists. split; [reflexivity|]. split; auto.
  - exists (Build_frame (f_id g) (f_kind g) (f_all g) (f_range g ++ [v]) :: a), f. auto.
Qed.
Lemma shorter_app a p n : shorter (a ++ p) n -> shorter p n.
Proof.
  revert n. induction a as [|f a IH]; simpl; auto. intros n (H1 & H2).
  eapply shorter_weak; [|apply IH; exact H2]. lia.
Qed.
Lemma split_longer pos p n : shorter p n -> (n <= length pos)%nat -> split_at pos p = None.
Proof.
  revert n. induction p as [|f p IH]; simpl; auto. intros n (H1 & H2) H.
  destruct (position_eqb (f_id f) pos) eqn:E.
  - apply position_eqb_eq in E. subst. lia.
  - rewrite (IH _ H2) by lia. reflexivity.
Qed.

Lemma common_outer a g q n :
  shorter (a ++ g :: q) n -> common_parent (a ++ g :: q) (g :: q) = Some (a, g, ([], g)).
Proof.
  revert n. induction a as [|f a IH]; intros n H.
  - cbn [app common_parent split_at].
    assert (position_eqb (f_id g) (f_id g) = true) as E by (apply position_eqb_eq; reflexivity).
    rewrite E. reflexivity.
  - destruct H as (H1 & H2). cbn [app common_parent].
    rewrite (split_longer _ (g :: q) (length (f_id f))); [|eapply shorter_app; exact H2|lia].
    rewrite (IH _ H2). reflexivity.
Qed.

Lemma match_same t tt : exists rest, match_ranges t t tt tt = Some rest.
Proof.
  induction t as [|x t IH]; simpl; eauto. rewrite Nat.eqb_refl. destruct (is_tail x tt); eauto.
Qed.

Lemma jump_out sel p d q t n :
  (forall f, sel (f_kind f) = true -> f_kind f <> KBlock) ->
  shorter p n -> rooted p -> find_structure sel p = Some (d, q) -> exists c, perform_jump p q t = Some c.
Proof.
  intros S SH (b & h & E & _ & KB) F. destruct (find_structure_spec _ _ _ _ F) as (a & f & E1 & E2 & E3 & E4).
  destruct q as [|g q].
  - rewrite E in E1. apply app_inj_tail in E1. destruct E1 as (_ & ->). exfalso. exact (S _ E3 KB).
  - subst p. rewrite E1 in *. replace (a ++ f :: g :: q) with ((a ++ [f]) ++ g :: q) in * by (rewrite <- app_assoc; reflexivity).
    unfold perform_jump. rewrite (common_outer _ _ _ _ SH). cbn [existsb].
    destruct (match_same (range_iter g) (range_tail g)) as (rest & M). rewrite M. eauto.
Qed.

Lemma split_rooted p f : In f p -> split_at (f_id f) p <> None.
Proof.
  induction p as [|g p IH]; simpl; [tauto|]. intros [->|H].
  - assert (position_eqb (f_id f) (f_id f) = true) as E by (apply position_eqb_eq; reflexivity).
    rewrite E. discriminate.
  - specialize (IH H). destruct (position_eqb (f_id g) (f_id f)); [discriminate|].
    destruct (split_at (f_id f) p) as [[a h]|]; [discriminate|congruence].
Qed.
Lemma split_in pos p a g : split_at pos p = Some (a, g) -> In g p /\ incl a p.
Proof.
  revert a. induction p as [|f p IH]; simpl; intros a H; [discriminate|].
  destruct (position_eqb (f_id f) pos).
  - inversion H; subst. split; auto. intros x [].
  - destruct (split_at pos p) as [[b h]|]; [|discriminate]. inversion H; subst.
    destruct (IH _ eq_refl) as (A & B). split; auto. intros x [->|Hx]; simpl; auto.
Qed.
Lemma common_rooted p q : rooted p -> rooted q ->
  exists a f b g, common_parent p q = Some (a, f, (b, g)) /\ In f p /\ In g q /\ incl b q.
Proof.
  intros (a & f & -> & H & _) (b & g & Eq & G & _).
  assert (Q : forall x y, split_at x q = Some y -> In (snd y) q /\ incl (fst y) q).
  { intros x [y1 y2] Y. apply split_in in Y. exact Y. }
  assert (R : split_at (f_id f) q <> None).
  { rewrite H, <- G. apply split_rooted. rewrite Eq. apply in_app_iff. right. left. reflexivity. }
  induction a as [|h a IH]; cbn [app common_parent].
  - destruct (split_at (f_id f) q) as [[b1 g1]|] eqn:E; [|congruence].
    destruct (Q _ _ E) as (A & B). exists [], f, b1, g1. repeat split; auto. left. reflexivity.
  - destruct (split_at (f_id h) q) as [[b1 g1]|] eqn:E.
    + destruct (Q _ _ E) as (A & B). exists [], h, b1, g1. repeat split; auto. left. reflexivity.
    + destruct IH as (a' & f' & b' & g' & C & D1 & D2 & D3). rewrite C.
      exists (h :: a'), f', b', g'. repeat split; auto. right. exact D1.
Qed.

Lemma jump_plain p q t : rooted p -> rooted q -> plain p -> plain q -> exists c, perform_jump p q t = Some c.
Proof.
  intros R1 R2 P1 P2. destruct (common_rooted _ _ R1 R2) as (a & f & b & g & C & F & G & B).
  unfold plain in *. rewrite Forall_forall in P1, P2.
  unfold perform_jump. rewrite C.
  assert (E : existsb contains_vla b = false).
  { destruct (existsb contains_vla b) eqn:E; auto. apply existsb_exists in E. destruct E as (x & X & Y).
    destruct (P2 _ (B _ X)) as (Z & _). unfold contains_vla in Y. rewrite Z in Y. destruct (f_kind x); discriminate. }
  rewrite E. unfold range_iter. destruct (P1 _ F) as (_ & ->). destruct (P2 _ G) as (_ & ->).
  cbn [match_ranges]. eauto.
Qed.

Lemma plain_push p pos k : plain p -> plain (push p pos k []).
Proof. intros H. constructor; auto. Qed.

Lemma no_arrays_decls l : arrays_items l = [] -> decls l = [].
Proof.
  intros H. destruct (decls l) as [|v r] eqn:E; auto. assert (In v (arrays_items l)) as X.
  { apply decls_arrays. rewrite E. left. reflexivity. } rewrite H in X. destruct X.
Qed.

Lemma rooted_labels :
  (forall s pos p, rooted p -> forall l q, In (l, q) (labels s pos p) -> rooted q) /\
  (forall it i pos p, rooted p -> forall l q, In (l, q) (labels_items it i pos p) -> rooted q).
Proof.
  apply stmt_items_ind; cbn [labels labels_items]; intros; try contradiction;
    repeat match goal with H : In _ (_ ++ _) |- _ => apply in_app_iff in H; destruct H end;
    try match goal with H : In _ (_ :: _) |- _ => destruct H as [H|H]; [inversion H; subst; assumption|] end;
    match goal with IH : forall x y, _ -> forall l q, In _ _ -> rooted q, H : In _ _ |- _ => eapply IH; [|exact H]
      | IH : forall x y z, _ -> forall l q, In _ _ -> rooted q, H : In _ _ |- _ => eapply IH; [|exact H] end;
    auto using rooted_push, rooted_add.
Qed.
Lemma plain_labels :
  (forall s pos p, arrays s = [] -> plain p -> forall l q, In (l, q) (labels s pos p) -> plain q) /\
  (forall it i pos p, arrays_items it = [] -> plain p -> forall l q, In (l, q) (labels_items it i pos p) -> plain q).
Proof.
  apply stmt_items_ind; cbn [labels labels_items arrays arrays_items]; intros; try contradiction; try discriminate;
    repeat match goal with H : _ ++ _ = [] |- _ => apply app_eq_nil in H; destruct H end;
    repeat match goal with H : In _ (_ ++ _) |- _ => apply in_app_iff in H; destruct H end;
    try match goal with H : In _ (_ :: _) |- _ => destruct H as [H|H]; [inversion H; subst; assumption|] end;
    match goal with IH : forall x y, _ -> _ -> forall l q, In _ _ -> plain q, H : In _ _ |- _ => eapply IH; [| |exact H]
      | IH : forall x y z, _ -> _ -> forall l q, In _ _ -> plain q, H : In _ _ |- _ => eapply IH; [| |exact H] end;
    auto using plain_push. rewrite no_arrays_decls by assumption. auto using plain_push.
Qed.

Section Accept.
Variable L : list (nat * path).
Variable names : list nat.
Hypothesis LN : forall l, In l names -> exists q, lookup_label L l = Some q /\ rooted q /\ plain q.

Ltac go := eauto using shorter_weak, shorter_add, rooted_push, rooted_add, plain_push.

Lemma existsb_structure sel p : existsb (fun f => sel (f_kind f)) p = true ->
  exists d q, find_structure sel p = Some (d, q).
Proof.
  induction p as [|f p IH]; simpl; [discriminate|]. destruct (sel (f_kind f)); simpl; eauto.
Qed.

Definition free (gs : list (nat * nat)) (ar : list nat) (p : path) : Prop :=
  gs = [] \/ (ar = [] /\ plain p /\ forall k l, In (k, l) gs -> In l names).

Lemma free_l g1 g2 a1 a2 p : free (g1 ++ g2) (a1 ++ a2) p -> free g1 a1 p.
Proof.
  intros [H|(H1 & H2 & H3)]; [apply app_eq_nil in H; left; tauto|].
  apply app_eq_nil in H1. right. repeat split; try tauto. intros k l X. eapply H3. apply in_app_iff. eauto.
Qed.
Lemma free_r g1 g2 a1 a2 p : free (g1 ++ g2) (a1 ++ a2) p -> free g2 a2 p.
Proof.
  intros [H|(H1 & H2 & H3)]; [apply app_eq_nil in H; left; tauto|].
  apply app_eq_nil in H1. right. repeat split; try tauto. intros k l X. eapply H3. apply in_app_iff. eauto.
Qed.
Lemma free_push g a p pos k : free g a p -> free g a (push p pos k []).
Proof. intros [H|(H1 & H2 & H3)]; [left; auto|right]. repeat split; auto. apply plain_push. exact H2. Qed.

Lemma trans_block l pos p : trans L (SBlock l) pos p =
  cat (trans_items L l 0 pos (push p pos KBlock (decls l)))
      (Some (flat_map pop_of (firstn 1 (push p pos KBlock (decls l))))).
Proof. reflexivity. Qed.
Lemma trans_vla v r i pos p : trans_items L (IVla v r) i pos p =
  cat (Some [Declare v]) (trans_items L r (S i) pos (add_element p v)).
Proof. reflexivity. Qed.
Lemma trans_stmt s r i pos p : trans_items L (IStmt s r) i pos p =
  cat (trans L s (i :: pos) p) (trans_items L r (S i) pos p).
Proof. reflexivity. Qed.

Lemma accept :
  (forall s pos p, shorter p (length pos) -> rooted p -> free (gotos s) (arrays s) p ->
     bound s (bl_of p) (cl_of p) (sw_of p) = true -> one_default s = true -> exists c, trans L s pos p = Some c) /\
  (forall l i pos p, shorter p (S (length pos)) -> rooted p -> free (gotos_items l) (arrays_items l) p ->
     bound_items l (bl_of p) (cl_of p) (sw_of p) = true -> one_default_items l = true ->
     exists c, trans_items L l i pos p = Some c).
Proof.
  apply stmt_items_ind; cbn [gotos gotos_items arrays arrays_items bound bound_items one_default one_default_items];
    try (intros; cbn [trans trans_items]; eauto; fail).
  - intros l IH pos p SH R F B O. rewrite trans_block.
    destruct (IH 0%nat pos (push p pos KBlock (decls l))) as (c & ->); auto.
    + simpl. split; [lia|exact SH].
    + go.
    + destruct F as [F|(F1 & F2 & F3)]; [left; auto|]. right. repeat split; auto.
      rewrite no_arrays_decls by assumption. apply plain_push. exact F2.
    + cbn [cat]. eauto.
  - intros k s1 IH1 s2 IH2 pos p SH R F B O. cbn [trans]; cbv zeta.
    rewrite andb_true_iff in B, O. destruct B as (B1 & B2), O as (O1 & O2).
    destruct (IH1 (0%nat :: pos) (push p pos KIf [])) as (c1 & ->); auto; try (simpl; split; [lia|exact SH]); go;
      [apply free_push; eapply free_l; exact F|].
    destruct (IH2 (1%nat :: pos) (push p pos KIf [])) as (c2 & ->); auto; try (simpl; split; [lia|exact SH]); go;
      [apply free_push; eapply free_r; exact F|].
    cbn [cat]. eauto.
  - intros k s IH pos p SH R F B O. cbn [trans].
    destruct (IH (0%nat :: pos) (push p pos KWhile [])) as (c1 & ->); auto; try (simpl; split; [lia|exact SH]); go;
      [apply free_push; exact F|]. cbn [cat]. eauto.
  - intros s IH k pos p SH R F B O. cbn [trans].
    destruct (IH (0%nat :: pos) (push p pos KDo [])) as (c1 & ->); auto; try (simpl; split; [lia|exact SH]); go;
      [apply free_push; exact F|]. cbn [cat]. eauto.
  - intros k1 k2 k3 s IH pos p SH R F B O. cbn [trans].
    destruct (IH (0%nat :: pos) (push p pos KFor [])) as (c1 & ->); auto; try (simpl; split; [lia|exact SH]); go;
      [apply free_push; exact F|]. cbn [cat]. eauto.
  - intros k s IH pos p SH R F B O. cbn [trans]; cbv zeta. rewrite andb_true_iff, Nat.leb_le in O.
    destruct (IH (0%nat :: pos) (push p pos KSwitch [])) as (c1 & ->); auto; try (simpl; split; [lia|exact SH]); go;
      [apply free_push; exact F|tauto|].
    assert (LE := proj1 cases_defaults s (0%nat :: pos)).
    destruct (map fst (filter snd (cases s (0%nat :: pos)))) as [|d1 [|d2 dr]]; simpl in LE; try lia; cbn [cat]; eauto.
  - intros s IH pos p SH R F B O. cbn [trans]. rewrite andb_true_iff in B. destruct B as (B1 & B2).
    destruct (existsb_structure switchk p B1) as (d & q & E). unfold in_switch. unfold switchk in E. rewrite E.
    destruct (IH (0%nat :: pos) p) as (c1 & ->); auto; [eapply shorter_weak; [|exact SH]; simpl; lia|]. cbn [cat]. eauto.
  - intros s IH pos p SH R F B O. cbn [trans]. rewrite andb_true_iff in B. destruct B as (B1 & B2).
    destruct (existsb_structure switchk p B1) as (d & q & E). unfold in_switch. unfold switchk in E. rewrite E.
    destruct (IH (0%nat :: pos) p) as (c1 & ->); auto; [eapply shorter_weak; [|exact SH]; simpl; lia|]. cbn [cat]. eauto.
  - intros l s IH pos p SH R F B O. cbn [trans].
    destruct (IH (0%nat :: pos) p) as (c1 & ->); auto; [eapply shorter_weak; [|exact SH]; simpl; lia|]. cbn [cat]. eauto.
  - intros k l pos p SH R F B O. cbn [trans].
    destruct F as [F|(F1 & F2 & F3)]; [discriminate|].
    destruct (LN l) as (q & E & RQ & PQ); [eapply F3; left; reflexivity|]. rewrite E.
    destruct (jump_plain p q (PLabel l) R RQ F2 PQ) as (c & ->). cbn [cat]. eauto.
  - intros pos p SH R F B O. cbn [trans]. destruct (existsb_structure is_loop_switch p B) as (d & q & E). rewrite E.
    eapply jump_out; eauto. intros f. destruct (f_kind f); simpl; congruence.
  - intros pos p SH R F B O. cbn [trans]. destruct (existsb_structure is_loop p B) as (d & q & E). rewrite E.
    eapply jump_out; eauto. intros f. destruct (f_kind f); simpl; congruence.
  - intros v r IH i pos p SH R F B O. rewrite trans_vla. destruct F as [F|(F1 & _)]; [|discriminate].
    destruct (IH (S i) pos (add_element p v)) as (c & ->); auto; go; [left; auto| |cbn [cat]; eauto].
    destruct (add_kinds p v) as (-> & -> & ->). exact B.
  - intros s IHs r IHr i pos p SH R F B O. rewrite trans_stmt.
    rewrite andb_true_iff in B, O. destruct B as (B1 & B2), O as (O1 & O2).
    destruct (IHs (i :: pos) p) as (c1 & ->); auto; [eapply free_l; exact F|].
    destruct (IHr (S i) pos p) as (c2 & ->); auto; [eapply free_r; exact F|]. cbn [cat]. eauto.
Qed.
End Accept.

Lemma nodup_no_duplicate l : NoDup l -> no_duplicate l = true.
Proof.
  induction 1 as [|x l H N IH]; simpl; auto. rewrite IH, andb_true_r, negb_true_iff.
  destruct (existsb (Nat.eqb x) l) eqn:E; auto. apply existsb_exists in E. destruct E as (y & Hy & E).
  apply Nat.eqb_eq in E. subst. contradiction.
Qed.

Lemma compile_accepts body :
  NoDup (label_names_items body) -> bound_items body false false false = true ->
  one_default_items body = true ->
  (gotos_items body = [] \/
   arrays_items body = [] /\ forall k l, In (k, l) (gotos_items body) -> In l (label_names_items body)) ->
  exists code, compile body = Some code.
Proof.
  intros NL B O F. unfold compile.
  assert (ND : NoDup (map fst (labels (SBlock body) [] []))) by (rewrite (proj1 labels_names); exact NL).
  rewrite (nodup_no_duplicate _ ND).
  assert (R0 : rooted (push [] [] KBlock (decls body))) by (exists []; eexists; repeat split).
  destruct F as [F|(F1 & F2)].
  - destruct (proj2 (accept (labels (SBlock body) [] []) [] (fun l (H : In l []) => match H with end))
                    body 0%nat [] (push [] [] KBlock (decls body))) as (c & E); auto.
    + simpl. split; [lia|exact I].
    + left. exact F.
    + rewrite trans_block, E. cbn [cat]. eauto.
  - assert (P0 : plain (push [] [] KBlock (decls body))).
    { rewrite no_arrays_decls by assumption. apply plain_push. constructor. }
    destruct (proj2 (accept (labels (SBlock body) [] []) (label_names_items body)
      ltac:(intros l Hl;
            change (In l (label_names (SBlock body))) in Hl;
            rewrite <- (proj1 labels_names (SBlock body) [] []) in Hl;
            apply in_map_iff in Hl; destruct Hl as ([m q] & Em & Hq); simpl in Em; subst m;
            exists q; split; [apply in_lookup; assumption|]; split;
            [eapply (proj2 rooted_labels); [exact R0|exact Hq]
            |eapply (proj2 plain_labels); [exact F1|exact P0|exact Hq]]))
      body 0%nat [] (push [] [] KBlock (decls body))) as (c & E); auto.
    + simpl. split; [lia|exact I].
    + right. auto.
    + rewrite trans_block, E. cbn [cat]. eauto.
Qed.
