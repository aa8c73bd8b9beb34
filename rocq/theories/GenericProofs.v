(** Proofs about generic selections. *)
From Coq Require Import ZArith List Bool Lia.
From Verif Require Import CompatModel PropCompatSpec ExprTypeModel ExprTypeSpec ExprTypeProofs GenericModel GenericSpec.
Import ListNotations.
Open Scope Z_scope.

Section Nested.
Variable P : gexpr -> Prop.
Hypothesis H1 : forall e, P (GPlain e).
Hypothesis H2 : forall c l d, P c -> Forall (fun a => P (snd a)) l -> (forall x, d = Some x -> P x) -> P (GSel c l d).
Fixpoint gexpr_nested (g : gexpr) : P g :=
  match g with
  | GPlain e => H1 e
  | GSel c l d =>
    H2 c l d (gexpr_nested c)
      ((fix all l : Forall (fun a => P (snd a)) l :=
          match l with [] => Forall_nil _ | a :: r => Forall_cons a (gexpr_nested (snd a)) (all r) end) l)
      (match d with
       | Some x => fun y E => match E in _ = o return match o with Some y => P y | None => True end with eq_refl => gexpr_nested x end
       | None => fun y E => match E in _ = o return match o with Some y => P y | None => True end with eq_refl => Logic.I end
       end)
  end.
End Nested.

(** ** The part for which the selection is right *)
Section Covered.
Variable G : ctx.
Local Notation gtyped := (gtyped (TBasic BSInt) G).
(** The parts are covered by C53, the check of compatibility is right (C47). *)
Fixpoint gcovered (g : gexpr) : Prop :=
  match g with
  | GPlain e => covered G e
  | GSel c l d =>
    gcovered c /\ (fix all l := match l with [] => True | a :: r => gcovered (snd a) /\ all r end) l /\
    match d with Some x => gcovered x | None => True end /\
    (forall tc kc rc, gtyped c tc kc rc -> Forall (fun a => exact (value_type tc) (fst a)) l)
  end.
End Covered.

Lemma all_forall : forall A (P : A -> Prop) l, (fix all l := match l with [] => True | a :: r => P a /\ all r end) l -> Forall P l.
Proof. induction l as [|a l IH]; intros H; constructor; [apply H|apply IH, H]. Qed.

(** ** The loops by themselves *)
Section Loops.
Variable G : ctx.
Definition loop (pc : props) : option props -> list (ty * gexpr) -> out (option props * list (ty * node)) :=
  fix loop (matched : option props) (l : list (ty * gexpr)) :=
    match l with
    | [] => Ok (matched, [])
    | (t, a) :: r =>
      bind (annotate G a) (fun ra =>
      bind (match matched with
            | Some _ => Ok matched
            | None => bind (agrees pc t) (fun b => Ok (if b then Some (fst ra) else None))
            end) (fun matched' =>
      bind (loop matched' r) (fun rr => Ok (fst rr, (t, snd ra) :: snd rr))))
    end.
Lemma annotate_sel : forall c l d, annotate G (GSel c l d) =
  bind (annotate G c) (fun rc => bind (loop (fst rc) None l) (fun rl =>
    match fst rl, d with
    | Some p, _ => Ok (p, NSel (snd rc) (snd rl) (match d with Some x => Some (fresh x) | None => None end) (Some p))
    | None, Some x => bind (annotate G x) (fun rd => Ok (fst rd, NSel (snd rc) (snd rl) (Some (snd rd)) (Some (fst rd))))
    | None, None => Err
    end)).
Proof. reflexivity. Qed.

Definition find {A} (F : node -> out A) (pc : props) (d : option node) : list (ty * node) -> out A :=
  fix find l :=
    match l with
    | [] => match d with Some x => F x | None => Err end
    | (t, a) :: r => bind (agrees pc t) (fun b => if b then F a else find r)
    end.
Lemma translate_sel : forall A (leaf : expr -> props -> out A) c l d p pc, tag c = Some pc ->
  translate leaf (NSel c l d p) = find (translate leaf) pc d l.
Proof. intros A leaf c l d p pc E. cbn [translate]. rewrite E. reflexivity. Qed.
Lemma evaluate_sel : forall A (leaf : expr -> props -> out A) c l d p pc, tag c = Some pc ->
  evaluate leaf (NSel c l d (Some p)) = if n_const p then find (evaluate leaf) pc d l else Err.
Proof. intros A leaf c l d p pc E. cbn [evaluate tag]. rewrite E. reflexivity. Qed.

(** What the later phases make of a node *)
Definition shows (n : node) (r : expr) (p : props) : Prop :=
  tag n = Some p /\
  (forall A (leaf : expr -> props -> out A), translate leaf n = leaf r p) /\
  (forall A (leaf : expr -> props -> out A), evaluate leaf n = if n_const p then leaf r p else Err).

Lemma agrees_true : forall pc t, agrees pc t = Ok true <-> compatible (conv (n_type pc)) t = Yes.
Proof. intros pc t. unfold agrees. destruct (compatible _ _); split; intros H; congruence. Qed.
Lemma agrees_false : forall pc t, agrees pc t = Ok false <-> compatible (conv (n_type pc)) t = No.
Proof. intros pc t. unfold agrees. destruct (compatible _ _); split; intros H; congruence. Qed.

(** Where the loop stops looking *)
Lemma loop_matched : forall pc p l m l', loop pc (Some p) l = Ok (m, l') -> m = Some p.
Proof.
  intros pc p. induction l as [|[t a] l IH]; intros m l' H; cbn in H; [congruence|].
  destruct (annotate G a) as [[pa na]| |]; cbn in H; try discriminate H.
  destruct (loop pc (Some p) l) as [[m' l'']| |] eqn:E; cbn in H; try discriminate H.
  injection H as <- <-. eapply IH. reflexivity.
Qed.
Lemma loop_some : forall pc l p l', loop pc None l = Ok (Some p, l') ->
  exists l1 t a l2 n, l = l1 ++ (t, a) :: l2 /\ annotate G a = Ok (p, n) /\ compatible (conv (n_type pc)) t = Yes /\
    Forall (fun b => compatible (conv (n_type pc)) (fst b) = No) l1 /\
    forall A (F : node -> out A) d, find F pc d l' = F n.
Proof.
  intros pc. induction l as [|[t a] l IH]; intros p l' H; cbn in H; [discriminate H|].
  destruct (annotate G a) as [[pa na]| |] eqn:EA; cbn in H; try discriminate H.
  destruct (agrees pc t) as [b| |] eqn:EG; cbn in H; try discriminate H. destruct b.
  - destruct (loop pc (Some pa) l) as [[m' l'']| |] eqn:E; cbn in H; try discriminate H.
    injection H as -> <-. apply loop_matched in E. injection E as <-.
    exists [], t, a, l, na. split; [reflexivity|]. split; [exact EA|]. split; [now apply agrees_true|]. split; [constructor|].
    intros A F d. cbn. now rewrite EG.
  - destruct (loop pc None l) as [[m' l'']| |] eqn:E; cbn in H; try discriminate H.
    injection H as -> <-. destruct (IH _ _ eq_refl) as (l1 & t' & a' & l2 & n & -> & E1 & E2 & E3 & E4).
    exists ((t, a) :: l1), t', a', l2, n. split; [reflexivity|]. split; [exact E1|]. split; [exact E2|].
    split; [constructor; [now apply agrees_false|exact E3]|]. intros A F d. cbn. rewrite EG. apply E4.
Qed.
Lemma loop_none : forall pc l l', loop pc None l = Ok (None, l') ->
  Forall (fun b => compatible (conv (n_type pc)) (fst b) = No) l /\
  forall A (F : node -> out A) d, find F pc d l' = match d with Some x => F x | None => Err end.
Proof.
  intros pc. induction l as [|[t a] l IH]; intros l' H; cbn in H.
  { injection H as <-. split; [constructor|reflexivity]. }
  destruct (annotate G a) as [[pa na]| |] eqn:EA; cbn in H; try discriminate H.
  destruct (agrees pc t) as [b| |] eqn:EG; cbn in H; try discriminate H. destruct b.
  - destruct (loop pc (Some pa) l) as [[m' l'']| |] eqn:E; cbn in H; try discriminate H.
    injection H as -> <-. apply loop_matched in E. discriminate E.
  - destruct (loop pc None l) as [[m' l'']| |] eqn:E; cbn in H; try discriminate H.
    injection H as -> <-. destruct (IH _ eq_refl) as (E1 & E2). split; [constructor; [now apply agrees_false|exact E1]|].
    intros A F d. cbn. rewrite EG. apply E2.
Qed.

(** All phases take the same expression. *)
Theorem phases_agree : forall g p n, annotate G g = Ok (p, n) -> exists r, In r (leaves g) /\ analyze G r = Ok p /\ shows n r p.
Proof.
  induction g as [e|c l d IHc IHl IHd] using gexpr_nested; intros p n H.
  - cbn in H. destruct (analyze G e) as [p'| |] eqn:E; cbn in H; try discriminate H. injection H as <- <-.
    exists e. split; [now left|]. split; [exact E|]. repeat split.
  - rewrite annotate_sel in H. destruct (annotate G c) as [[pc nc]| |]; cbn [bind fst snd] in H; try discriminate H.
    destruct (IHc _ _ eq_refl) as (rc & _ & _ & (TC & _)).
    destruct (loop pc None l) as [[m l']| |] eqn:EL; cbn [bind fst snd] in H; try discriminate H. destruct m as [q|].
    + injection H as <- <-. destruct (loop_some _ _ _ _ EL) as (l1 & t & a & l2 & na & -> & EA & _ & _ & EF).
      rewrite Forall_forall in IHl. destruct (IHl (t, a) (in_elt _ _ _) _ _ EA) as (r & I & Ea & (_ & S2 & S3)).
      exists r. split; [|split; [exact Ea|]].
      * cbn [leaves]. apply in_app_iff. left. apply in_flat_map. exists (t, a). split; [apply in_elt|exact I].
      * split; [reflexivity|]. split; intros A leaf.
        -- rewrite (translate_sel _ _ _ _ _ _ pc TC), EF. apply S2.
        -- rewrite (evaluate_sel _ _ _ _ _ _ pc TC), EF, S3. now destruct (n_const q).
    + destruct d as [x|]; [|discriminate H]. destruct (annotate G x) as [[px nx]| |] eqn:EX; cbn [bind fst snd] in H; try discriminate H.
      injection H as <- <-. destruct (loop_none _ _ _ EL) as (_ & EF). destruct (IHd x eq_refl _ _ EX) as (r & I & Ea & (_ & S2 & S3)).
      exists r. split; [|split; [exact Ea|]].
      * cbn [leaves]. apply in_app_iff. now right.
      * split; [reflexivity|]. split; intros A leaf.
        -- rewrite (translate_sel _ _ _ _ _ _ pc TC), EF. apply S2.
        -- rewrite (evaluate_sel _ _ _ _ _ _ pc TC), EF, S3. now destruct (n_const px).
Qed.
End Loops.

(** ** The analysis and the rules *)
Section Rules.
Variable G : ctx.
Hypothesis HG : sound G.
Local Notation gtyped := (gtyped (TBasic BSInt) G).
Local Notation typed := (typed (TBasic BSInt) G).
Local Notation gcovered := (gcovered G).

Lemma gcovered_sel : forall c l d, gcovered (GSel c l d) -> gcovered c /\ Forall (fun a => gcovered (snd a)) l /\
  (forall x, d = Some x -> gcovered x) /\ (forall tc kc rc, gtyped c tc kc rc -> Forall (fun a => exact (value_type tc) (fst a)) l).
Proof.
  intros c l d (C1 & C2 & C3 & C4). split; [exact C1|]. split; [now apply all_forall in C2|]. split; [|exact C4].
  intros x ->. exact C3.
Qed.
Lemma typed_leaf : forall g, gcovered g -> forall t k r, gtyped g t k r -> covered G r /\ typed r t k.
Proof.
  induction g as [e|c l d IHc IHl IHd] using gexpr_nested; intros C t k r H.
  - inversion H; subst. split; [exact C|assumption].
  - apply gcovered_sel in C. destruct C as (_ & C2 & C3 & _). inversion H; subst.
    + rewrite Forall_forall in IHl, C2. apply (IHl (ta, a)); auto; apply (C2 (ta, a)); assumption.
    + eapply IHd; eauto.
Qed.
Lemma typed_tame : forall g, gcovered g -> forall t k r, gtyped g t k r -> tame t.
Proof.
  intros g C t k r H. destruct (typed_leaf g C t k r H) as (C' & H'). destruct r; cbn [covered] in C'; apply (proj1 C' _ _ H').
Qed.

Lemma exact_yes : forall tc pc t, tame tc -> n_type pc = tc -> exact (value_type tc) t ->
  (conforms (value_type tc) t -> agrees pc t = Ok true) /\ (~ conforms (value_type tc) t -> agrees pc t = Ok false).
Proof.
  intros tc pc t T E (X1 & X2 & X3). rewrite agrees_true, agrees_false, E, (conv_value _ T). split; [apply X1|].
  intros N. destruct (compatible (value_type tc) t); try reflexivity; [|congruence|congruence]. now destruct N; apply X1.
Qed.

Definition analysed (g : gexpr) : Prop := exists p n, annotate G g = Ok (p, n).

(** The loop runs through when all associations can be analysed. *)
Lemma loop_after : forall pc p l, Forall (fun a => analysed (snd a)) l -> exists l', loop G pc (Some p) l = Ok (Some p, l').
Proof.
  intros pc p. induction l as [|[t a] l IH]; intros F; [eexists; reflexivity|].
  inversion F as [|? ? (pa & na & E) F']; subst. destruct (IH F') as (l' & E'). cbn in E |- *. rewrite E. cbn. rewrite E'. cbn. eexists. reflexivity.
Qed.
Lemma loop_yes : forall tc pc l1 t a l2 pa na, tame tc -> n_type pc = tc -> Forall (fun a => exact (value_type tc) (fst a)) (l1 ++ (t, a) :: l2) ->
  Forall (fun a => analysed (snd a)) (l1 ++ (t, a) :: l2) -> Forall (fun b => ~ conforms (value_type tc) (fst b)) l1 ->
  conforms (value_type tc) t -> annotate G a = Ok (pa, na) ->
  exists l', loop G pc None (l1 ++ (t, a) :: l2) = Ok (Some pa, l') /\ forall A (F : node -> out A) d, find F pc d l' = F na.
Proof.
  intros tc pc l1 t a l2 pa na T E X F N Y EA. induction l1 as [|[t' b] l1 IH]; cbn [app] in *.
  - inversion X as [|? ? X1 _]; subst. inversion F as [|? ? _ F']; subst. destruct (loop_after pc pa l2 F') as (l' & E').
    destruct (exact_yes _ pc t T eq_refl X1) as (Y1 & _). eexists. split.
    + cbn. rewrite EA. cbn. rewrite (Y1 Y). cbn. rewrite E'. cbn. reflexivity.
    + intros A Fn d. cbn. now rewrite (Y1 Y).
  - inversion X as [|? ? X1 X']; subst. inversion F as [|? ? (pb & nb & EB) F']; subst. inversion N as [|? ? N1 N']; subst.
    destruct (IH X' F' N') as (l' & E' & EF). destruct (exact_yes _ pc t' T eq_refl X1) as (_ & Y2). cbn in EB. eexists. split.
    + cbn. rewrite EB. cbn. rewrite (Y2 N1). cbn. rewrite E'. cbn. reflexivity.
    + intros A Fn d. cbn. rewrite (Y2 N1). apply EF.
Qed.
Lemma loop_no : forall tc pc l, tame tc -> n_type pc = tc -> Forall (fun a => exact (value_type tc) (fst a)) l ->
  Forall (fun a => analysed (snd a)) l -> Forall (fun b => ~ conforms (value_type tc) (fst b)) l ->
  exists l', loop G pc None l = Ok (None, l') /\ forall A (F : node -> out A) d, find F pc d l' = match d with Some x => F x | None => Err end.
Proof.
  intros tc pc l T E X F N. induction l as [|[t' b] l IH].
  - exists []. split; reflexivity.
  - inversion X as [|? ? X1 X']; subst. inversion F as [|? ? (pb & nb & EB) F']; subst. inversion N as [|? ? N1 N']; subst.
    destruct (IH X' F' N') as (l' & E' & EF). destruct (exact_yes _ pc t' T eq_refl X1) as (_ & Y2). cbn in EB. eexists. split.
    + cbn. rewrite EB. cbn. rewrite (Y2 N1). cbn. rewrite E'. cbn. reflexivity.
    + intros A Fn d. cbn. rewrite (Y2 N1). apply EF.
Qed.

(** At most one association agrees: those before the one that does, do not. *)
Lemma before_one : forall v (l1 : list (ty * gexpr)) t a l2, at_most_one v (l1 ++ (t, a) :: l2) -> conforms v t ->
  Forall (fun b => ~ conforms v (fst b)) l1.
Proof.
  intros v l1 t a l2 O Y. induction l1 as [|b l1 IH]; constructor.
  - inversion O as [|? ? O1 _]; subst. rewrite Forall_forall in O1. intros X. apply (O1 (t, a) (in_elt _ _ _) X Y).
  - apply IH. now inversion O.
Qed.

Theorem rules_analysed : forall g, gcovered g -> forall t k r, gtyped g t k r ->
  exists p n, annotate G g = Ok (p, n) /\ analyze G r = Ok p /\ shows n r p.
Proof.
  induction g as [e|c l d IHc IHl IHd] using gexpr_nested; intros C t k r H.
  - inversion H; subst. destruct (analyze_typed G HG r C) as (M & _). destruct (M t k ltac:(assumption)) as (p & E & _).
    exists p, (NPlain r (Some p)). cbn. rewrite E. split; [reflexivity|]. split; [reflexivity|]. repeat split.
  - apply gcovered_sel in C. destruct C as (C1 & C2 & C3 & C4).
    assert (FA : forall m, Forall (fun b => association_type G (fst b) /\ exists t' k' r', gtyped (snd b) t' k' r') m -> incl m l ->
                 Forall (fun a => analysed (snd a)) m).
    { intros m F I. rewrite Forall_forall in F, IHl, C2 |- *. intros b Ib. destruct (F b Ib) as (_ & t' & k' & r' & Hb).
      destruct (IHl b (I b Ib) (C2 b (I b Ib)) _ _ _ Hb) as (p & n & E & _). exists p, n. exact E. }
    inversion H as [|c' l0 d' tc kc rc ta a t' k' r' Hc F D Di O Ia Y Ha|c' l0 x tc kc rc t' k' r' Hc F Di N Hx]; subst.
    + destruct (IHc C1 _ _ _ Hc) as (pc & nc & Ec & Eac & (TC & _)).
      assert (Etc : n_type pc = tc).
      { destruct (typed_leaf c C1 _ _ _ Hc) as (Cr & Tr). destruct (analyze_typed G HG rc Cr) as (M & _).
        destruct (M _ _ Tr) as (p' & E' & R'). rewrite Eac in E'. injection E' as <-. apply (r_type _ _ _ _ _ R'). }
      pose proof (typed_tame c C1 _ _ _ Hc) as T. specialize (C4 _ _ _ Hc). specialize (FA l F (incl_refl _)).
      rewrite Forall_forall in IHl, C2. destruct (IHl _ Ia (C2 _ Ia) _ _ _ Ha) as (pa & na & Ea & Er & (S1 & S2 & S3)). cbn in Ea.
      apply in_split in Ia. destruct Ia as (l1 & l2 & ->).
      destruct (loop_yes tc pc l1 ta a l2 pa na T Etc C4 FA (before_one _ _ _ _ _ O Y) Y Ea) as (l' & EL & EF).
      rewrite annotate_sel, Ec. cbn [bind fst snd]. rewrite EL. cbn [bind fst snd]. eexists pa, _. split; [reflexivity|]. split; [exact Er|].
      split; [reflexivity|]. split; intros A leaf.
      * rewrite (translate_sel _ _ _ _ _ _ pc TC), EF. apply S2.
      * rewrite (evaluate_sel _ _ _ _ _ _ pc TC), EF, S3. now destruct (n_const pa).
    + destruct (IHc C1 _ _ _ Hc) as (pc & nc & Ec & Eac & (TC & _)).
      assert (Etc : n_type pc = tc).
      { destruct (typed_leaf c C1 _ _ _ Hc) as (Cr & Tr). destruct (analyze_typed G HG rc Cr) as (M & _).
        destruct (M _ _ Tr) as (p' & E' & R'). rewrite Eac in E'. injection E' as <-. apply (r_type _ _ _ _ _ R'). }
      pose proof (typed_tame c C1 _ _ _ Hc) as T. specialize (C4 _ _ _ Hc). specialize (FA l F (incl_refl _)).
      destruct (IHd x eq_refl (C3 x eq_refl) _ _ _ Hx) as (px & nx & Ex & Er & (S1 & S2 & S3)).
      assert (N' : Forall (fun b => ~ conforms (value_type tc) (fst b)) l) by (apply Forall_forall; exact N).
      destruct (loop_no tc pc l T Etc C4 FA N') as (l' & EL & EF).
      rewrite annotate_sel, Ec. cbn [bind fst snd]. rewrite EL. cbn [bind fst snd]. rewrite Ex. cbn [bind fst snd].
      eexists px, _. split; [reflexivity|]. split; [exact Er|]. split; [reflexivity|]. split; intros A leaf.
      * rewrite (translate_sel _ _ _ _ _ _ pc TC), EF. apply S2.
      * rewrite (evaluate_sel _ _ _ _ _ _ pc TC), EF, S3. now destruct (n_const px).
Qed.

(** What is accepted, given the constraints that are not looked at *)
Lemma loop_all : forall pc l m x, loop G pc m l = Ok x -> Forall (fun a => analysed (snd a)) l.
Proof.
  intros pc. induction l as [|[t a] l IH]; intros m x H; constructor; cbn in H.
  - destruct (annotate G a) as [[pa na]| |] eqn:E; cbn in H; try discriminate H. exists pa, na. exact E.
  - destruct (annotate G a) as [[pa na]| |]; cbn in H; try discriminate H.
    match type of H with bind ?z _ = _ => destruct z as [m'| |]; cbn in H; try discriminate H end.
    destruct (loop G pc m' l) as [y| |] eqn:E; cbn in H; try discriminate H. eapply IH. exact E.
Qed.
Lemma loop_defined : forall pc l m, Forall (fun a => annotate G (snd a) <> Bad) l -> Forall (fun a => agrees pc (fst a) <> Bad) l -> loop G pc m l <> Bad.
Proof.
  intros pc. induction l as [|[t a] l IH]; intros m F1 F2; [discriminate|]. inversion F1; inversion F2; subst. cbn in *.
  destruct (annotate G a) as [[pa na]| |]; cbn; try congruence.
  assert (Q : forall m', bind (loop G pc m' l) (fun rr => Ok (fst rr, (t, na) :: snd rr)) <> Bad).
  { intros m'. specialize (IH m' ltac:(assumption) ltac:(assumption)). destruct (loop G pc m' l); cbn; congruence. }
  destruct m as [q|]; cbn; [apply Q|]. destruct (agrees pc t) as [b| |]; cbn; first [apply Q|congruence].
Qed.

Theorem accepted_rules : forall g, gcovered g -> constrained (TBasic BSInt) G g ->
  annotate G g <> Bad /\ forall p n, annotate G g = Ok (p, n) -> exists t k r, gtyped g t k r.
Proof.
  induction g as [e|c l d IHc IHl IHd] using gexpr_nested; intros C K.
  - destruct (analyze_typed G HG e C) as (_ & M2 & M3). cbn. destruct (analyze G e) as [p| |]; cbn; [|split; congruence|split; congruence].
    split; [discriminate|]. intros _ _ _. destruct (M2 p eq_refl) as (t & k & T & _). exists t, k, e. now constructor.
  - apply gcovered_sel in C. destruct C as (C1 & C2 & C3 & C4). destruct K as (K1 & K2 & K3 & K4 & K5 & K6). apply all_forall in K2.
    destruct (IHc C1 K1) as (B1 & A1).
    assert (IA : Forall (fun a => annotate G (snd a) <> Bad /\ (analysed (snd a) -> exists t k r, gtyped (snd a) t k r)) l).
    { rewrite Forall_forall in IHl, C2, K2 |- *. intros a I. destruct (IHl a I (C2 a I) (K2 a I)) as (X & Y). split; [exact X|].
      intros (p & n & E). eapply Y. exact E. }
    rewrite annotate_sel. destruct (annotate G c) as [[pc nc]| |] eqn:Ec; cbn [bind fst snd]; [|split; congruence|congruence].
    destruct (A1 _ _ eq_refl) as (tc & kc & rc & Hc).
    assert (Etc : n_type pc = tc).
    { destruct (rules_analysed c C1 _ _ _ Hc) as (p' & n' & E' & Er & _). rewrite Ec in E'. injection E' as <- <-.
      destruct (typed_leaf c C1 _ _ _ Hc) as (Cr & Tr). destruct (analyze_typed G HG rc Cr) as (M & _).
      destruct (M _ _ Tr) as (p' & E' & R'). rewrite Er in E'. injection E' as <-. apply (r_type _ _ _ _ _ R'). }
    pose proof (typed_tame c C1 _ _ _ Hc) as T. specialize (C4 _ _ _ Hc). specialize (K6 _ _ _ Hc).
    assert (Q : Forall (fun a => agrees pc (fst a) <> Bad) l).
    { apply Forall_forall. intros a I. rewrite Forall_forall in C4. destruct (C4 a I) as (_ & X1 & X2). unfold agrees.
      rewrite Etc, (conv_value _ T). destruct (compatible (value_type tc) (fst a)); congruence. }
    assert (LB : loop G pc None l <> Bad).
    { apply loop_defined; [|exact Q]. eapply Forall_impl; [|exact IA]. intros a X. apply X. }
    destruct (loop G pc None l) as [[m l']| |] eqn:EL; cbn [bind fst snd]; [|split; congruence|congruence].
    pose proof (loop_all _ _ _ _ EL) as AL.
    assert (FA : Forall (fun b => association_type G (fst b) /\ exists t' k' r', gtyped (snd b) t' k' r') l).
    { apply Forall_forall. intros a I. rewrite Forall_forall in K4, IA, AL. split; [apply K4, I|]. apply (IA a I), AL, I. }
    destruct m as [q|].
    + split; [discriminate|]. intros _ _ _. destruct (loop_some _ _ _ _ _ EL) as (l1 & t & a & l2 & na & -> & Ea & Y & _ & _).
      rewrite Etc, (conv_value _ T) in Y. rewrite Forall_forall in C4, IA. destruct (C4 (t, a) (in_elt _ _ _)) as (X & _). apply X in Y.
      destruct (proj2 (IA (t, a) (in_elt _ _ _))) as (t' & k' & r' & Ha). { exists q, na. exact Ea. }
      exists t', k', r'. eapply T_association; eauto. 2:{ apply in_elt. }
      intros x ->. apply K3.
    + destruct (loop_none _ _ _ _ EL) as (N & _).
      destruct d as [x|]; [|split; discriminate]. destruct (IHd x eq_refl (C3 x eq_refl) (proj1 K3)) as (B2 & A2).
      destruct (annotate G x) as [[px nx]| |]; cbn [bind fst snd]; [|split; congruence|congruence].
      split; [discriminate|]. intros _ _ _. destruct (proj2 K3) as (t & k & r & Hx). exists t, k, r. eapply T_default; eauto.
      intros b I X. rewrite Forall_forall in N, C4. specialize (N b I). rewrite Etc, (conv_value _ T) in N. apply (C4 b I) in X. congruence.
Qed.
End Rules.

(** ** Building and copying *)
Definition association (x : option ty * gexpr) : list (ty * gexpr) := match x with (Some t, e) => [(t, e)] | (None, _) => [] end.
Definition defaults (x : option ty * gexpr) : list gexpr := match x with (Some _, _) => [] | (None, e) => [e] end.
Lemma append_all_spec : forall l c l0 d0, append_all (GSel c l0 d0) l =
  match d0, flat_map defaults l with
  | None, [] => Some (GSel c (l0 ++ flat_map association l) None)
  | None, [x] => Some (GSel c (l0 ++ flat_map association l) (Some x))
  | Some x, [] => Some (GSel c (l0 ++ flat_map association l) (Some x))
  | _, _ => None
  end.
Proof.
  induction l as [|[[t|] e] l IH]; intros c l0 d0; destruct d0 as [d|]; cbn [append_all append flat_map association defaults app].
  1, 2: now rewrite app_nil_r.
  1, 2: rewrite IH, <- app_assoc; reflexivity.
  - reflexivity.
  - rewrite IH. now destruct (flat_map defaults l).
Qed.
Lemma clone_plain : forall g, (forall c l d, g = GSel c l d -> l = []) -> match g with GSel c _ d => clone c = Some c /\ (forall x, d = Some x -> clone x = Some x) | _ => True end ->
  clone g = Some g.
Proof.
  intros [e|c l d] H K; [reflexivity|]. rewrite (H _ _ _ eq_refl). destruct K as (K1 & K2). cbn. rewrite K1. destruct d as [x|]; [|reflexivity].
  now rewrite (K2 x eq_refl).
Qed.
Lemma clone_fails : forall c l d, l <> [] -> clone (GSel c l d) = None.
Proof.
  intros c l d N. cbn. destruct (clone c); [|reflexivity]. destruct l as [|[t a] l]; [congruence|]. cbn. now destruct (clone a).
Qed.
