(** C13: macro scopes (source/preprocessor/user_macro.c:735-806). *)

From Coq Require Import ZArith Bool List Lia.
From Verif Require Import HashtreeModel HashtreeProofs SymtabModel SymtabProofs.
Import ListNotations.
Open Scope nat_scope.

Section Scope.
Variable M : Type. (* macro definitions *)

(** ** Model *)

(** struct kefir_preprocessor_user_macro_scope: the hash tree of this scope and the
    chain of its parents, innermost scope first. *)
Definition macros := htree cstring M.
Definition mscope := list macros.

Definition mat := ht_at cstring M str_hash cstring_eqb.
Definition mhas := ht_has cstring M str_hash cstring_eqb.
Definition minsert := ht_insert cstring M str_hash cstring_eqb.
Definition mdelete := ht_delete cstring M str_hash cstring_eqb.

(** kefir_preprocessor_user_macro_scope_insert, :757-769; [None] is an error of
    kefir_hashtree_insert or kefir_hashtree_delete. *)
Definition scope_insert (t : macros) (name : cstring) (m : M) : option macros :=
  let t1 := if mhas name t then
              match mdelete name t with (HtOk, t1) => Some t1 | _ => None end
            else Some t in
  match t1 with
  | None => None
  | Some t1 => match minsert name m t1 with (HtOk, t2) => Some t2 | _ => None end
  end.

(** kefir_preprocessor_user_macro_scope_at, :771-788; [None] is KEFIR_NOT_FOUND. *)
Fixpoint scope_at (s : mscope) (name : cstring) : option M :=
  match s with
  | [] => None
  | t :: parents => match mat name t with
                    | Some (_, m) => Some m
                    | None => scope_at parents name
                    end
  end.

(** kefir_preprocessor_user_macro_scope_remove, :790-802. *)
Definition scope_remove (t : macros) (name : cstring) : option macros :=
  match mdelete name t with
  | (HtOk, t') => Some t'
  | (HtNotFound, _) => Some t
  | _ => None
  end.

(** Client operations on a chain of scopes: the n-th scope from the innermost. *)
Inductive mop :=
| Define (n : nat) (name : cstring) (m : M)
| Undef (n : nat) (name : cstring)
| Open    (* a new innermost scope: kefir_preprocessor_user_macro_scope_init, :735-747 *)
| Close.  (* the innermost scope is freed *)

Fixpoint update (s : mscope) (n : nat) (f : macros -> option macros) : option mscope :=
  match s, n with
  | [], _ => Some []
  | t :: r, O => option_map (fun t' => t' :: r) (f t)
  | t :: r, S n => option_map (cons t) (update r n f)
  end.
Definition mstep (s : mscope) (o : mop) : option mscope :=
  match o with
  | Define n name m => update s n (fun t => scope_insert t name m)
  | Undef n name => update s n (fun t => scope_remove t name)
  | Open => Some (HLeaf :: s)
  | Close => Some (tl s)
  end.
Fixpoint mrun (s : mscope) (l : list mop) : option mscope :=
  match l with
  | [] => Some s
  | o :: l => match mstep s o with Some s' => mrun s' l | None => None end
  end.

(** ** Specification *)

(** The history of every open scope, innermost scope and latest event first. *)
Inductive event := EDefine (name : cstring) (m : M) | EUndef (name : cstring).
Definition history := list (list event).

Fixpoint record (h : history) (n : nat) (e : event) : history :=
  match h, n with
  | [], _ => []
  | x :: r, O => (e :: x) :: r
  | x :: r, S n => x :: record r n e
  end.
Definition hstep (h : history) (o : mop) : history :=
  match o with
  | Define n name m => record h n (EDefine name m)
  | Undef n name => record h n (EUndef name)
  | Open => [] :: h
  | Close => tl h
  end.
Definition hrun := fold_left hstep.

(** [last_event es name e]: the latest event of the scope about [name] is [e]. *)
Definition about (e : event) : cstring := match e with EDefine n _ | EUndef n => n end.
Definition last_event (es : list event) (name : cstring) (e : event) : Prop :=
  exists later earlier, es = later ++ e :: earlier /\ about e = name /\ (forall x, In x later -> about x <> name).
Definition undefined_here (es : list event) (name : cstring) : Prop :=
  (forall x, In x es -> about x <> name) \/ last_event es name (EUndef name).

(** A name means [m]: some scope's latest event about it defines it as [m], and it is
    undefined in all scopes further in. *)
Definition means (h : history) (name : cstring) (m : M) : Prop :=
  exists inner es outer, h = inner ++ es :: outer /\ last_event es name (EDefine name m) /\
    Forall (fun x => undefined_here x name) inner.

(** ** Proofs *)

Definition spec_of (es : list event) (name : cstring) : option M :=
  match find (fun e => cstring_eqb (about e) name) es with
  | Some (EDefine _ m) => Some m
  | _ => None
  end.

Definition srep' := represents cstring M str_hash cstring_eqb.
Definition rep1 (t : macros) (es : list event) := srep' t (spec_of es).

Lemma eqb_refl : forall a, cstring_eqb a a = true.
Proof. intro. apply cstring_eqb_spec. reflexivity. Qed.

Lemma rep_ext : forall t f g, srep' t f -> (forall k, f k = g k) -> srep' t g.
Proof. intros t f g [G H] E. split; [exact G|]. intro k. rewrite H. apply E. Qed.

Lemma insert_step : forall t es name m, rep1 t es ->
  exists t', scope_insert t name m = Some t' /\ rep1 t' (EDefine name m :: es).
Proof.
  intros t es name m R. unfold scope_insert, mhas, ht_has.
  pose proof (at_rep _ _ _ _ cstring_eqb_spec _ _ name R) as A. fold mat in A. fold mat.
  assert (P : exists t1 f, (if match mat name t with Some _ => true | None => false end
            then match mdelete name t with (HtOk, t1) => Some t1 | _ => None end else Some t) = Some t1 /\
          srep' t1 f /\ f name = None /\ (forall k, cstring_eqb name k = false -> f k = spec_of es k)).
  { pose proof (step_refines cstring M str_hash cstring_eqb cstring_eqb_spec t (spec_of es) (OpDelete name)) as S. cbn [ht_step] in S.
    fold mdelete in S. destruct (mdelete name t) as [r t1] eqn:Ed.
    destruct (mat name t) as [[k v]|] eqn:Ea.
    - destruct (S _ _ R eq_refl) as [S1 S2]. cbn [spec_step] in S1, S2.
      destruct (spec_of es name) eqn:Es; [|intuition congruence].
      cbn in S1. injection S1 as <-. exists t1, (fdel cstring M cstring_eqb name (spec_of es)).
      split; [reflexivity|]. split; [exact S2|]. unfold fdel. rewrite eqb_refl. split; [reflexivity|].
      intros k0 ->. reflexivity.
    - exists t, (spec_of es). split; [reflexivity|]. split; [exact R|]. split; [|reflexivity]. 
      exact A. }
  destruct P as (t1 & f & E & Rf & Fn & Fo). rewrite E.
  pose proof (step_refines cstring M str_hash cstring_eqb cstring_eqb_spec t1 f (OpInsert name m)) as S. cbn [ht_step] in S.
  fold minsert in S. destruct (minsert name m t1) as [r t2] eqn:Ei.
  destruct (S _ _ Rf eq_refl) as [S1 S2]. cbn [spec_step] in S1, S2. rewrite Fn in S1, S2. cbn in S1, S2.
  injection S1 as <-. exists t2. split; [reflexivity|]. eapply rep_ext; [exact S2|].
  intro k. unfold fput, spec_of at 1. cbn [find about]. destruct (cstring_eqb name k) eqn:Ek; [reflexivity|].
  rewrite Fo by exact Ek. reflexivity.
Qed.

Lemma remove_step : forall t es name, rep1 t es ->
  exists t', scope_remove t name = Some t' /\ rep1 t' (EUndef name :: es).
Proof.
  intros t es name R. unfold scope_remove.
  pose proof (step_refines cstring M str_hash cstring_eqb cstring_eqb_spec t (spec_of es) (OpDelete name)) as S. cbn [ht_step] in S.
  fold mdelete in S. destruct (mdelete name t) as [r t1] eqn:Ed.
  destruct (S _ _ R eq_refl) as [S1 S2]. cbn [spec_step] in S1, S2.
  destruct (spec_of es name) eqn:Es; cbn in S1, S2; injection S1 as <-.
  - exists t1. split; [reflexivity|]. eapply rep_ext; [exact S2|]. intro k.
    unfold fdel, spec_of at 2. cbn [find about]. destruct (cstring_eqb name k); reflexivity.
  - exists t. split; [reflexivity|]. eapply rep_ext; [exact R|]. intro k.
    unfold spec_of at 2. cbn [find about]. destruct (cstring_eqb name k) eqn:Ek; [|reflexivity].
    apply cstring_eqb_spec in Ek. subst k. exact Es.
Qed.

Lemma update_rep : forall s h n f e, Forall2 rep1 s h ->
  (forall t es, rep1 t es -> exists t', f t = Some t' /\ rep1 t' (e :: es)) ->
  exists s', update s n f = Some s' /\ Forall2 rep1 s' (record h n e).
Proof.
  intros s h n f e H Hf. revert n. induction H as [|t es s h Ht Hs IH]; intro n; cbn.
  - exists []. destruct n; split; constructor.
  - destruct n as [|n].
    + destruct (Hf _ _ Ht) as (t' & E & R). rewrite E. exists (t' :: s). split; [reflexivity|]. constructor; assumption.
    + destruct (IH n) as (s' & E & R). rewrite E. exists (t :: s'). split; [reflexivity|]. constructor; assumption.
Qed.

Lemma mrun_rep : forall l s h, Forall2 rep1 s h -> exists s', mrun s l = Some s' /\ Forall2 rep1 s' (hrun l h).
Proof.
  induction l as [|o l IH]; intros s h R; cbn; [eauto|].
  assert (P : exists s', mstep s o = Some s' /\ Forall2 rep1 s' (hstep h o)).
  { destruct o; cbn [mstep hstep].
    - apply update_rep; [exact R|]. intros. apply insert_step. assumption.
    - apply update_rep; [exact R|]. intros. apply remove_step. assumption.
    - eexists. split; [reflexivity|]. constructor; [|exact R]. apply represents_empty.
    - eexists. split; [reflexivity|]. destruct R; [constructor|assumption]. }
  destruct P as (s' & E & R'). rewrite E. apply IH. exact R'.
Qed.

Lemma spec_of_spec : forall es name m, spec_of es name = Some m <-> last_event es name (EDefine name m).
Proof.
  intros es name m. unfold spec_of, last_event. split.
  - destruct (find _ es) as [e|] eqn:F; [|discriminate]. destruct e as [n m'|]; [|discriminate]. intro H.
    injection H as ->. revert F. induction es as [|x es IH]; [discriminate|]. cbn [find].
    destruct (cstring_eqb (about x) name) eqn:E; intro F.
    + injection F as ->. apply cstring_eqb_spec in E. cbn in E. subst n.
      exists [], es. split; [reflexivity|]. split; [reflexivity|]. intros ? [].
    + destruct (IH F) as (la & ea & -> & H1 & H2). exists (x :: la), ea. split; [reflexivity|]. split; [exact H1|].
      intros y [<-|Hy]; [|apply H2; exact Hy]. intro Eq. apply cstring_eqb_spec in Eq. congruence.
  - intros (la & ea & -> & _ & H). assert (F : find (fun e => cstring_eqb (about e) name) (la ++ EDefine name m :: ea) = Some (EDefine name m)).
    { induction la as [|x la IH]; cbn [app find about].
      - rewrite eqb_refl. reflexivity.
      - destruct (cstring_eqb (about x) name) eqn:E.
        + apply cstring_eqb_spec in E. exfalso. apply (H x); [left; reflexivity|exact E].
        + apply IH. intros y Hy. apply H. right. exact Hy. }
    rewrite F. reflexivity.
Qed.

Lemma spec_none : forall es name, spec_of es name = None <-> undefined_here es name.
Proof.
  intros es name. unfold undefined_here. split.
  - intro H. unfold spec_of in H. destruct (find _ es) as [e|] eqn:F.
    + destruct e as [|n]; [discriminate|]. right.
      clear H. revert F. induction es as [|x es IH]; [discriminate|]. cbn [find].
      destruct (cstring_eqb (about x) name) eqn:E; intro F.
      * injection F as ->. apply cstring_eqb_spec in E. cbn in E. subst n.
        exists [], es. split; [reflexivity|]. split; [reflexivity|]. intros ? [].
      * destruct (IH F) as (la & ea & -> & H1 & H2). exists (x :: la), ea. split; [reflexivity|]. split; [exact H1|].
        intros y [<-|Hy]; [|apply H2; exact Hy]. intro Eq. apply cstring_eqb_spec in Eq. congruence.
    + left. intros x Hx Eq. apply (find_none _ _ F) in Hx. apply cstring_eqb_spec in Eq. congruence.
  - intros [H|(la & ea & -> & _ & H)].
    + destruct (spec_of es name) as [m|] eqn:E; [|reflexivity].
      apply spec_of_spec in E. destruct E as (la & ea & -> & _ & _). exfalso.
      apply (H (EDefine name m)); [apply in_app_iff; right; left; reflexivity|reflexivity].
    + unfold spec_of. induction la as [|x la IH]; cbn [app find about].
      * rewrite eqb_refl. reflexivity.
      * destruct (cstring_eqb (about x) name) eqn:E.
        -- apply cstring_eqb_spec in E. exfalso. apply (H x); [left; reflexivity|exact E].
        -- apply IH. intros y Hy. apply H. right. exact Hy.
Qed.

Lemma scope_at_rep : forall s h name m, Forall2 rep1 s h -> scope_at s name = Some m <-> means h name m.
Proof.
  intros s h name m R. induction R as [|t es s h Rt R IH]; cbn [scope_at].
  - split; [discriminate|]. intros (i & e & o & H & _). destruct i; discriminate.
  - pose proof (at_rep _ _ _ _ cstring_eqb_spec _ _ name Rt) as A. fold mat in A.
    destruct (mat name t) as [[k v]|].
    + assert (Es : spec_of es name = Some v) by (destruct A; congruence). split.
      * intro H. injection H as ->. exists [], es, h. split; [reflexivity|]. split; [apply spec_of_spec; exact Es|constructor].
      * intros (i & e & o & H & Hl & Hu). destruct i as [|i0 i].
        -- injection H as <- <-. apply spec_of_spec in Hl. congruence.
        -- injection H as <- ->. inversion Hu as [|? ? U _]; subst. apply spec_none in U. congruence.
    + assert (Es : spec_of es name = None) by (exact A).
      rewrite IH. split.
      * intros (i & e & o & -> & Hl & Hu). exists (es :: i), e, o. split; [reflexivity|]. split; [exact Hl|].
        constructor; [apply spec_none; exact Es|exact Hu].
      * intros (i & e & o & H & Hl & Hu). destruct i as [|i0 i].
        -- injection H as <- <-. apply spec_of_spec in Hl. congruence.
        -- injection H as <- ->. exists i, e, o. split; [reflexivity|]. split; [exact Hl|]. inversion Hu; assumption.
Qed.
End Scope.

(** ** Theorem *)

(** After any history the operations have all succeeded, and a name resolves to exactly
    what the history says it means. *)
Theorem c13_macro_scopes : forall (M : Type) (ops : list (mop M)),
  exists s, mrun M [] ops = Some s /\
  forall name m, scope_at M s name = Some m <-> means M (hrun M ops []) name m.
Proof.
  intros M ops. destruct (mrun_rep M ops [] [] (Forall2_nil _)) as (s & E & R). exists s. split; [exact E|].
  intros name m. apply scope_at_rep. exact R.
Qed.

(** A name is found nowhere exactly when no scope defines it. *)
Theorem c13_undefined : forall (M : Type) (ops : list (mop M)),
  exists s, mrun M [] ops = Some s /\
  forall name, scope_at M s name = None <-> Forall (fun es => undefined_here M es name) (hrun M ops []).
Proof.
  intros M ops. destruct (mrun_rep M ops [] [] (Forall2_nil _)) as (s & E & R). exists s. split; [exact E|].
  intro name. split.
  - intro H. destruct (Forall_Exists_dec (fun es => undefined_here M es name)) with (l := hrun M ops []) as [F|F];
      [|exact F|].
    + intro es. destruct (spec_of M es name) eqn:Es; [right|left; apply spec_none; exact Es].
      intro U. apply spec_none in U. congruence.
    + exfalso. assert (D : exists m, means M (hrun M ops []) name m).
      { clear -F. induction (hrun M ops []) as [|es h IH]; [inversion F|].
        destruct (spec_of M es name) as [m|] eqn:Es.
        - exists m. exists [], es, h. split; [reflexivity|]. split; [apply spec_of_spec; exact Es|constructor].
        - assert (F' : Exists (fun x => ~ undefined_here M x name) h).
          { inversion F as [? ? U|]; subst; [|assumption]. exfalso. apply U. apply spec_none. exact Es. }
          destruct (IH F') as (m & i & e & o & -> & Hl & Hu). exists m, (es :: i), e, o.
          split; [reflexivity|]. split; [exact Hl|]. constructor; [apply spec_none; exact Es|exact Hu]. }
      destruct D as [m D]. apply (proj2 (scope_at_rep M s _ name m R)) in D. congruence.
  - intro F. destruct (scope_at M s name) as [m|] eqn:E'; [|reflexivity].
    apply (proj1 (scope_at_rep M s _ name m R)) in E'. destruct E' as (i & e & o & Hh & Hl & _).
    rewrite Hh in F. apply Forall_app in F. destruct F as [_ F]. inversion F as [|? ? U _]; subst.
    apply spec_none in U. apply spec_of_spec in Hl. congruence.
Qed.

Example c13_example :
  let a := [97%Z] in
  let ops := [Open nat; Define nat 0 a 1; Define nat 0 a 2; Open nat; Define nat 0 a 3; Undef nat 0 a] in
  option_map (fun s => scope_at nat s a) (mrun nat [] ops) = Some (Some 2%nat) /\
  means nat (hrun nat ops []) a 2.
Proof.
  cbv zeta. split; [vm_compute; reflexivity|].
  exists [[EUndef nat [97%Z]; EDefine nat [97%Z] 3]], [EDefine nat [97%Z] 2; EDefine nat [97%Z] 1], [].
  split; [reflexivity|]. split.
  - exists [], [EDefine nat [97%Z] 1]. split; [reflexivity|]. split; [reflexivity|]. intros ? [].
  - constructor; [|constructor]. right. exists [], [EDefine nat [97%Z] 3]. split; [reflexivity|].
    split; [reflexivity|]. intros ? [].
Qed.

Print Assumptions c13_macro_scopes.
Print Assumptions c13_undefined.
