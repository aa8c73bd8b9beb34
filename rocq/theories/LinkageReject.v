(** * Constraint violations are refused: what the analyzer accepts is free of them *)

From Coq Require Import List Bool Arith Lia.
From Verif Require Import LinkageModel LinkageSpec LinkageProofs.
Import ListNotations.

Section Reject.
Variable L : lang.
Notation ty := (ty L).
Notation ini := (ini L).
Notation sid := (sid L).
Notation cstate := (cstate L).
Notation sstate := (sstate L).
Notation linked := (linked L).
Notation own := (own L).
Notation decl := (decl L).

(** *** An invariant of the specification *)

(** The file scope shows no object without linkage; an object is defined by an initializer; internal linkage comes from the
    file scope. *)
Record sane (s : sstate) : Prop := {
  sn_file : forall x n, file L s x = Some (Own n) ->
    nth_error (owns L s) n = Some (OwnConst L) \/ exists t, nth_error (owns L s) n = Some (OwnType L t);
  sn_obj : forall x k, known L s x = Some k -> l_fun L k = false -> l_status L k <> Defined L None;
  sn_internal : forall x k, known L s x = Some k -> l_internal L k = true -> file L s x = Some (Linked x)
}.

Lemma sane_init : sane (sinit L).
Proof. split; discriminate. Qed.

Lemma sane_create s o : sane s -> sane (create L o s).
Proof.
  intros [A B C]. split; [|exact B|exact C]. cbn. intros x n H.
  destruct (A x n H) as [Q|(t & Q)]; [left|right; exists t]; apply nth_app_old; exact Q.
Qed.

Lemma sane_link s x k : sane s -> (l_fun L k = false -> l_status L k <> Defined L None) ->
  (at_file L s = false -> l_internal L k = true -> file L s x = Some (Linked x)) ->
  sane (enter L x (Linked x) (learn L x k s)).
Proof.
  intros [A B C] O I. unfold at_file, enter in *. cbn. destruct (scopes L s); split; cbn; try exact A.
  - intros y n. unfold bind_. destruct (Nat.eqb x y); [discriminate|apply A].
  - intros y k'. destruct (Nat.eqb x y); [|apply B]. intros H. injection H as <-. exact O.
  - intros y k'. unfold bind_. destruct (Nat.eqb x y) eqn:E; [|apply C]. apply Nat.eqb_eq in E. subst. reflexivity.
  - intros y k'. destruct (Nat.eqb x y); [|apply B]. intros H. injection H as <-. exact O.
  - intros y k'. destruct (Nat.eqb x y) eqn:E; [|apply C]. apply Nat.eqb_eq in E. subst. intros H. injection H as <-.
    apply I. reflexivity.
Qed.

Lemma sane_own s x n : sane s ->
  (at_file L s = true -> file L s x = None
    /\ (nth_error (owns L s) n = Some (OwnConst L) \/ exists t, nth_error (owns L s) n = Some (OwnType L t))) ->
  sane (enter L x (Own n) s).
Proof.
  intros [A B C] H. unfold enter, at_file in *. destruct (scopes L s); split; cbn; try exact B; try exact A; try exact C.
  - intros y m. unfold bind_. destruct (Nat.eqb x y); [|apply A]. intros Q. injection Q as <-. apply H. reflexivity.
  - intros y k K I. unfold bind_. destruct (Nat.eqb x y) eqn:E; [|apply (C y k K I)]. apply Nat.eqb_eq in E. subst y.
    destruct (H eq_refl) as [Q _]. rewrite (C x k K I) in Q. discriminate.
Qed.

Lemma sane_declare body c s es d :
  sane s -> (at_file L s = false -> R L c s es) ->
  violation L body s d = false -> undefined L body s d = false -> sane (declare L body s d).
Proof.
  intros S RR V U. apply clean_iff in V. apply meant_if in U. unfold declare.
  assert (forall k, is_fun L (d_type L d) = false -> k = defines L body s d -> k <> Defined L None) as DF.
  { intros k F ->. unfold defines. destruct body; [destruct (cl_body _ _ _ _ V eq_refl); congruence|].
    destruct (d_init L d); [discriminate|]. destruct (is_fun L (d_type L d) || extern (d_class L d)); discriminate. }
  destruct (has_linkage L s d) eqn:HL.
  - apply sane_link; [exact S| |]; destruct (known L s (d_name L d)) as [k|] eqn:K; cbn [l_fun l_status l_internal].
    + intros F. destruct (mt_known _ _ _ _ U HL k K) as (_ & FK & _). pose proof (sn_obj _ S _ _ K F) as N.
      rewrite F in FK. symmetry in FK. pose proof (DF _ FK eq_refl) as D.
      destruct (l_status L k) as [| |j] eqn:ST; cbn [merge]; [|destruct (defines L body s d); congruence|exact N].
      destruct (defines L body s d); congruence.
    + intros F. apply (DF _ F eq_refl).
    + intros _. apply (sn_internal _ S _ _ K).
    + intros AF. specialize (RR AF). destruct (static (d_class L d)) eqn:ST.
      * intros _. exfalso. unfold has_linkage in HL. rewrite AF in HL. apply andb_prop in HL. destruct HL as [_ HL]. cbn in HL.
        apply orb_prop in HL. destruct HL as [X|F]; [destruct (d_class L d); discriminate|].
        destruct (mt_fun _ _ _ _ U AF F). congruence.
      * rewrite (internal_unknown L _ _ _ _ RR K ST). discriminate.
  - destruct (typedef (d_class L d)) eqn:TD.
    + destruct (current L s (d_name L d)) eqn:CU; [exact S|]. apply sane_own; [apply sane_create; exact S|].
      intros AF. split; [|right; exists (d_type L d); apply nth_app_last]. cbn. unfold at_file, current in *. cbn in AF.
      destruct (scopes L s); [exact CU|discriminate].
    + apply sane_own; [apply sane_create; exact S|]. intros AF. unfold has_linkage in HL. rewrite TD in HL.
      unfold at_file in AF, HL. cbn in AF. rewrite AF in HL. discriminate.
Qed.

Lemma sane_step e c s es s' o : R L c s es -> sane s -> sstep L e s = Valid (s', o) -> sane s'.
Proof.
  intros RR S H. destruct e as [d|x|d| | |x]; cbn in H.
  - unfold judge in H. destruct (violation L false s d) eqn:V; [discriminate|].
    destruct (undefined L false s d) eqn:U; [discriminate|]. injection H as <- <-. apply (sane_declare false c s es); auto.
  - destruct (current L s x) eqn:CU; [discriminate|]. injection H as <- <-. apply sane_own; [apply sane_create; exact S|].
    intros AF. split; [|left; apply nth_app_last]. cbn. unfold at_file, current in *. cbn in AF.
    destruct (scopes L s); [exact CU|discriminate].
  - destruct (scopes L s) as [|g [|? ?]]; try discriminate. unfold judge in H.
    destruct (violation L true (outside L s) d) eqn:V; [discriminate|].
    destruct (undefined L true (outside L s) d) eqn:U; [discriminate|]. injection H as <- <-.
    assert (sane (outside L s)) as S2 by (destruct S; split; assumption).
    assert (sane (declare L true (outside L s) d)) as [A B C] 
      by (apply (sane_declare true c (outside L s) es); try assumption; discriminate).
    split; assumption.
  - injection H as <- <-. destruct S. split; assumption.
  - destruct (scopes L s); [discriminate|]. injection H as <- <-. destruct S. split; assumption.
  - destruct (visible L s x) as [e|]; [|discriminate]. destruct (describe L s e); [|discriminate]. injection H as <- <-. exact S.
Qed.

Lemma sane_runs evs : forall c s es s' o, lang_ok L -> R L c s es -> sane s -> covered L s evs ->
  sruns L evs s = Valid (s', o) -> sane s'.
Proof.
  induction evs as [|e evs IH]; intros c s es s' o OK RR S CV H; cbn in H.
  - injection H as <- <-. exact S.
  - cbn in CV. destruct CV as [C1 C2]. destruct (sstep L e s) as [[s1 o1]| |] eqn:E; try discriminate.
    destruct (sruns L evs s1) as [[s2 o2]| |] eqn:F; try discriminate.
    injection H as <- <-. destruct (step_ok L e c s es s1 o1 OK RR C1 E) as (c1 & es1 & m & _ & R1 & _).
    eapply IH; [exact OK|exact R1| |exact C2|exact F].
    apply (sane_step e c s es s1 o1 RR S E).
Qed.

(** *** What acceptance tells *)

Lemma req_ok {A} b (r : res A) a : req b r = Ok a -> b = true /\ r = Ok a.
Proof. destruct b; [auto|discriminate]. Qed.

Lemma initialize_ok a t i c c' : g_initialize L a t i c = Ok c' ->
  forall j, i = Some j -> constant L j = true /\ exists t', completed L t j = Some t'.
Proof.
  intros H j ->. cbn in H. destruct (completed L t j) as [t'|]; [|discriminate]. apply req_ok in H. destruct H as [H _].
  split; [exact H|]. exists t'. reflexivity.
Qed.

(** Objects of the file scope. *)
Record object_facts (thr stat : bool) (x : name) (t : ty) (i : option ini) (c : cstate) : Prop := {
  of_vm : vm L t = false;
  of_klass : klass_ok L c x KObj = true;
  of_old : forall a t0 st lk ext i0, objs L c x = Some a -> nth_error (heap L c) a = Some (SObj L t0 st lk ext i0) ->
    linked_storage thr st = true /\ compat L t0 t = true
    /\ (forall j, i = Some j -> i0 = None /\ st = if stat then stat_storage thr else ext_storage thr);
  of_init : forall j, i = Some j -> constant L j = true /\ exists t', completed L t j = Some t'
}.

Lemma storage_eqb_true a b : storage_eqb a b = true -> a = b.
Proof. destruct a, b; cbn; congruence. Qed.

Lemma declare_external_facts thr stat x t c c' : g_declare_external L thr x t c = Ok c' -> object_facts thr stat x t None c.
Proof.
  intros H. unfold g_declare_external in H. apply req_ok in H. destruct H as [V H]. apply negb_true_iff in V.
  apply req_ok in H. destruct H as [K H]. split; try assumption; [|discriminate].
  intros a t0 st lk ext i0 O N. rewrite O, N in H. apply req_ok in H. destruct H as [ST H]. apply req_ok in H. destruct H as [CP _].
  split; [exact ST|]. split; [exact CP|]. discriminate.
Qed.

Lemma define_external_facts thr x t i c c' : g_define_external L thr x t i c = Ok c' -> object_facts thr false x t i c.
Proof.
  intros H. unfold g_define_external in H. apply req_ok in H. destruct H as [V H]. apply negb_true_iff in V.
  apply req_ok in H. destruct H as [K H]. split; try assumption.
  - intros a t0 st lk ext i0 O N. rewrite O, N in H. apply req_ok in H. destruct H as [ST H]. apply req_ok in H.
    destruct H as [CP H]. apply req_ok in H. destruct H as [IN _]. apply storage_eqb_true in ST.
    split; [subst st; destruct thr; reflexivity|]. split; [exact CP|]. intros j ->. split; [|exact ST].
    destruct i0; [discriminate|reflexivity].
  - intros j ->. destruct (objs L c x) as [a|].
    + destruct (nth_error (heap L c) a) as [[t0 st lk ext i0| | |]|]; try discriminate. do 3 (apply req_ok in H; destruct H as [_ H]).
      unfold with_composite in H. destruct (composite L t0 t); [|discriminate]. eapply initialize_ok; [exact H|reflexivity].
    + eapply initialize_ok; [exact H|reflexivity].
Qed.

Lemma define_static_facts thr x t i c c' : g_define_static L thr x t i c = Ok c' -> object_facts thr true x t i c.
Proof.
  intros H. unfold g_define_static in H. apply req_ok in H. destruct H as [V H]. apply negb_true_iff in V.
  apply req_ok in H. destruct H as [K H]. split; try assumption.
  - intros a t0 st lk ext i0 O N. rewrite O, N in H. apply req_ok in H. destruct H as [ST H]. apply req_ok in H.
    destruct H as [CP H]. apply req_ok in H. destruct H as [_ H]. apply req_ok in H. destruct H as [IN _]. apply storage_eqb_true in ST.
    split; [subst st; destruct thr; reflexivity|]. split; [exact CP|]. intros j ->. split; [|exact ST].
    destruct i0; [discriminate|reflexivity].
  - intros j ->. destruct (objs L c x) as [a|].
    + destruct (nth_error (heap L c) a) as [[t0 st lk ext i0| | |]|]; try discriminate. do 4 (apply req_ok in H; destruct H as [_ H]).
      unfold with_composite in H. destruct (composite L t0 t); [|discriminate]. eapply initialize_ok; [exact H|reflexivity].
    + apply req_ok in H. destruct H as [_ H]. eapply initialize_ok; [exact H|reflexivity].
Qed.

(** Functions of the file scope. *)
Record function_facts (def : bool) (x : name) (t : ty) (c : cstate) : Prop := {
  ff_vm : vm L t = false;
  ff_klass : klass_ok L c x KFun = true;
  ff_old : forall a t0 st inl ext def0, funs L c x = Some a -> nth_error (heap L c) a = Some (SFun L t0 st inl ext def0) ->
    compat L t0 t = true /\ (def = true -> def0 = false)
}.

Lemma declare_function_facts inl x t c c' : g_declare_function L inl x t c = Ok c' -> function_facts false x t c.
Proof.
  intros H. unfold g_declare_function in H. apply req_ok in H. destruct H as [V H]. apply negb_true_iff in V.
  apply req_ok in H. destruct H as [K H]. split; try assumption.
  intros a t0 st i0 ext def O N. rewrite O, N in H. apply req_ok in H. destruct H as [ST H]. apply req_ok in H. destruct H as [CP _].
  split; [exact CP|discriminate].
Qed.

Lemma define_function_facts inl x t c c' : g_define_function L inl x t c = Ok c' -> function_facts true x t c.
Proof.
  intros H. unfold g_define_function in H. apply req_ok in H. destruct H as [V H]. apply negb_true_iff in V.
  apply req_ok in H. destruct H as [K H]. split; try assumption.
  intros a t0 st i0 ext def O N. rewrite O, N in H. apply req_ok in H. destruct H as [ST H]. apply req_ok in H. destruct H as [CP H].
  apply req_ok in H. destruct H as [D _]. split; [exact CP|]. intros _. destruct def; [discriminate|reflexivity].
Qed.

Lemma define_static_function_facts inl x dc t c c' :
  g_define_static_function L inl x dc t c = Ok c' -> function_facts (negb dc) x t c.
Proof.
  intros H. unfold g_define_static_function in H. apply req_ok in H. destruct H as [V H]. apply negb_true_iff in V.
  apply req_ok in H. destruct H as [K H]. split; try assumption.
  intros a t0 st i0 ext def O N. rewrite O, N in H. apply req_ok in H. destruct H as [ST H]. apply req_ok in H. destruct H as [CP H].
  apply req_ok in H. destruct H as [_ H]. apply req_ok in H. destruct H as [D _]. split; [exact CP|].
  intros Q. destruct dc; [discriminate|]. destruct def; [discriminate|reflexivity].
Qed.

(** *** The file scope *)

Lemma klass_conflict c s es d :
  Rf L c s es -> sane s -> scopes L s = [] ->
  klass_ok L c (d_name L d) (if is_fun L (d_type L d) then KFun else KObj) = true ->
  (forall k, known L s (d_name L d) = Some k -> l_fun L k = is_fun L (d_type L d) -> compat L (l_type L k) (d_type L d) = true) ->
  conflicts L s d = false.
Proof.
  intros RF S SC K C. rewrite (klass_ok_iff L _ _ _ _ _ RF) in K. unfold conflicts, current. rewrite SC.
  destruct (file L s (d_name L d)) as [[y|n]|] eqn:F; [| |reflexivity].
  - pose proof (proj2 (proj2 RF) _ _ F) as ->. destruct (known L s (d_name L d)) as [k|] eqn:KN; [|reflexivity].
    unfold klass_in, describe in K. rewrite KN in K.
    assert (l_fun L k = is_fun L (d_type L d)) as E by (destruct (l_fun L k), (is_fun L (d_type L d)); cbn in K; congruence).
    rewrite (C k eq_refl E), E, eqb_reflx. reflexivity.
  - unfold klass_in, describe in K. destruct (sn_file _ S _ _ F) as [Q|(t & Q)]; rewrite Q in K;
      destruct (is_fun L (d_type L d)); discriminate.
Qed.

Lemma clean_object thr stat c s es d :
  Rf L c s es -> sane s -> scopes L s = [] -> is_fun L (d_type L d) = false -> d_inline L d = false ->
  typedef (d_class L d) = false ->
  thread (d_class L d) = thr -> static (d_class L d) = stat -> auto (d_class L d) = false ->
  object_facts thr stat (d_name L d) (d_type L d) (d_init L d) c -> lang_ok L -> clean L false s d.
Proof.
  intros RF S SC NF NI TD TH STC AU [VM KL OLD INI] OK. pose proof (proj1 RF) as T.
  assert (at_file L s = true) as AF by (unfold at_file; rewrite SC; reflexivity).
  assert (has_linkage L s d = true) as HL by (unfold has_linkage; rewrite TD, AF; reflexivity).
  assert (vla L (d_type L d) = false) as NV.
  { destruct (vla L (d_type L d)) eqn:E; [|reflexivity]. destruct (ok_vla L OK _ E). congruence. }
  assert (forall k, known L s (d_name L d) = Some k -> l_fun L k = false ->
    l_thread L k = thr /\ compat L (l_type L k) (d_type L d) = true
    /\ forall j, d_init L d = Some j -> value L (l_status L k) = None /\ l_internal L k = stat) as KN.
  { intros k K F. destruct (tables_obj L _ _ _ _ _ _ _ _ T K F) as (a & OA & _ & H). unfold obj_sid in H.
    destruct (OLD _ _ _ _ _ _ OA H) as (LS & CP & IN). split; [|split; [exact CP|]].
    - destruct (l_internal L k), (l_thread L k), thr; cbn in LS; congruence.
    - intros j J. destruct (IN j J) as [A B]. split; [exact A|]. destruct (l_internal L k), stat, (l_thread L k), thr; cbn in B; congruence. }
  assert (conflicts L s d = false) as CF.
  { apply (klass_conflict c s es d RF S SC).
    + rewrite NF. exact KL.
    + intros k K F. apply (KN k K). congruence. }
  split; try congruence.
  - intros _ _ k K F. destruct (KN k K F). congruence.
  - intros _ i I. destruct (INI i I) as (_ & Q). auto.
  - intros _ _ i I. apply (INI i I).
  - intros _ DF k K LI. unfold conflicts, current in CF. rewrite SC, (sn_internal _ S _ _ K LI), K in CF.
    apply orb_false_iff in CF. destruct CF as [CF _]. apply negb_false_iff, eqb_prop in CF. rewrite NF in CF.
    destruct (KN k K CF) as (_ & _ & Q). unfold defines in DF. destruct (d_init L d) as [j|] eqn:J.
    + destruct (Q j eq_refl) as [Z _]. pose proof (sn_obj _ S _ _ K CF) as N. destruct (l_status L k); try reflexivity.
      cbn in Z. subst. congruence.
    + exfalso. destruct (is_fun L (d_type L d) || extern (d_class L d)); discriminate.
Qed.

Lemma clean_function body def c s es d :
  Rf L c s es -> sane s -> scopes L s = [] -> is_fun L (d_type L d) = true -> d_init L d = None ->
  typedef (d_class L d) = false -> auto (d_class L d) = false -> thread (d_class L d) = false -> (body = true -> def = true) ->
  function_facts def (d_name L d) (d_type L d) c -> lang_ok L -> clean L body s d.
Proof.
  intros RF S SC FN IN TD AU TH BD [VM KL OLD] OK. pose proof (proj1 RF) as T.
  assert (at_file L s = true) as AF by (unfold at_file; rewrite SC; reflexivity).
  assert (has_linkage L s d = true) as HL by (unfold has_linkage; rewrite TD, AF; reflexivity).
  assert (vla L (d_type L d) = false) as NV.
  { destruct (vla L (d_type L d)) eqn:E; [|reflexivity]. destruct (ok_vla L OK _ E). congruence. }
  assert (forall k, known L s (d_name L d) = Some k -> l_fun L k = true ->
    compat L (l_type L k) (d_type L d) = true /\ (def = true -> is_definition L (l_status L k) = false)) as KN.
  { intros k K F. destruct (tables_fun L _ _ _ _ _ _ _ _ T K F) as (a & inl & OA & _ & H & _). unfold fun_sid in H.
    apply (OLD _ _ _ _ _ _ OA H). }
  assert (conflicts L s d = false) as CF.
  { apply (klass_conflict c s es d RF S SC).
    + rewrite FN. exact KL.
    + intros k K F. apply (KN k K). congruence. }
  split; try congruence.
  - intros _. auto.
  - intros _ DF k K LI. unfold conflicts, current in CF. rewrite SC, (sn_internal _ S _ _ K LI), K in CF.
    apply orb_false_iff in CF. destruct CF as [CF _]. apply negb_false_iff, eqb_prop in CF. rewrite FN in CF.
    destruct (KN k K CF) as (_ & Q). unfold defines in DF. destruct body; [apply Q, BD; reflexivity|].
    rewrite IN, FN in DF. discriminate.
  - intros _. auto.
Qed.

Lemma clean_typedef c s es d c' :
  Rf L c s es -> sane s -> scopes L s = [] -> typedef (d_class L d) = true -> d_inline L d = false ->
  g_define_type L (d_name L d) (d_type L d) c = Ok c' -> lang_ok L -> detects L s d -> clean L false s d.
Proof.
  intros RF S SC TD NI H OK DT. pose proof (proj1 RF) as T.
  assert (at_file L s = true) as AF by (unfold at_file; rewrite SC; reflexivity).
  assert (has_linkage L s d = false) as HL by (unfold has_linkage; rewrite TD; reflexivity).
  unfold g_define_type in H. apply req_ok in H. destruct H as [VM H]. apply negb_true_iff in VM.
  apply req_ok in H. destruct H as [KL H]. rewrite (klass_ok_iff L _ _ _ _ _ RF) in KL.
  assert (auto (d_class L d) = false /\ static (d_class L d) = false /\ thread (d_class L d) = false) as (AU & ST & TH)
    by (destruct (d_class L d); try discriminate; auto).
  split; try congruence.
  intros _. unfold redeclared_alone. pose proof (dt_typedef _ _ _ DT) as DC. unfold current in *. rewrite SC in *.
  destruct (file L s (d_name L d)) as [[y|n]|] eqn:F; [| |reflexivity].
  - exfalso. unfold klass_in, describe in KL. destruct (known L s y) as [k|]; [|discriminate]. destruct (l_fun L k); discriminate.
  - destruct (sees_some _ _ _ _ _ (proj1 (proj2 RF)) F) as (a & OA & A). rewrite OA in H.
    destruct (t_heap _ _ _ _ _ _ _ T _ _ A) as (v & V & HO). rewrite V in H. destruct HO as (o & O & HO).
    rewrite O. destruct o as [t0 d0|t0|]; cbn in HO.
    + destruct HO as (st & i & -> & _). discriminate.
    + subst v. apply req_ok in H. destruct H as [CP _]. rewrite (DC n t0 TD eq_refl O) in CP. rewrite TD, CP, VM. reflexivity.
    + subst v. discriminate.
Qed.

Lemma file_clean body c s es d c' :
  lang_ok L -> Rf L c s es -> sane s -> scopes L s = [] -> detects L s d -> model_file L body d c = Ok c' ->
  violation L body s d = false.
Proof.
  intros OK RF S SC DT H. apply clean_iff. unfold model_file in H. destruct body.
  - apply req_ok in H. destruct H as [F H]. apply andb_prop in F. destruct F as [F IN].
    assert (d_init L d = None) as IN' by (destruct (d_init L d); [discriminate|reflexivity]).
    unfold g_define_identifier in H. rewrite F in H.
    destruct (d_class L d) eqn:C; try discriminate; apply req_ok in H; destruct H as [_ H].
    + eapply clean_function; try eassumption; try (rewrite C; reflexivity); [|eapply define_function_facts; exact H]. reflexivity.
    + eapply clean_function; try eassumption; try (rewrite C; reflexivity); [|eapply define_function_facts; exact H]. reflexivity.
    + eapply clean_function; try eassumption; try (rewrite C; reflexivity); [|eapply define_static_function_facts; exact H]. reflexivity.
  - unfold g_define_identifier in H. destruct (is_fun L (d_type L d)) eqn:F.
    + apply req_ok in H. destruct H as [IN H]. assert (d_init L d = None) as IN' by (destruct (d_init L d); [discriminate|reflexivity]).
      rewrite IN' in H. cbn [is_none] in H. destruct (d_class L d) eqn:C; try discriminate.
      * eapply clean_function; try eassumption; try (rewrite C; reflexivity); [|eapply declare_function_facts; exact H]. discriminate.
      * apply req_ok in H. destruct H as [NI H]. apply negb_true_iff in NI. apply req_ok in H. destruct H as [_ H].
        eapply clean_typedef; try eassumption. rewrite C. reflexivity.
      * eapply clean_function; try eassumption; try (rewrite C; reflexivity); [|eapply declare_function_facts; exact H]. discriminate.
      * eapply clean_function; try eassumption; try (rewrite C; reflexivity); [|eapply define_static_function_facts; exact H]. discriminate.
    + apply req_ok in H. destruct H as [NI H]. apply negb_true_iff in NI. apply req_ok in H. destruct H as [_ H].
      destruct (d_class L d) eqn:C; try discriminate.
      * eapply (clean_object false false); try eassumption; try (rewrite C; reflexivity). eapply define_external_facts; exact H.
      * eapply clean_typedef; try eassumption. rewrite C. reflexivity.
      * eapply (clean_object false false); try eassumption; try (rewrite C; reflexivity).
        destruct (d_init L d); cbn [is_none] in H; [eapply define_external_facts; exact H|eapply declare_external_facts; exact H].
      * eapply (clean_object false true); try eassumption; try (rewrite C; reflexivity). eapply define_static_facts; exact H.
      * eapply (clean_object true false); try eassumption; try (rewrite C; reflexivity). eapply define_external_facts; exact H.
      * eapply (clean_object true false); try eassumption; try (rewrite C; reflexivity).
        destruct (d_init L d); cbn [is_none] in H; [eapply define_external_facts; exact H|eapply declare_external_facts; exact H].
      * eapply (clean_object true true); try eassumption; try (rewrite C; reflexivity). eapply define_static_facts; exact H.
Qed.

(** *** Blocks *)

Lemma top_absent c s es x : R L c s es -> scopes L s <> [] -> top L c x = None -> current L s x = None.
Proof.
  intros RR NE T. destruct (R_top L _ _ _ RR NE) as [S _]. specialize (S x). rewrite T in S.
  destruct (current L s x); [contradiction|reflexivity].
Qed.

Lemma clean_block_object thr stat c s es d st c' :
  lang_ok L -> R L c s es -> scopes L s <> [] -> is_fun L (d_type L d) = false -> d_inline L d = false ->
  typedef (d_class L d) = false -> extern (d_class L d) = false -> d_class L d <> ScThread ->
  thread (d_class L d) = thr -> static (d_class L d) = stat ->
  (stat = true -> vla L (d_type L d) = false) -> detects L s d ->
  l_define_object L st (d_name L d) (d_type L d) (d_init L d) c = Ok c' -> clean L false s d.
Proof.
  intros OK RR NE NF NI TD NX NT TH ST NV DT H. pose proof (at_file_false L _ NE) as AF.
  assert (has_linkage L s d = false) as HL by (unfold has_linkage; rewrite TD, AF, NX, NF; reflexivity).
  unfold l_define_object in H. apply req_ok in H. destruct H as [VI H]. apply req_ok in H. destruct H as [IC H].
  destruct (top L c (d_name L d)) as [a|] eqn:TO; [discriminate|]. pose proof (top_absent _ _ _ _ RR NE TO) as CU.
  split; try congruence.
  - intros _. auto.
  - intros S. apply NV. congruence.
  - intros _ i I. rewrite I in *. cbn in VI. split; [exact NF|]. split.
    + destruct (vla L (d_type L d)) eqn:V; [|reflexivity]. destruct (ok_vla L OK _ V) as [Q _]. rewrite Q in VI. discriminate.
    + destruct (completed L (d_type L d) i) as [t'|]; [|discriminate]. exists t'. reflexivity.
  - intros _ S i I. rewrite AF in S. cbn in S. apply (dt_const _ _ _ DT i AF S I).
  - intros _. unfold redeclared_alone. rewrite CU. reflexivity.
Qed.

Lemma clean_block_extern c s es d c' :
  lang_ok L -> R L c s es -> scopes L s <> [] -> is_fun L (d_type L d) = false -> d_inline L d = false ->
  d_class L d = ScExtern -> d_init L d = None ->
  l_declare_external L (d_name L d) (d_type L d) c = Ok c' -> clean L false s d.
Proof.
  intros OK RR NE NF NI CC IN H. pose proof (at_file_false L _ NE) as AF. pose proof (proj1 (proj1 RR)) as T.
  assert (has_linkage L s d = true) as HL by (unfold has_linkage; rewrite CC, orb_true_r; reflexivity).
  unfold l_declare_external in H. apply req_ok in H. destruct H as [VM H]. apply negb_true_iff in VM.
  destruct (R_top L _ _ _ RR NE) as [S N].
  assert (forall k, known L s (d_name L d) = Some k -> l_fun L k = false ->
     l_thread L k = false /\ compat L (l_type L k) (d_type L d) = true) as KN.
  { intros k K F. destruct (tables_obj L _ _ _ _ _ _ _ _ T K F) as (a & OA & _ & HA). rewrite OA, HA in H. unfold obj_sid in H.
    apply req_ok in H. destruct H as [LS H]. apply req_ok in H. destruct H as [CP _]. split; [|exact CP].
    destruct (l_internal L k), (l_thread L k); cbn in LS; congruence. }
  assert (conflicts L s d = false) as CF.
  { unfold conflicts. destruct (current L s (d_name L d)) as [e|] eqn:CU; [|reflexivity].
    destruct (sees_some _ _ _ _ _ S CU) as (b & TB & B). rewrite TB in H.
    destruct (objs L c (d_name L d)) as [a|] eqn:OA; [|discriminate].
    destruct (proj1 (t_obj _ _ _ _ _ _ _ T _ _) OA) as (A & k & K & F).
    destruct (KN k K F) as [_ CP].
    destruct (nth_error (heap L c) a) as [[t0 st lk ext i| | |]|]; try discriminate. apply req_ok in H. destruct H as [_ H].
    apply req_ok in H. destruct H as [_ H]. apply req_ok in H. destruct H as [E _]. apply Nat.eqb_eq in E. subst b.
    rewrite A in B. injection B as <-. rewrite K, F, NF, CP. reflexivity. }
  split; try congruence; try (rewrite CC; cbn; congruence).
  - intros _ _ k K F. rewrite CC. apply (KN k K F).
  - intros _ DF. unfold defines in DF. rewrite IN, NF, CC in DF. discriminate.
Qed.

Lemma clean_block_function c s es d inl c' :
  lang_ok L -> R L c s es -> scopes L s <> [] -> is_fun L (d_type L d) = true ->
  typedef (d_class L d) = false -> auto (d_class L d) = false -> thread (d_class L d) = false -> static (d_class L d) = false ->
  d_init L d = None -> l_declare_function L inl (d_name L d) (d_type L d) c = Ok c' -> clean L false s d.
Proof.
  intros OK RR NE FN TD AU TH ST IN H. pose proof (at_file_false L _ NE) as AF. pose proof (proj1 (proj1 RR)) as T.
  assert (has_linkage L s d = true) as HL by (unfold has_linkage; rewrite TD, FN, orb_true_r; reflexivity).
  unfold l_declare_function in H. apply req_ok in H. destruct H as [VM H]. apply negb_true_iff in VM.
  destruct (R_top L _ _ _ RR NE) as [S N].
  assert (conflicts L s d = false) as CF.
  { unfold conflicts. destruct (current L s (d_name L d)) as [e|] eqn:CU; [|reflexivity].
    destruct (sees_some _ _ _ _ _ S CU) as (b & TB & B). rewrite TB in H.
    destruct (funs L c (d_name L d)) as [a|] eqn:OA; [|discriminate].
    destruct (proj1 (t_fun _ _ _ _ _ _ _ T _ _) OA) as (A & k & K & F).
    destruct (tables_fun L _ _ _ _ _ _ _ _ T K F) as (a' & inl' & OA' & _ & HA & _). rewrite OA in OA'. injection OA' as <-.
    rewrite HA in H. unfold fun_sid in H.
    apply req_ok in H. destruct H as [CP H]. apply req_ok in H. destruct H as [E _]. apply Nat.eqb_eq in E. subst b.
    rewrite A in B. injection B as <-. rewrite K, F, FN, CP. reflexivity. }
  split; try congruence.
  - intros _. auto.
  - intros _ DF. unfold defines in DF. rewrite IN, FN in DF. discriminate.
Qed.

Lemma clean_block_typedef c s es d c' :
  lang_ok L -> R L c s es -> scopes L s <> [] -> typedef (d_class L d) = true -> d_inline L d = false -> detects L s d ->
  l_define_type L (d_name L d) (d_type L d) c = Ok c' -> clean L false s d.
Proof.
  intros OK RR NE TD NI DT H. pose proof (at_file_false L _ NE) as AF. pose proof (proj1 (proj1 RR)) as T.
  assert (has_linkage L s d = false) as HL by (unfold has_linkage; rewrite TD; reflexivity).
  assert (auto (d_class L d) = false /\ static (d_class L d) = false /\ thread (d_class L d) = false /\ d_class L d <> ScThread)
    as (AU & ST & TH & NT) by (destruct (d_class L d); try discriminate; repeat split; congruence).
  split; try congruence; try (intros _; auto; fail).
  intros _. unfold redeclared_alone. destruct (current L s (d_name L d)) as [e|] eqn:CU; [|reflexivity].
  destruct (R_top L _ _ _ RR NE) as [S N]. destruct (sees_some _ _ _ _ _ S CU) as (b & TB & B).
  unfold l_define_type in H. rewrite TB in H. destruct (t_heap _ _ _ _ _ _ _ T _ _ B) as (v & V & HO). rewrite V in H.
  destruct e as [y|n].
  - exfalso. destruct HO as (k & K & HO). unfold linked_sid in HO. destruct (l_fun L k).
    + destruct HO as ((inl & ->) & _). discriminate.
    + subst v. discriminate.
  - destruct HO as (o & O & HO). rewrite O. destruct o as [t0 d0|t0|]; cbn in HO.
    + destruct HO as (st & i & -> & _). discriminate.
    + subst v. apply req_ok in H. destruct H as [CP _]. rewrite (dt_typedef _ _ _ DT n t0 TD CU O) in CP.
      rewrite TD, CP, (dt_vm _ _ _ DT n t0 AF TD CU O). reflexivity.
    + subst v. discriminate.
Qed.

Lemma block_clean c s es d c' :
  lang_ok L -> R L c s es -> scopes L s <> [] -> detects L s d ->
  l_define_identifier L (is_none (d_init L d)) d c = Ok c' -> violation L false s d = false.
Proof.
  intros OK RR NE DT H. apply clean_iff. unfold l_define_identifier in H. destruct (is_fun L (d_type L d)) eqn:F.
  - apply req_ok in H. destruct H as [IN H]. assert (d_init L d = None) as IN' by (destruct (d_init L d); [discriminate|reflexivity]).
    destruct (d_class L d) eqn:C; try discriminate; apply req_ok in H; destruct H as [NI H].
    + eapply clean_block_function; try eassumption; rewrite C; reflexivity.
    + apply negb_true_iff in NI. apply req_ok in H. destruct H as [_ H]. eapply clean_block_typedef; try eassumption. rewrite C. reflexivity.
    + eapply clean_block_function; try eassumption; rewrite C; reflexivity.
  - apply req_ok in H. destruct H as [NI H]. apply negb_true_iff in NI. apply req_ok in H. destruct H as [_ H].
    assert (forall thr, l_define_static L thr (d_name L d) (d_type L d) (d_init L d) c = Ok c' -> vla L (d_type L d) = false) as NV.
    { intros thr Q. unfold l_define_static in Q. apply req_ok in Q. destruct Q as [Q _]. destruct (vla L (d_type L d)) eqn:V; [|reflexivity].
      destruct (ok_vla L OK _ V) as [A B]. rewrite A, B in Q. discriminate. }
    destruct (d_class L d) eqn:C; try discriminate.
    + eapply (clean_block_object false false); try eassumption; try (rewrite C; reflexivity); congruence.
    + eapply clean_block_typedef; try eassumption. rewrite C. reflexivity.
    + apply req_ok in H. destruct H as [IN H]. eapply clean_block_extern; try eassumption.
      destruct (d_init L d); [discriminate|reflexivity].
    + pose proof (NV _ H) as V. unfold l_define_static in H. apply req_ok in H. destruct H as [_ H].
      eapply (clean_block_object false true); try eassumption; try (rewrite C; reflexivity); congruence.
    + exfalso. apply (dt_thread _ _ _ DT (at_file_false L _ NE)). exact C.
    + pose proof (NV _ H) as V. unfold l_define_static in H. apply req_ok in H. destruct H as [_ H].
      eapply (clean_block_object true true); try eassumption; try (rewrite C; reflexivity); congruence.
    + eapply (clean_block_object false false); try eassumption; try (rewrite C; reflexivity); congruence.
    + eapply (clean_block_object false false); try eassumption; try (rewrite C; reflexivity); congruence.
Qed.

(** *** One step *)

Lemma step_reject e c s es p :
  lang_ok L -> R L c s es -> sane s -> detects_event L s e -> sstep L e s = Violates -> step L e c <> Ok p.
Proof.
  intros OK RR S DT V H. destruct e as [d|x|d| | |x]; cbn in V, DT; cbn [step] in H.
  - unfold judge in V. destruct (violation L false s d) eqn:VI; [|destruct (undefined L false s d); discriminate]. clear V.
    destruct (scopes L s) as [|g gs] eqn:SC.
    + pose proof (proj2 RR) as [B _]. rewrite SC in B. inversion B as [E|]. rewrite <- E in H. cbv beta in H.
      destruct (g_define_identifier L (is_none (d_init L d)) d c) as [c'| |] eqn:G; try discriminate.
      rewrite (file_clean false c s es d c' OK (proj1 RR) S SC DT G) in VI. discriminate.
    + assert (scopes L s <> []) as NE by congruence. pose proof (R_inside L _ _ _ RR NE) as NB.
      destruct (blocks L c) as [|b bs]; [congruence|]. cbv beta in H.
      destruct (l_define_identifier L (is_none (d_init L d)) d c) as [c'| |] eqn:G; try discriminate.
      rewrite (block_clean c s es d c' OK RR NE DT G) in VI. discriminate.
  - destruct (current L s x) as [e|] eqn:CU; [|discriminate]. destruct (scopes L s) as [|g gs] eqn:SC.
    + pose proof (proj2 RR) as [B _]. rewrite SC in B. inversion B as [E|]. rewrite <- E in H.
      unfold current in CU. rewrite SC in CU. destruct (sees_some _ _ _ _ _ (proj1 (proj2 (proj1 RR))) CU) as (a & OA & _).
      unfold g_define_constant in H. rewrite OA in H. discriminate.
    + assert (scopes L s <> []) as NE by congruence. pose proof (R_inside L _ _ _ RR NE) as NB.
      destruct (R_top L _ _ _ RR NE) as [T _]. destruct (sees_some _ _ _ _ _ T CU) as (a & OA & _).
      destruct (blocks L c) as [|b bs]; [congruence|]. unfold l_define_constant in H. rewrite OA in H. discriminate.
  - destruct (scopes L s) as [|g [|? ?]] eqn:SC; try discriminate. unfold judge in V.
    destruct (violation L true (outside L s) d) eqn:VI; [|destruct (undefined L true (outside L s) d); discriminate]. clear V.
    assert (sane (outside L s)) as S2 by (destruct S; split; assumption).
    cbv beta in H. destruct (model_file L true d c) as [c'| |] eqn:G; unfold model_file in G; rewrite G in H; try discriminate.
    rewrite (file_clean true c (outside L s) es d c' OK (proj1 RR) S2 eq_refl DT G) in VI. discriminate.
  - discriminate.
  - destruct (scopes L s); discriminate.
  - pose proof (resolve_visible L _ _ _ x RR) as RV. destruct (visible L s x) as [e|]; [destruct (describe L s e); discriminate|].
    destruct (resolve L c x); [contradiction|discriminate].
Qed.

Lemma run_app evs : forall evs' c, run L (evs ++ evs') c =
  bind (run L evs c) (fun p => bind (run L evs' (fst p)) (fun q => Ok (fst q, snd p ++ snd q))).
Proof.
  induction evs as [|e evs IH]; intros evs' c; cbn.
  - destruct (run L evs' c) as [[c' o]| |]; reflexivity.
  - destruct (step L e c) as [[c' o]| |]; cbn; try reflexivity. rewrite IH. destruct (run L evs c') as [[c2 o2]| |]; cbn; try reflexivity.
    destruct (run L evs' c2) as [[c3 o3]| |]; cbn; try reflexivity. rewrite app_assoc. reflexivity.
Qed.

End Reject.
