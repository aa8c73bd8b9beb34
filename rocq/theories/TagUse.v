(** Proofs about the declarations of tags: declarations, scopes and the use of the members of declared types. *)
From Coq Require Import ZArith List Bool String Lia.
From Verif Require Import CompatModel CompositeModel ExprTypeModel TagModel TagSpec TagProofs.
Import ListNotations.
Open Scope Z_scope.

(** ** Declarations *)
Lemma R_name O A s st td k t : R O A s st -> rep (s_ents s) k t -> k_check k = true ->
  R O A (SS (s_tags s) (s_consts s) (s_ents s) (s_names s ++ [(td, t)])) (K (k_tags st) (k_consts st) (k_names st ++ [(td, k)])).
Proof.
  intros [Ht Hd Hc Hl Hn Hw] Rk Kk. constructor; cbn; try assumption. apply Forall2_app; [exact Hn|]. constructor; [|constructor]. cbn. auto.
Qed.
Lemma declarators_sim td ds : forall s st k t, R [] [] s st -> rep (s_ents s) k t -> k_check k = true -> sync (s_ents s) k t ->
  cov_declarators td t ds s ->
  match declarators_s td t ds s with
  | Some s' => exists st', k_declarators td k ds st = Some st' /\ R [] [] s' st'
  | None => k_declarators td k ds st = None
  end.
Proof.
  induction ds as [|d r IH]; intros s st k t HR Rk Kk Sy C; cbn; [eauto|]. cbn in C. destruct C as (C1 & C2).
  pose proof (shape_sim (s_ents s) d k t Rk Kk Sy C1) as D. destruct (shape_s (s_ents s) t d) as [t'|].
  - destruct D as (D1 & D2 & D3). rewrite D2. apply (IH _ _ k t); try assumption. now apply R_name.
  - now rewrite D.
Qed.
Lemma R_aligned s st : R [] [] s st -> Forall2 (fun f g => forall x, aligned (s_ents s) x (f x) (g x)) (s_tags s) (k_tags st).
Proof.
  intros HR. destruct (R_tops _ _ _ _ HR) as (f & r & g & h & -> & -> & H1 & H2). constructor; [|exact H2].
  intros x. destruct (H1 x) as [H|(i & e & _ & _ & _ & _ & _ & [] & _)]. exact H.
Qed.

Lemma event_sim e s st : R [] [] s st -> cov_event e s ->
  match event_s e s with
  | Some s' => exists st', k_event e st = Some st' /\ R [] [] s' st'
  | None => k_event e st = None
  end.
Proof.
  intros HR C. destruct e as [| |p|td q p d ds].
  - cbn. eexists. split; [reflexivity|]. pose proof (R_aligned _ _ HR) as Al. destruct HR as [Ht Hd Hc Hl Hn Hw]. constructor; cbn; try assumption.
    + split; [intros x; now left|exact Al].
    + split; [discriminate|exact Hd].
    + now rewrite Hc.
    + now rewrite Hl.
  - pose proof (R_aligned _ _ HR) as Al. destruct HR as [Ht Hd Hc Hl Hn Hw]. cbn [event_s k_event]. unfold pop.
    destruct (s_tags s) as [|f [|f1 r]] eqn:Tg; inversion Al as [|a0 g l0 h Ha Hb Q1 Q2]; subst.
    + reflexivity.
    + inversion Hb; subst. cbn. reflexivity.
    + inversion Hb as [|a1 g1 l1 h1 H3 H4 Q3 Q4]; subst. rewrite <- Hc. cbn in Hl. destruct (s_consts s) as [|c [|c1 cr]]; try discriminate. cbn.
      eexists. split; [reflexivity|]. constructor; cbn; try assumption.
      * split; [intros x; left; apply H3|exact H4].
      * destruct Hd as (_ & Hd). exact Hd.
      * reflexivity.
      * cbn in Hl. congruence.
  - cbn in C. destruct C as (Cp & Cs). pose proof (proj1 spec_sim p [] [] s st Cs HR) as P.
    assert (Q : event_s (EBare p) s = option_map fst (spec_s p s)).
    { destruct p as [b|n|u x|u [x|] ms|x|x es]; cbn [event_s]; try contradiction; try reflexivity.
      destruct (in_scope (s_tags s) x) eqn:Sc; [reflexivity|]. destruct Cp as [Cp|Cp]; [congruence|]. cbn [spec_s]. now rewrite Cp. }
    rewrite Q. cbn [k_event]. destruct (spec_s p s) as [[s' t]|]; cbn.
    + destruct P as (st' & k & -> & R' & _ & _ & -> & _). eauto.
    + destruct P as [->|(st' & k & -> & ->)]; reflexivity.
  - cbn in C. destruct C as (Cs & C). pose proof (proj1 spec_sim p [] [] s st Cs HR) as P. cbn [event_s k_event].
    destruct (spec_s p s) as [[s' t]|].
    + destruct P as (st' & k & -> & R' & _ & Rk & Kk & Sy). destruct C as (Cq & Cd).
      destruct (qualified_sim (s_ents s') q k t Rk Sy Cq) as (t' & Qt & Rq & Sq). rewrite Qt in *.
      apply declarators_sim; try assumption. now rewrite check_qualified.
    + destruct P as [->|(st' & k & -> & Kb)]; [reflexivity|]. cbn [k_declarators].
      rewrite check_shape_bad; [reflexivity|now rewrite check_qualified|exact C].
Qed.
Lemma run_sim es : forall s st, R [] [] s st -> cov_run es s ->
  match run_s es s with
  | Some s' => exists st', k_run es st = Some st' /\ R [] [] s' st'
  | None => k_run es st = None
  end.
Proof.
  induction es as [|e r IH]; intros s st HR C; cbn; [eauto|]. cbn in C. destruct C as (C1 & C2).
  pose proof (event_sim e s st HR C1) as P. destruct (event_s e s) as [s'|].
  - destruct P as (st' & -> & R'). now apply IH.
  - now rewrite P.
Qed.
Lemma R_init : R [] [] s_init k_init.
Proof.
  constructor; cbn.
  - split; [intros x; left; exact I|constructor].
  - split; [intros ? ? ? Q; discriminate|exact I].
  - reflexivity.
  - reflexivity.
  - constructor.
  - split.
    + intros [|i] e Q; discriminate.
    + intros [|i] ms fl fx Q; discriminate.
Qed.

(** ** Members of declared types *)
Lemma nodup_flat_map {B C} (F : B -> list C) l : NoDup (flat_map F l) ->
  forall a b x, In a l -> In b l -> In x (F a) -> In x (F b) -> a = b.
Proof.
  induction l as [|c r IH]; cbn; intros N a b x Ia Ib Xa Xb; [contradiction|].
  assert (D : forall z, In z (F c) -> ~ In z (flat_map F r)).
  { clear - N. induction (F c) as [|y l IH]; cbn in *; [auto|]. inversion N as [|? ? N1 N2]; subst. intros z [<-|I] J.
    - apply N1. apply in_or_app. now right.
    - apply (IH N2 z I J). }
  assert (N2 : NoDup (flat_map F r)).
  { clear - N. induction (F c) as [|y l IH]; cbn in *; [exact N|]. inversion N; subst. auto. }
  destruct Ia as [<-|Ia], Ib as [<-|Ib].
  - reflexivity.
  - exfalso. apply (D x Xa). apply in_flat_map. eauto.
  - exfalso. apply (D x Xb). apply in_flat_map. eauto.
  - eapply IH; eauto.
Qed.
Lemma has_flat E i m t : wf E -> has E i m t -> exists ms fl fx, content_of E i = Some (CMembers ms fl fx) /\ In m fl.
Proof.
  intros W H. induction H as [i ms fl fx m t w C I|i ms fl fx t' j m t C I Q H IH].
  - exists ms, fl, fx. split; [exact C|]. destruct (proj2 W _ _ _ _ C) as (-> & _). unfold flatten. apply in_flat_map.
    exists (Some m, t, w). split; [exact I|now left].
  - exists ms, fl, fx. split; [exact C|]. destruct IH as (ms' & fl' & fx' & C' & I'). destruct (proj2 W _ _ _ _ C) as (-> & _ & Wa & _).
    unfold flatten. apply in_flat_map. exists (None, t', None). split; [exact I|].
    destruct (Wa t' I) as (j' & a & b & c & -> & Cj). cbn in Q. injection Q as ->. cbn. rewrite C'. exact I'.
Qed.
Lemma has_unique E i m t1 : wf E -> has E i m t1 -> forall t2, has E i m t2 -> t1 = t2.
Proof.
  intros W H. induction H as [i ms fl fx m t w C I|i ms fl fx t' j m t C I Q H IH]; intros t2 H2.
  - inversion H2 as [i0 ms0 fl0 fx0 m0 t0 w0 C0 I0|i0 ms0 fl0 fx0 t0' j0 m0 t0 C0 I0 Q0 H0]; subst.
    + rewrite C in C0. injection C0 as <- <- <-. destruct (proj2 W _ _ _ _ C) as (_ & N & _).
      assert (X : (Some m, t, w) = (Some m, t2, w0)); [|congruence].
      apply (nodup_flat_map _ ms N _ _ m I I0); now left.
    + exfalso. rewrite C in C0. injection C0 as <- <- <-. destruct (proj2 W _ _ _ _ C) as (_ & N & Wa & _).
      destruct (Wa _ I0) as (j' & a & b & c & -> & Cj). cbn in Q0. injection Q0 as ->.
      destruct (has_flat _ _ _ _ W H0) as (ms' & fl' & fx' & C' & I').
      assert (X : (Some m, t, w) = (None, YTag j0, None)); [|congruence].
      apply (nodup_flat_map _ ms N _ _ m I I0); [now left|]. cbn. rewrite C'. exact I'.
  - inversion H2 as [i0 ms0 fl0 fx0 m0 t0 w0 C0 I0|i0 ms0 fl0 fx0 t0' j0 m0 t0 C0 I0 Q0 H0]; subst.
    + exfalso. rewrite C in C0. injection C0 as <- <- <-. destruct (proj2 W _ _ _ _ C) as (_ & N & Wa & _).
      destruct (Wa _ I) as (j' & a & b & c & -> & Cj). cbn in Q. injection Q as ->.
      destruct (has_flat _ _ _ _ W H) as (ms' & fl' & fx' & C' & I').
      assert (X : (Some m, t2, w0) = (None, YTag j, None)); [|congruence].
      apply (nodup_flat_map _ ms N _ _ m I0 I); [now left|]. cbn. rewrite C'. exact I'.
    + rewrite C in C0. injection C0 as <- <- <-. destruct (proj2 W _ _ _ _ C) as (_ & N & Wa & _).
      destruct (Wa _ I) as (j' & a & b & c & -> & Cj). cbn in Q. injection Q as ->.
      destruct (Wa _ I0) as (j'' & a' & b' & c' & -> & Cj'). cbn in Q0. injection Q0 as ->.
      destruct (has_flat _ _ _ _ W H) as (ms' & fl' & fx' & C' & I').
      destruct (has_flat _ _ _ _ W H0) as (ms2 & fl2 & fx2 & C2 & I2).
      assert (X : (None, YTag j, @None Z) = (@None string, YTag j0, @None Z)).
      { apply (nodup_flat_map _ ms N _ _ m I I0); cbn; [rewrite C'|rewrite C2]; assumption. }
      injection X as <-. now apply IH.
Qed.

Lemma field_at_sim E fs m : forall ms, reps E fs ms -> forallb kf_good fs = true ->
  match field_at fs m with
  | Some f => exists t w, In (Some m, t, w) ms /\ rep E (f_type f) t /\ k_check (f_type f) = true
  | None => forall t w, ~ In (Some m, t, w) ms
  end.
Proof.
  induction fs as [|[n ft al w] r IH]; intros [|[[n' t'] w'] r']; cbn [reps]; try tauto; cbn [field_at f_name].
  - intros _ _ t w. auto.
  - intros (-> & -> & -> & A & B) G. cbn [forallb] in G. apply andb_prop in G. destruct G as (G1 & G2). specialize (IH _ B G2).
    assert (Skip : n' <> Some m -> match field_at r m with
      | Some f => exists t w, In (Some m, t, w) ((n', t', w') :: r') /\ rep E (f_type f) t /\ k_check (f_type f) = true
      | None => forall t w, ~ In (Some m, t, w) ((n', t', w') :: r')
      end).
    { intros N. destruct (field_at r m).
      - destruct IH as (t & w & I & H). exists t, w. split; [now right|exact H].
      - intros t w [I|I]; [congruence|]. now apply (IH t w). }
    destruct n' as [y|]; [|apply Skip; discriminate]. destruct (String.eqb_spec y m) as [->|N]; [|apply Skip; congruence].
    exists t', w'. cbn. split; [now left|]. split; [exact A|]. rewrite kf_good_eq in G1. destruct (k_check ft); [reflexivity|discriminate].
Qed.

Section Resolve.
Variable E : list entity.
Variable m : string.
Definition anonymous_loop : list field -> ExprTypeModel.lookup :=
  fix loop (fs : list field) :=
    match fs with
    | [] => Missing
    | Field None t' _ _ :: r =>
      match t' with
      | TStruct _ _ _ | TUnion _ _ _ => match resolve_field t' m with Missing => loop r | x => x end
      | _ => loop r
      end
    | _ :: r => loop r
    end.
Lemma resolve_record u x fs :
  resolve_field (record_type u true x fs) m = match field_at fs m with Some f => Found f | None => anonymous_loop fs end.
Proof. destruct u; reflexivity. Qed.
End Resolve.

Definition resolved (E : list entity) (m : string) (i : nat) (r : ExprTypeModel.lookup) : Prop :=
  match r with
  | Found f => exists t, has E i m t /\ rep E (f_type f) t /\ k_check (f_type f) = true
  | Missing => forall t, ~ has E i m t
  | Fault => False
  end.
Lemma resolve_sim E m : wf E -> forall k i, rep E k (YTag i) -> k_check k = true -> incomplete k = false -> record k = true ->
  resolved E m i (resolve_field k m).
Proof.
  intros W k. assert (Rec : forall u x fs, Forall (fun f => forall i, rep E (f_type f) (YTag i) -> k_check (f_type f) = true ->
      incomplete (f_type f) = false -> record (f_type f) = true -> resolved E m i (resolve_field (f_type f) m)) fs ->
    forall i, rep E (record_type u true x fs) (YTag i) -> k_check (record_type u true x fs) = true ->
    resolved E m i (resolve_field (record_type u true x fs) m)).
  { intros u x fs IH i Rp K. rewrite resolve_record. apply rep_record in Rp. destruct Rp as (j & e & J & N & Kd & T & ms & fl & fx & C & Rp).
    injection J as <-. rewrite k_check_record in K. cbn in K. apply andb_prop in K. destruct K as (K & _).
    pose proof (field_at_sim E fs m ms Rp K) as F.
    assert (Ci : content_of E i = Some (CMembers ms fl fx)) by (unfold content_of; now rewrite N).
    destruct (field_at fs m) as [f|].
    { destruct F as (t & w & I & H1 & H2). exists t. split; [|auto]. eapply has_member; eauto. }
    destruct (proj2 W _ _ _ _ Ci) as (_ & _ & Wa & Wu).
    (* the loop over the members that are left *)
    assert (L : forall fs2 ms2, reps E fs2 ms2 -> forallb kf_good fs2 = true -> incl ms2 ms ->
      Forall (fun f => forall i, rep E (f_type f) (YTag i) -> k_check (f_type f) = true ->
        incomplete (f_type f) = false -> record (f_type f) = true -> resolved E m i (resolve_field (f_type f) m)) fs2 ->
      match anonymous_loop m fs2 with
      | Found f => exists t, has E i m t /\ rep E (f_type f) t /\ k_check (f_type f) = true
      | Missing => forall j t, In (None, YTag j, None) ms2 -> ~ has E j m t
      | Fault => False
      end).
    { induction fs2 as [|[n ft al w] r IHl]; intros [|[[n' t'] w'] r']; cbn [reps]; try tauto.
      - intros _ _ _ _. cbn. tauto.
      - intros (-> & -> & -> & A & B) G I F2. cbn [forallb] in G. apply andb_prop in G. destruct G as (G1 & G2). inversion F2 as [|? ? Hd Tl]; subst.
        specialize (IHl r' B G2 (fun z Z => I z (or_intror Z)) Tl). cbn [anonymous_loop]. fold (anonymous_loop m).
        assert (Skip : (forall j, (n', t', w') <> (None, YTag j, None)) -> match anonymous_loop m r with
          | Found f => exists t, has E i m t /\ rep E (f_type f) t /\ k_check (f_type f) = true
          | Missing => forall j t, In (None, YTag j, None) ((n', t', w') :: r') -> ~ has E j m t
          | Fault => False
          end).
        { intros Ne. destruct (anonymous_loop m r); try exact IHl. intros j t [Q|Q]; [now apply Ne in Q|eauto]. }
        destruct n' as [y|]; [apply Skip; discriminate|].
        assert (Rc : record ft = true -> match (match resolve_field ft m with Missing => anonymous_loop m r | z => z end) with
          | Found f => exists t, has E i m t /\ rep E (f_type f) t /\ k_check (f_type f) = true
          | Missing => forall j t, In (None, YTag j, None) ((None, t', w') :: r') -> ~ has E j m t
          | Fault => False
          end).
        { intros Rc. destruct w' as [w'|].
          - exfalso. apply (Wu t' w'); [apply I; now left|]. destruct (width_sim E ft t' (proj1 W) A) as (Ws & _).
            destruct ft; try discriminate Rc; cbn in A; destruct A as (j & e1 & -> & N1 & K1 & _); cbn; unfold content_of; rewrite N1;
              destruct (e_content e1) as [[]|] eqn:Ce; try reflexivity;
              (assert (e_kind e1 = KEnum) by (apply (proj1 W _ _ N1); eauto)); cbn in K1; congruence.
          - destruct (Wa t' (I _ (or_introl eq_refl))) as (j & a & b & c & -> & Cj).
            rewrite kf_good_eq in G1. apply andb_prop in G1. destruct G1 as (G1 & G3). apply andb_prop in G1. destruct G1 as (G1 & _).
            assert (Inc : incomplete ft = false) by (destruct ft; try discriminate Rc; apply andb_prop in G3; destruct G3 as (G3 & _); now apply negb_true_iff in G3).
            specialize (Hd j A G1 Inc Rc). cbn [f_type] in Hd. destruct (resolve_field ft m) as [f| |]; cbn in Hd.
            + destruct Hd as (t & Ht & Hr). exists t. split; [|exact Hr]. eapply has_anonymous; eauto; [apply I; now left|reflexivity].
            + destruct (anonymous_loop m r); try exact IHl. intros j' t [Q|Q]; [injection Q as <-; auto|eauto].
            + contradiction. }
        destruct ft; try (apply Rc; reflexivity);
          apply Skip; intros j Q; injection Q as -> ->; destruct (Wa (YTag j) (I _ (or_introl eq_refl))) as (j' & a & b' & c & Q & Cj); injection Q as <-;
          cbn in A; try discriminate; try (destruct A as (? & ? & _); discriminate); try (destruct A as (? & ? & ? & _); discriminate).
        destruct A as (i' & vs & Q & N1 & _). injection Q as <-. unfold content_of in Cj. rewrite N1 in Cj. discriminate. }
    specialize (L fs ms Rp K (incl_refl _) IH). destruct (anonymous_loop m fs); try exact L. intros t Ht.
    inversion Ht as [i0 ms0 fl0 fx0 m0 t0 w0 C0 I0|i0 ms0 fl0 fx0 t0' j0 m0 t0 C0 I0 Q0 H0]; subst; rewrite Ci in C0; injection C0 as <- <- <-.
    - now apply (F t w0).
    - destruct (Wa _ I0) as (j' & a & b & c & -> & Cj). cbn in Q0. injection Q0 as ->. now apply (L j0 t). }
  induction k using ty_nest; intros i Rp K Ic Rc; try discriminate Rc.
  - destruct c; [|discriminate]. apply (Rec false x fs); assumption.
  - destruct c; [|discriminate]. apply (Rec true x fs); assumption.
Qed.

(** Types up to their qualifiers *)
Definition upto (E : list entity) (k : ty) (t : styp) : Prop :=
  exists k0, unqualified k = unqualified k0 /\ rep E k0 t /\ k_check k0 = true.
Lemma rep_strip E k t : rep E k t -> rep E (unqualified k) (strip t).
Proof.
  destruct k; cbn.
  - intros ->. reflexivity.
  - intros (t' & -> & H). exists t'. auto.
  - intros (n & t' & -> & H). exists n, t'. auto.
  - intros (t' & -> & _ & H). exact H.
  - intros (t' & -> & H). exists t'. auto.
  - intros (i & vs & -> & H). exists i, vs. auto.
  - intros (i & e & -> & H). exists i, e. auto.
  - intros (i & e & -> & H). exists i, e. auto.
Qed.
Lemma check_unq k : k_check (unqualified k) = k_check k.
Proof. destruct k; reflexivity. Qed.
Lemma unq_qualify q k : unqualified (qualify q k) = unqualified k.
Proof. destruct k; reflexivity. Qed.
Lemma clear_strip A s t : clear A s t -> clear A s (strip t).
Proof. intros C. destruct t; exact C. Qed.

Lemma deref_sim s st k t : upto (s_ents s) k t ->
  match k_step st k PDeref with
  | Some k' => exists a, (strip t = YPtr a \/ exists n, strip t = YArr n a) /\ upto (s_ents s) k' a
  | None => forall a, strip t <> YPtr a /\ forall n, strip t <> YArr n a
  end.
Proof.
  intros (k0 & Q & Rp & Kc). cbn. rewrite Q. pose proof (rep_strip _ _ _ Rp) as Rs. rewrite <- (check_unq k0) in Kc.
  destruct (unqualified k0); cbn in Rs.
  - rewrite Rs. split; discriminate.
  - destruct Rs as (a & -> & Ra). exists a. split; [now left|]. exists t0. auto.
  - destruct Rs as (n & a & -> & _ & _ & Ra). exists a. split; [right; eauto|]. exists t0. split; [reflexivity|]. split; [exact Ra|].
    cbn in Kc. rewrite !andb_true_iff in Kc. tauto.
  - destruct Rs as (a & -> & _). split; discriminate.
  - destruct Rs as (a & -> & _). split; discriminate.
  - destruct Rs as (i & vs & -> & _). split; discriminate.
  - destruct Rs as (i & e & -> & _). split; discriminate.
  - destruct Rs as (i & e & -> & _). split; discriminate.
Qed.
Lemma member_walk s st k t m : R [] [] s st -> upto (s_ents s) k t -> clear [] s t ->
  match k_step st k (PMember m) with
  | Some k' => exists i a, strip t = YTag i /\ has (s_ents s) i m a /\ (clear [] s a -> upto (s_ents s) k' a)
  | None => forall i a, strip t = YTag i -> ~ has (s_ents s) i m a
  end.
Proof.
  intros HR (k0 & Q & Rp & Kc) Cl. pose proof (rep_strip _ _ _ Rp) as Rs. rewrite <- (check_unq k0) in Kc. apply clear_strip in Cl.
  pose proof (R_wf _ _ _ _ HR) as W. cbn [k_step]. unfold an_member. rewrite Q.
  set (u := unqualified k0) in *. set (q := match k with TQual q _ => Some q | _ => None end).
  destruct (record u) eqn:Rc; cbn [req].
  - assert (Tg : exists i, strip t = YTag i).
    { destruct u; try discriminate Rc; cbn in Rs; destruct Rs as (i & e & -> & _); eauto. }
    destruct Tg as (i & Ti). rewrite Ti in *.
    destruct (completion_tag [] [] s st u i HR Rs Kc Cl) as (R1 & K1 & S1). set (u' := completion (scope_of st) u) in *.
    assert (Kd : exists e, nth_error (s_ents s) i = Some e /\ e_kind e <> KEnum).
    { destruct u; try discriminate Rc; cbn in Rs; destruct Rs as (j & e & J & N & Kk & _); injection J as <-; exists e; split; auto; rewrite Kk; discriminate. }
    destruct Kd as (e & N & Kd). rewrite (rep_record_kind _ _ _ _ R1 N Kd). cbn [andb]. unfold sync in S1. rewrite S1.
    destruct (incomplete_s (s_ents s) (YTag i)) eqn:Ic; cbn [negb req].
    + intros j a J H. injection J as <-. destruct (has_flat _ _ _ _ W H) as (ms & fl & fx & C & _). cbn in Ic. rewrite C in Ic. discriminate.
    + pose proof (resolve_sim (s_ents s) m W u' i R1 K1 S1 (rep_record_kind _ _ _ _ R1 N Kd)) as Rv.
      destruct (resolve_field u' m) as [f| |]; cbn in Rv.
      * destruct Rv as (a & Ha & Ra & Ka). exists i, a. split; [reflexivity|]. split; [exact Ha|]. intros Ca.
        destruct (completion_sim [] [] s st HR (f_type f) a Ra Ka Ca) as (R2 & K2 & _).
        exists (completion (scope_of st) (f_type f)). split; [|auto]. cbn. destruct q; [apply unq_qualify|reflexivity].
      * intros j a J. injection J as <-. apply Rv.
      * contradiction.
  - intros i a Ti H. rewrite Ti in Rs. destruct (has_flat _ _ _ _ W H) as (ms & fl & fx & C & _).
    destruct u; try discriminate Rc; cbn in Rs; try discriminate; try (destruct Rs as (? & ? & _); discriminate);
      try (destruct Rs as (? & ? & ? & _); discriminate).
    destruct Rs as (j & vs & J & N & _). injection J as <-. unfold content_of in C. rewrite N in C. discriminate.
Qed.

Definition clear_walk (s : sstate) (t : styp) (ps : list step) : Prop :=
  forall p1 p2 t', ps = p1 ++ p2 -> walk (s_ents s) t p1 t' -> clear [] s t'.
Lemma walk_sim s st : R [] [] s st -> forall ps k t, upto (s_ents s) k t -> clear_walk s t ps ->
  match k_walk st k ps with
  | Some k' => exists t', walk (s_ents s) t ps t' /\ upto (s_ents s) k' t' /\ forall t2, walk (s_ents s) t ps t2 -> t2 = t'
  | None => forall t', ~ walk (s_ents s) t ps t'
  end.
Proof.
  intros HR. induction ps as [|p r IH]; intros k t U C; cbn [k_walk].
  - exists t. split; [constructor|]. split; [exact U|]. intros t2 W. inversion W. reflexivity.
  - assert (Ct : clear [] s t) by (apply (C [] (p :: r) t eq_refl); constructor).
    destruct p as [|m].
    + pose proof (deref_sim s st k t U) as D. destruct (k_step st k PDeref) as [k'|].
      * destruct D as (a & Sh & Ua).
        assert (One : forall p1 t', walk (s_ents s) a p1 t' -> walk (s_ents s) t (PDeref :: p1) t').
        { intros p1 t' W. destruct Sh as [Sh|(n & Sh)]; [eapply walk_pointer; eauto|eapply walk_array; eauto]. }
        assert (Inv : forall t2, walk (s_ents s) t (PDeref :: r) t2 -> walk (s_ents s) a r t2).
        { intros t2 W. inversion W as [|? a' ? ? Sa Wa|? n' a' ? ? Sa Wa|]; subst; destruct Sh as [Sh|(n & Sh)]; rewrite Sh in Sa; congruence. }
        specialize (IH k' a Ua). assert (Ca : clear_walk s a r).
        { intros p1 p2 t' -> W. apply (C (PDeref :: p1) p2 t'); [reflexivity|auto]. }
        specialize (IH Ca). destruct (k_walk st k' r) as [k2|].
        -- destruct IH as (t' & W1 & U1 & Un). exists t'. auto.
        -- intros t' W. apply (IH t'). auto.
      * intros t' W. inversion W as [|? a' ? ? Sa Wa|? n' a' ? ? Sa Wa|]; subst; destruct (D a') as (D1 & D2); [auto|eapply D2; eauto].
    + pose proof (member_walk s st k t m HR U Ct) as D. destruct (k_step st k (PMember m)) as [k'|].
      * destruct D as (i & a & Ti & Ha & Ua).
        assert (One : forall p1 t', walk (s_ents s) a p1 t' -> walk (s_ents s) t (PMember m :: p1) t') by (intros; eapply walk_member; eauto).
        assert (Inv : forall t2, walk (s_ents s) t (PMember m :: r) t2 -> walk (s_ents s) a r t2).
        { intros t2 W. inversion W as [| | |? i' ? a' ? ? Ti' Ha' Wa]; subst. rewrite Ti in Ti'. injection Ti' as <-.
          now rewrite (has_unique _ _ _ _ (R_wf _ _ _ _ HR) Ha _ Ha'). }
        assert (Ca : clear_walk s a r).
        { intros p1 p2 t' -> W. apply (C (PMember m :: p1) p2 t'); [reflexivity|auto]. }
        assert (Cla : clear [] s a) by (apply (Ca [] r a eq_refl); constructor).
        specialize (IH k' a (Ua Cla) Ca). destruct (k_walk st k' r) as [k2|].
        -- destruct IH as (t' & W1 & U1 & Un). exists t'. auto.
        -- intros t' W. apply (IH t'). auto.
      * intros t' W. inversion W as [| | |? i' ? a' ? ? Ti' Ha' Wa]; subst. now apply (D i' a').
Qed.
