(** C11: expansion of object-like macros. *)

From Coq Require Import Bool List String Arith Lia Relation_Operators.
From Verif Require Import LexModel PropPunct MacroModel MacroSpec MacroProofs.
Import ListNotations.
Open Scope string_scope.
Open Scope list_scope.

(** ** Specification of _Pragma (6.10.9): the operator and its operand disappear. *)
Inductive unpragma : list tok -> list tok -> Prop :=
  | U_nil : unpragma [] []
  | U_keep : forall t l l', (forall b, t <> TId "_Pragma" b) -> unpragma l l' -> unpragma (t :: l) (t :: l')
  | U_drop : forall b s1 s2 s3 x l l', spaces s1 -> spaces s2 -> spaces s3 -> unpragma l l' ->
      unpragma (TId "_Pragma" b :: s1 ++ TPunct P_LEFT_PARENTHESE :: s2 ++ TStr x :: s3 ++ TPunct P_RIGHT_PARENTHESE :: l) l'.

Lemma pragma_operator_cases : forall r r1, pragma_operator r = Some r1 -> exists s1 s2 s3 x,
  spaces s1 /\ spaces s2 /\ spaces s3 /\
  r = s1 ++ TPunct P_LEFT_PARENTHESE :: s2 ++ TStr x :: s3 ++ TPunct P_RIGHT_PARENTHESE :: r1.
Proof.
  intros r r1 H. unfold pragma_operator in H. destruct (skip_ws_split r) as (s1 & E1 & S1).
  destruct (skip_ws r) as [|[| |p| | | | |] r2]; try discriminate. destruct p; try discriminate.
  destruct (skip_ws_split r2) as (s2 & E2 & S2).
  destruct (skip_ws r2) as [|[| |p| |x| | |] r3]; try discriminate.
  destruct (skip_ws_split r3) as (s3 & E3 & S3).
  destruct (skip_ws r3) as [|[| |p| | | | |] r4]; try discriminate. destruct p; try discriminate.
  injection H as <-. exists s1, s2, s3, x. repeat (split; [assumption|]). rewrite <- E3, <- E2. exact E1.
Qed.
Lemma pragmas_spec : forall n l r, pragmas n l = Ok r -> unpragma l r.
Proof.
  induction n as [|n IH]; intros l r H; destruct l as [|t l]; simpl in H; try discriminate;
    try (injection H as <-; constructor).
  assert (G : forall l0, bind (pragmas n l) (fun r => Ok (t :: r)) = Ok l0 -> (forall b, t <> TId "_Pragma" b) -> unpragma (t :: l) l0).
  { intros l0 E N. destruct (pragmas n l) as [r'| |] eqn:P; try discriminate. injection E as <-. constructor; auto. }
  destruct t as [s b| | | | | | |]; try (apply G; [exact H|discriminate]).
  destruct (String.eqb s "_Pragma") eqn:E.
  - apply String.eqb_eq in E. subst s. destruct (pragma_operator l) as [l1|] eqn:P; [|discriminate].
    destruct (pragma_operator_cases _ _ P) as (s1 & s2 & s3 & x & S1 & S2 & S3 & ->). constructor; auto.
  - apply G; [exact H|]. intros b' E'. injection E' as -> _. discriminate.
Qed.
Lemma pragmas_fuel : forall n l, len l <= n -> pragmas n l <> Fuel.
Proof.
  induction n as [|n IH]; intros l H.
  { destruct l; [discriminate|simpl in H; lia]. }
  destruct l as [|t l]; [discriminate|]. simpl in H.
  assert (G : bind (pragmas n l) (fun r => Ok (t :: r)) <> Fuel).
  { specialize (IH l ltac:(lia)). destruct (pragmas n l); try discriminate. congruence. }
  simpl. destruct t as [s b| | | | | | |]; try exact G. destruct (String.eqb s "_Pragma"); [|exact G].
  destruct (pragma_operator l) as [l1|] eqn:P; [|discriminate].
  destruct (pragma_operator_cases _ _ P) as (s1 & s2 & s3 & x & _ & _ & _ & ->). apply IH.
  rewrite app_length in H. simpl in H. rewrite app_length in H. simpl in H. rewrite app_length in H. simpl in H. lia.
Qed.
Lemma spaces_erase : forall s, spaces s -> map erase s = s.
Proof.
  induction s as [|t s IH]; intro H; [reflexivity|]. simpl. f_equal.
  - specialize (H t (or_introl eq_refl)). destruct t; try discriminate. reflexivity.
  - apply IH. intros u I. apply H. right. exact I.
Qed.
Lemma unpragma_erase : forall l r, unpragma l r -> unpragma (map erase l) (map erase r).
Proof.
  induction 1 as [|t l l' N U IH|b s1 s2 s3 x l l' S1 S2 S3 U IH]; simpl.
  - constructor.
  - constructor; [|exact IH]. intros b E. destruct t; try discriminate. injection E as -> _. eapply N; reflexivity.
  - rewrite map_app. simpl. rewrite map_app. simpl. rewrite map_app. simpl. rewrite !spaces_erase by assumption.
    constructor; assumption.
Qed.

(** ** Errors *)

Section NoError.
Variable fmt : list tok -> string.
Variable defs : list (string * macro).
Variable cond : bool.
Hypothesis Hobj : objects defs.
Hypothesis Hplain : plain defs cond.
Hypothesis Hpaste : forall s body, locate defs s = Some (MObj body) -> exists body', pastes body body'.

Lemma resolves_app : forall a b b', no_defined a -> resolves defs b b' -> resolves defs (a ++ b) (a ++ b').
Proof.
  induction a as [|t a IH]; intros b b' N R; [exact R|]. simpl. constructor.
  - intros c ->. exact (N c (or_introl eq_refl)).
  - apply IH; [|exact R]. intros c I. exact (N c (or_intror I)).
Qed.
Lemma resolves_tail : forall t l l', (forall b, t <> TId "defined" b) -> resolves defs (t :: l) l' -> exists l'', resolves defs l l''.
Proof. intros t l l' N R. inversion R; subst; eauto; exfalso; eapply N; reflexivity. Qed.
Lemma resolves_defined : forall b l l', resolves defs (TId "defined" b :: l) l' ->
  exists l1 l'', defined_operator defs l = Some l1 /\ resolves defs l1 l''.
Proof.
  intros b l l' R. inversion R; subst.
  - exfalso. eapply H1. reflexivity.
  - eexists _, _. split; [apply defined_name; assumption|]. apply R_keep; [discriminate|eassumption].
  - eexists _, _. split; [apply defined_paren; assumption|]. apply R_keep; [discriminate|eassumption].
Qed.

Lemma resolves_inv : forall b l l', resolves defs (TId "defined" b :: l) l' ->
  exists n l1 l'', defined_operator defs l = Some (TNum n :: l1) /\ l' = TNum n :: l'' /\ resolves defs l1 l''.
Proof.
  intros b l l' R. inversion R; subst.
  - exfalso. eapply H1. reflexivity.
  - eexists _, _, _. split; [apply defined_name; assumption|]. split; [reflexivity|assumption].
  - eexists _, _, _. split; [apply defined_paren; assumption|]. split; [reflexivity|assumption].
Qed.
Lemma resolves_fun : forall l a b, resolves defs l a -> resolves defs l b -> a = b.
Proof.
  intros l a b P. revert b.
  induction P as [|t l l' N P IH|b s1 x y l l' S1 P IH|b s1 s2 s3 x y l l' S1 S2 S3 P IH]; intros t2 P2.
  - inversion P2. reflexivity.
  - inversion P2; subst; try (exfalso; eapply N; reflexivity). f_equal. auto.
  - apply resolves_inv in P2. destruct P2 as (n & l1 & l2 & D & -> & R). rewrite defined_name in D by assumption.
    injection D as <- <-. f_equal. auto.
  - apply resolves_inv in P2. destruct P2 as (n & l1 & l2 & D & -> & R). rewrite defined_paren in D by assumption.
    injection D as <- <-. f_equal. auto.
Qed.

Lemma run_no_error : forall f l, (cond = true -> exists l', resolves defs l l') -> run fmt defs f cond l <> Err.
Proof.
  induction f as [|f IH]; intros l R; [discriminate|]. destruct l as [|t r]; [discriminate|].
  assert (G : forall t0 r0, (cond = true -> exists l', resolves defs r0 l') ->
    bind (run fmt defs f cond r0) (fun res => Ok (t0 :: res)) <> Err).
  { intros t0 r0 R0. specialize (IH r0 R0). destruct (run fmt defs f cond r0); try discriminate. congruence. }
  destruct t as [s b| | | | | | |];
    try (rewrite run_tok by discriminate; apply G; intro C; destruct (R C) as [l' R']; eapply resolves_tail; [|exact R']; discriminate).
  rewrite run_id. destruct (negb b || cond) eqn:Act.
  2: { apply orb_false_iff in Act. destruct Act as [_ C]. apply G. intro C'. congruence. }
  destruct (String.eqb s "defined" && cond) eqn:D.
  { apply andb_true_iff in D. destruct D as [D C]. apply String.eqb_eq in D. subst s.
    destruct (R C) as [l' R']. destruct (resolves_defined _ _ _ R') as (l1 & l'' & -> & R''). apply IH. eauto. }
  assert (T : cond = true -> exists l', resolves defs r l').
  { intro C. destruct (R C) as [l' R']. eapply resolves_tail; [|exact R'].
    intros c E. injection E as -> _. rewrite C in D. discriminate. }
  destruct (locate defs s) as [m|] eqn:L.
  - destruct (Hobj _ _ L) as (body & -> & Sb). destruct (Hpaste _ _ L) as [body' P].
    destruct (apply_object fmt f s body) as [a| |] eqn:A; try discriminate.
    + cbn [bind]. apply IH. intro C. destruct (T C) as [l' R']. exists (a ++ l'). apply resolves_app; [|exact R'].
      eapply applied_no_defined; try eassumption. eapply apply_applied; eassumption.
    + unfold apply_object in A. exfalso.
      destruct (replace fmt f None body) as [x| |] eqn:E; try discriminate.
      revert E. clear - P Sb. intro E.
      assert (Q : forall g l l', pastes l l' -> source l -> replace fmt g None l <> Err).
      { induction g as [|g IHg]; intros l l' P' S'; [discriminate|].
        inversion P'; subst; [discriminate| |].
        - rewrite replace_none. pose proof (match_cases t l0 S') as M.
          pose proof (pastes_replace fmt _ _ P' S' (S (len (t :: l0))) (Nat.lt_succ_diag_r _)) as O.
          rewrite replace_none in O.
          destruct (match_concatenation None t l0) as [[l1|]|] eqn:ME.
          + destruct M as (s1 & s2 & u & v & r' & A' & B & C & D & J & -> & -> & S1).
            exfalso. eapply H; [exact A'| |reflexivity]. exact C.
          + discriminate.
          + inversion S'; subst. specialize (IHg _ _ H0 H4). destruct (replace fmt g None l0); try discriminate. congruence.
        - rewrite replace_none, (match_none _ _ H), (skip_ws_spaces _ _ H1). cbn [skip_ws is_ws].
          rewrite (skip_ws_spaces _ _ H2). cbn [skip_ws]. rewrite H0, (joins_concat _ _ _ H3). cbn [option_map].
          eapply IHg; [exact H4|]. unfold source in *. inversion S'; subst. apply Forall_app in H8. destruct H8 as [_ H8].
          inversion H8; subst. apply Forall_app in H10. destruct H10 as [_ H10]. inversion H10; subst.
          constructor; [eapply joins_source; eassumption|assumption]. }
      exact (Q _ _ _ P Sb E).
  - destruct cond eqn:C.
    + apply IH. intros _. destruct (T eq_refl) as [l' R']. exists (TNum "0" :: l'). constructor; [discriminate|exact R'].
    + apply G. exact T.
Qed.
End NoError.

(** ** C11 *)

(** Whenever the expansion of a text or of the line of an #if comes to an end, its result
    is what C17 6.10.3.4 (and 6.10.1, 6.10.9) defines. *)
Theorem c11_result : forall fmt defs cond fuel ts r, objects defs -> plain defs cond -> source ts ->
  run_substitutions fmt defs fuel cond ts = Ok r ->
  exists ts' e, prepared defs cond ts ts' /\ expands defs [] ts' e /\ unpragma (concluded cond e) (map erase r).
Proof.
  intros fmt defs cond fuel ts r Ho Hp Hs H. unfold run_substitutions in H.
  destruct (run fmt defs fuel cond ts) as [x| |] eqn:E; try discriminate. cbn [bind] in H.
  apply pragmas_spec, unpragma_erase in H. apply (run_kexp fmt defs cond Ho Hp) in E.
  apply kexp_prepared in E. destruct E as (ts' & P & K & ND).
  assert (Ht : source ts').
  { unfold prepared in P. destruct cond; [|subst; exact Hs]. apply Forall_forall. intros t I.
    destruct t as [s b| | | | | | |]; simpl; auto.
    - pose proof (resolves_in _ _ _ P _ _ I) as I'. exact (proj1 (Forall_forall _ _) Hs _ I').
    - clear - P I Hs. induction P; [destruct I| | |].
      + destruct I as [->|I]; [exact (Forall_inv Hs)|]. apply IHP; [exact (Forall_inv_tail Hs)|exact I].
      + destruct I as [E|I]; [discriminate|]. apply IHP; [|exact I]. apply Forall_inv_tail in Hs.
        apply Forall_app in Hs. destruct Hs as [_ Hs]. exact (Forall_inv_tail Hs).
      + destruct I as [E|I]; [discriminate|]. apply IHP; [|exact I]. apply Forall_inv_tail in Hs.
        apply Forall_app in Hs. destruct Hs as [_ Hs]. apply Forall_inv_tail in Hs.
        apply Forall_app in Hs. destruct Hs as [_ Hs]. apply Forall_inv_tail in Hs.
        apply Forall_app in Hs. destruct Hs as [_ Hs]. exact (Forall_inv_tail Hs). }
  destruct (kexp_expands defs cond Ho Hp _ _ K ND []) as (e & X & Q).
  - intros s b I ->. pose proof (proj1 (Forall_forall _ _) Ht _ I) as B. discriminate.
  - intros s b I A M y [].
  - exists ts', e. split; [exact P|]. rewrite <- Q. split; [|exact H].
    replace ts' with (map erase ts'); [exact X|]. clear - Ht. induction Ht as [|t l Ht Hl IH]; [reflexivity|].
    simpl. f_equal; [|exact IH]. destruct t; simpl in *; congruence.
Qed.

(** The expansion comes to an end exactly if no chain of macros, each named in the
    replacement of the one before, starts from the text and goes on forever: it does not
    when two macros name each other, or in an #if a macro itself. *)
Theorem c11_terminates_iff : forall fmt defs cond ts ts', objects defs -> plain defs cond ->
  (forall s body, locate defs s = Some (MObj body) -> exists body', pastes body body') ->
  source ts -> prepared defs cond ts ts' ->
  (exists fuel, run_substitutions fmt defs fuel cond ts <> Fuel) <->
  (forall s, In (TId s false) ts' -> is_macro defs s = true -> Acc (fun y x => mentions defs cond x y) s).
Proof.
  intros fmt defs cond ts ts' Ho Hp Hb Hs P.
  assert (Hf : forall s b, In (TId s b) ts' -> b = false).
  { intros s b I. unfold prepared in P. destruct cond; [apply (resolves_in _ _ _ P) in I|subst ts'];
      exact (proj1 (Forall_forall _ _) Hs _ I). }
  assert (ND : cond = true -> no_defined ts').
  { intro C. unfold prepared in P. rewrite C in P. eapply resolves_no_defined; exact P. }
  split.
  - intros [fuel H] s I M. unfold run_substitutions in H.
    destruct (run fmt defs fuel cond ts) as [x| |] eqn:E; [| |contradiction H; reflexivity].
    2: { exfalso. eapply (run_no_error fmt defs cond Ho Hp Hb); [|exact E].
         intro C. unfold prepared in P. rewrite C in P. eauto. }
    apply (run_kexp fmt defs cond Ho Hp) in E. apply kexp_prepared in E. destruct E as (t2 & P2 & K & ND2).
    assert (t2 = ts').
    { unfold prepared in *. destruct cond; [|congruence]. eapply resolves_fun; eassumption. }
    subst t2. eapply (kexp_acc defs cond Ho Hp); try eassumption. left. reflexivity.
  - intro A. destruct (acc_kexp defs cond Ho Hp Hb ts' ND) as [res K].
    { intros s b I Ac M. pose proof (Hf s b I) as ->. apply A; assumption. }
    eapply prepared_kexp in K; [|exact P]. destruct (kexp_terminates fmt defs cond Ho _ _ K) as [f0 H].
    exists f0. unfold run_substitutions. rewrite H by lia. cbn [bind]. apply pragmas_fuel. lia.
Qed.

(** The standard's expansion always exists and is unique, whatever the macros name. *)
Definition others (h : list string) (s : string) : bool := negb (existsb (String.eqb s) h).
Lemma others_in : forall h s, others h s = true <-> ~ In s h.
Proof.
  intros h s. unfold others. rewrite negb_true_iff. split.
  - intros E I. assert (existsb (String.eqb s) h = true); [|congruence]. apply existsb_exists. exists s.
    split; [exact I|apply String.eqb_refl].
  - intro N. apply not_true_is_false. intro E. apply existsb_exists in E. destruct E as (x & I & Ex).
    apply String.eqb_eq in Ex. subst x. contradiction.
Qed.
Lemma locate_key : forall l s m, locate_in l s = Some m -> In s (map fst l).
Proof.
  induction l as [|[k m'] l IH]; intros s m H; [discriminate|]. simpl in *. destruct (String.eqb k s) eqn:E.
  - apply String.eqb_eq in E. left. exact E.
  - right. eauto.
Qed.
Lemma filter_less : forall A (f g : A -> bool) l x, (forall y, f y = true -> g y = true) -> In x l -> f x = false -> g x = true ->
  len (filter f l) < len (filter g l).
Proof.
  intros A f g l x H. induction l as [|y l IH]; intros I F G; [destruct I|].
  assert (LE : len (filter f l) <= len (filter g l)).
  { clear - H. induction l as [|z l IH]; [simpl; lia|]. simpl. specialize (H z). destruct (f z), (g z); simpl; try lia; discriminate (H eq_refl). }
  simpl. destruct I as [->|I]; [rewrite F, G; simpl; lia|]. specialize (IH I F G). specialize (H y).
  destruct (f y), (g y); simpl; try lia; discriminate (H eq_refl).
Qed.

Theorem c11_standard_total : forall defs, objects defs ->
  (forall s body, locate defs s = Some (MObj body) -> exists body', pastes body body') ->
  forall ts, exists e, expands defs [] ts e.
Proof.
  intros defs Ho Hb.
  assert (G : forall n h, len (filter (others h) (map fst defs)) <= n -> forall ts, exists e, expands defs h ts e).
  { induction n as [|n IH]; intros h Hn ts; (induction ts as [|t ts [e E]]; [exists []; constructor|]);
      (destruct t as [s b| | | | | | |]; try (eexists; apply E_keep; [discriminate|exact E])).
    - destruct (others h s) eqn:O.
      + destruct (locate defs s) as [m|] eqn:L.
        * pose proof (locate_key _ _ _ L) as I. exfalso.
          assert (J : In s (filter (others h) (map fst defs))) by (apply filter_In; auto).
          destruct (filter (others h) (map fst defs)); [destruct J|simpl in Hn; lia].
        * eexists. apply E_keep; [|exact E]. intros s' b' Q. injection Q as <- <-. auto.
      + eexists. apply E_keep; [|exact E]. intros s' b' Q. injection Q as <- <-. right.
        destruct (in_dec string_dec s h) as [I|N]; [exact I|]. apply others_in in N. congruence.
    - destruct (others h s) eqn:O.
      + destruct (locate defs s) as [m|] eqn:L.
        * destruct (Ho _ _ L) as (body & -> & Sb). destruct (Hb _ _ L) as [body' P].
          destruct (IH (s :: h)) with (ts := body') as [e1 E1].
          { assert (LT : len (filter (others (s :: h)) (map fst defs)) < len (filter (others h) (map fst defs))).
            { apply filter_less with (x := s).
              - intros y Y. apply others_in in Y. apply others_in. intro J. apply Y. right. exact J.
              - eapply locate_key; exact L.
              - apply not_true_is_false. intro Y. apply others_in in Y. apply Y. left. reflexivity.
              - exact O. }
            lia. }
          eexists. eapply E_replace; try eassumption. apply others_in. exact O.
        * eexists. apply E_keep; [|exact E]. intros s' b' Q. injection Q as <- <-. auto.
      + eexists. apply E_keep; [|exact E]. intros s' b' Q. injection Q as <- <-. right.
        destruct (in_dec string_dec s h) as [I|N]; [exact I|]. apply others_in in N. congruence. }
  intros ts. eapply G. apply le_n.
Qed.

Theorem c11_standard_unique : forall defs h ts e e', objects defs -> expands defs h ts e -> expands defs h ts e' -> e = e'.
Proof.
  intros defs h ts e e' Ho E. revert e'.
  induction E as [h|h t l l' N E IH|h s b body body' m l l' L I P E1 IH1 E2 IH2]; intros e' E'.
  - inversion E'. reflexivity.
  - inversion E'; subst; [f_equal; auto|]. destruct (N _ _ eq_refl); [congruence|contradiction].
  - inversion E'; subst.
    + match goal with H : forall s b, TId _ _ = _ -> _ |- _ => destruct (H _ _ eq_refl); [congruence|contradiction] end.
    + assert (body0 = body) by congruence. subst body0.
      destruct (Ho _ _ L) as (bd & Q & S). injection Q as <-.
      assert (body'0 = body') by (eapply pastes_fun; eassumption). subst body'0.
      f_equal; auto.
Qed.

(** ** Where the property fails *)

Definition id (s : string) : tok := TId s false.
(** [#define A B] and [#define B A]: the standard expands A to A. *)
Definition mutual : list (string * macro) := [("A", MObj [id "B"]); ("B", MObj [id "A"])].

Lemma mutual_objects : objects mutual.
Proof.
  intros s m H. unfold locate, mutual, locate_in in H.
  destruct (String.eqb "A" s); [injection H as <-; eexists; split; [reflexivity|repeat constructor]|].
  destruct (String.eqb "B" s); [injection H as <-; eexists; split; [reflexivity|repeat constructor]|discriminate].
Qed.
Lemma pastes_one : forall s, pastes [id s] [id s].
Proof. intro s. constructor; [|constructor]. intros _ x r _. destruct x; discriminate. Qed.

Theorem c11_mutual_refuted : forall fmt,
  (forall fuel, run_substitutions fmt mutual fuel false [id "A"] = Fuel) /\ expands mutual [] [id "A"] [id "A"].
Proof.
  intro fmt. split.
  - assert (G : forall f, run fmt mutual f false [id "A"] = Fuel /\ run fmt mutual f false [id "B"] = Fuel).
    { induction f as [|f [IA IB]]; [split; reflexivity|].
      unfold id. split; rewrite run_id; cbn -[run apply_object]; (destruct f as [|[|f]]; [reflexivity|reflexivity|]);
        [change (run fmt mutual (S (S f)) false [id "B"] = Fuel)|change (run fmt mutual (S (S f)) false [id "A"] = Fuel)]; assumption. }
    intro fuel. unfold run_substitutions. rewrite (proj1 (G fuel)). reflexivity.
  - change [id "A"] with (([id "A"] ++ []) ++ []) at 2.
    eapply E_replace; [reflexivity|intros []|apply pastes_one| |constructor].
    eapply E_replace; [reflexivity|intros [E|[]]; discriminate|apply pastes_one| |constructor].
    constructor; [|constructor]. intros s b E. injection E as <- <-. right. right. left. reflexivity.
Qed.

(** [#define A A], [#if A]: the standard evaluates [#if 0]. *)
Definition itself : list (string * macro) := [("A", MObj [id "A"])].
Theorem c11_if_itself_refuted : forall fmt,
  (forall fuel, run_substitutions fmt itself fuel true [id "A"] = Fuel) /\
  resolves itself [id "A"] [id "A"] /\ expands itself [] [id "A"] [id "A"] /\ concluded true [id "A"] = [TNum "0"].
Proof.
  intro fmt. split; [|split; [|split; [|reflexivity]]].
  - assert (G : forall f b, run fmt itself f true [TId "A" b] = Fuel).
    { induction f as [|f IH]; intro b; [reflexivity|]. rewrite run_id. rewrite orb_true_r. cbn -[run apply_object].
      destruct f as [|[|f]]; [reflexivity|reflexivity|].
      change (run fmt itself (S (S f)) true [TId "A" true] = Fuel). apply IH. }
    intro fuel. unfold run_substitutions, id. rewrite G. reflexivity.
  - constructor; [discriminate|constructor].
  - change [id "A"] with ([id "A"] ++ []) at 2.
    eapply E_replace; [reflexivity|intros []|apply pastes_one| |constructor].
    constructor; [|constructor]. intros s b E. injection E as <- <-. right. left. reflexivity.
Qed.

(** ** A case that meets the hypotheses *)

(** [#define A B + A], [#define B C ## 1], [#define C1 2]: [A] gives [2 + A]. *)
Definition sample : list (string * macro) :=
  [("A", MObj [id "B"; TWs false; TPunct P_PLUS; TWs false; id "A"]);
   ("B", MObj [id "C"; TWs false; TPunct P_DOUBLE_HASH; TWs false; TNum "1"]); ("C1", MObj [TNum "2"])].
Example c11_example : forall fmt, objects sample /\ plain sample false /\ source [id "A"] /\
  run_substitutions fmt sample 20 false [id "A"] = Ok [TNum "2"; TWs false; TPunct P_PLUS; TWs false; TId "A" true].
Proof.
  intro fmt. split; [|split; [intro; discriminate|split; [repeat constructor|vm_compute; reflexivity]]].
  intros s m H. unfold locate, sample, locate_in in H.
  destruct (String.eqb "A" s); [injection H as <-; eexists; split; [reflexivity|repeat constructor]|].
  destruct (String.eqb "B" s); [injection H as <-; eexists; split; [reflexivity|repeat constructor]|].
  destruct (String.eqb "C1" s); [injection H as <-; eexists; split; [reflexivity|repeat constructor]|discriminate].
Qed.
(** [#if defined A && C1] with the same macros: [1 && 2]. *)
Example c11_if_example : forall fmt,
  run_substitutions fmt sample 20 true [id "defined"; TWs false; id "A"; TPunct P_DOUBLE_AMPERSAND; id "C1"; id "X"] =
  Ok [TNum "1"; TPunct P_DOUBLE_AMPERSAND; TNum "2"; TNum "0"].
Proof. reflexivity. Qed.

Print Assumptions c11_result.
Print Assumptions c11_terminates_iff.
Print Assumptions c11_standard_total.
Print Assumptions c11_standard_unique.
Print Assumptions c11_mutual_refuted.
Print Assumptions c11_if_itself_refuted.
