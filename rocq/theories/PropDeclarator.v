(** C50: a declarator denotes the type of 6.7.6. *)

From Coq Require Import ZArith Bool List Lia.
From Verif Require Import SpecifierModel DeclaratorModel DeclaratorSpec DeclaratorProofs.
Import ListNotations.

(** Tokens [ts] that form a declarator of the grammar of 6.7.6, within the part [covered]
    (see DeclaratorSpec.v), are parsed, up to what follows, and the analyzer gives the
    identifier and the type they denote. *)
Theorem c50_declarators_partial : forall T constant ts x L,
  dtor T (covered T) false ts x L ->
  exists d, (forall t, analyze constant d t = Some (Some x, build constant L t)) /\
    forall rest, match rest with KLb :: _ | KLp :: _ => False | _ => True end ->
      exists N, forall n, (N <= n)%nat -> declarator T n (ts ++ rest) = Ok (d, rest).
Proof.
  intros T constant ts x L D. destruct (complete T constant) as (C & _).
  destruct (C _ _ _ _ D) as (d & M & E). exists d. split; [|exact E].
  intros t. specialize (M t). unfold okay in M. destruct (analyze constant d t); [congruence|discriminate].
Qed.

(** The same for the abstract declarator of a type name *)
Theorem c50_type_names_partial : forall T constant ts L,
  adtor T (covered T) ts L ->
  exists d, (forall t, analyze constant d t = Some (None, build constant L t)) /\
    forall rest, match rest with KRp :: _ | KComma :: _ => True | _ => False end ->
      exists N, forall n, (N <= n)%nat -> abstract T n (ts ++ rest) = Ok (d, rest).
Proof.
  intros T constant ts L D. destruct (complete T constant) as (_ & _ & _ & _ & C & _).
  destruct (C _ _ D) as (d & M & _ & E). exists d. split.
  - intros t. specialize (M t). unfold okay in M. destruct (analyze constant d t); [congruence|discriminate].
  - intros rest R. apply E, R.
Qed.

(** Whatever the parser takes for a declarator is one, and if the analyzer gives it a type, it
    is the type denoted. *)
Theorem c50_accepted : forall T constant n ts d rest,
  declarator T n ts = Ok (d, rest) ->
  exists us x L, ts = us ++ rest /\ dtor T (accepted T) false us x L /\
    forall t y u, analyze constant d t = Some (y, u) -> y = Some x /\ u = build constant L t.
Proof.
  intros T constant n ts d rest H. destruct (sound T constant n) as (R & _).
  destruct (R _ _ _ H) as (us & x & L & -> & D & M). exists us, x, L. split; [reflexivity|]. split; [apply D|].
  intros t y u E. specialize (M t). rewrite E in M. cbn in M. injection M as -> ->. auto.
Qed.

Theorem c50_accepted_type_names : forall T constant n ts d rest,
  abstract T n ts = Ok (d, rest) ->
  exists us L, ts = us ++ rest /\ adtor T (accepted T) us L /\
    forall t y u, analyze constant d t = Some (y, u) -> y = None /\ u = build constant L t.
Proof.
  intros T constant n ts d rest H. destruct (sound T constant n) as (_ & _ & _ & _ & _ & _ & R & _).
  destruct (R _ _ _ H) as (us & L & -> & D & M & _). exists us, L. split; [reflexivity|]. split; [exact D|].
  intros t y u E. specialize (M t). rewrite E in M. cbn in M. injection M as -> ->. auto.
Qed.

(** What is covered is part of the grammar of the standard, ... *)
Theorem c50_covered_standard : forall T p ts x L, dtor T (covered T) p ts x L -> dtor T (standard T) p ts x L.
Proof.
  intros T.
  assert (B : forall bs b st qs, brackets (covered T) bs b st qs -> brackets (standard T) bs b st qs).
  { intros bs b st qs []; constructor; auto; exact I. }
  refine (proj1 (grammar_ind T (covered T)
    (fun p ts x L _ => dtor T (standard T) p ts x L) (fun p ts x L _ => ddtor T (standard T) p ts x L)
    (fun ts P dots _ => plist T (standard T) ts P dots) (fun ts ws L _ => pdecl T (standard T) ts ws L)
    (fun ts L _ => adtor T (standard T) ts L) (fun ts L _ => adirect T (standard T) ts L)
    (fun ts L _ => abase T (standard T) ts L)
    _ _ _ _ _ _ _ _ _ _ _ _ _ _ _ _ _ _ _ _ _ _)); intros; try (econstructor; eauto; exact I).
Qed.
(** ... where tokens have one meaning. *)
Theorem c50_unambiguous : forall T ts x L y M,
  dtor T (covered T) false ts x L -> dtor T (covered T) false ts y M ->
  x = y /\ forall constant t, build constant L t = build constant M t.
Proof.
  assert (G : forall constant T ts x L y M, dtor T (covered T) false ts x L -> dtor T (covered T) false ts y M ->
    x = y /\ forall t, build constant L t = build constant M t).
  { intros constant T ts x L y M A B.
    destruct (c50_declarators_partial T constant _ _ _ A) as (d & E & P). destruct (P [] I) as [n1 P1].
    destruct (c50_declarators_partial T constant _ _ _ B) as (e & F & Q). destruct (Q [] I) as [n2 P2].
    specialize (P1 (Nat.max n1 n2) ltac:(lia)). specialize (P2 (Nat.max n1 n2) ltac:(lia)).
    rewrite P1 in P2. injection P2 as <-. split.
    - specialize (E (YBase [])). specialize (F (YBase [])). rewrite E in F. congruence.
    - intros t. specialize (E t). specialize (F t). rewrite E in F. congruence. }
  intros T ts x L y M A B. split; [exact (proj1 (G (fun _ => None) T ts x L y M A B))|].
  intros constant. exact (proj2 (G constant T ts x L y M A B)).
Qed.

(** Examples.  Names: 0 f, 1 T (a typedef name), 2 x; KSpec true 0 is [int]. *)
Definition names (x : nat) : bool := Nat.eqb x 1.
Definition value (e : expr) : option Z := match e with ENum n => Some (Z.of_nat n) | _ => None end.
Notation INT := (KSpec true 0).
Notation int := (WSpec true 0).

(** [int ( *( *f)(int x[const static 3], T, ...))[5]]: f is a pointer to a function of two
    parameters and more, returning a pointer to an array of 5 integers. *)
Definition sample : list tok :=
  [KLp; KStar; KLp; KStar; KId 0; KRp; KLp; INT; KId 2; KLb; KQual QConst; KStatic; KNum 3; KRb; KComma; KId 1;
   KComma; KDots; KRp; KRp; KLb; KNum 5; KRb].
Definition sample_meaning : list deriv :=
  [Pointer []; Function [([int], [Array (Bounded (ENum 3)) true [QConst]]); ([WName 1], [])] true; Pointer [];
   Array (Bounded (ENum 5)) false []].
Example c50_example : dtor names (covered names) false sample 0 sample_meaning.
Proof.
  apply D_direct.
  apply (N_array names (covered names) false
    [KLp; KStar; KLp; KStar; KId 0; KRp; KLp; INT; KId 2; KLb; KQual QConst; KStatic; KNum 3; KRb; KComma; KId 1;
     KComma; KDots; KRp; KRp] 0
    [Pointer []; Function [([int], [Array (Bounded (ENum 3)) true [QConst]]); ([WName 1], [])] true; Pointer []]
    [KNum 5]); [|apply (B_length _ [] (ENum 5)); [intros []|exact I]].
  apply (N_paren names (covered names) false
    [KStar; KLp; KStar; KId 0; KRp; KLp; INT; KId 2; KLb; KQual QConst; KStatic; KNum 3; KRb; KComma; KId 1;
     KComma; KDots; KRp]); [|discriminate].
  apply (D_pointer names (covered names) false [] 
    [KLp; KStar; KId 0; KRp; KLp; INT; KId 2; KLb; KQual QConst; KStatic; KNum 3; KRb; KComma; KId 1;
     KComma; KDots; KRp] 0
    [Pointer []; Function [([int], [Array (Bounded (ENum 3)) true [QConst]]); ([WName 1], [])] true]); [intros []|].
  apply D_direct.
  apply (N_function names (covered names) false [KLp; KStar; KId 0; KRp] 0 [Pointer []]
    [INT; KId 2; KLb; KQual QConst; KStatic; KNum 3; KRb; KComma; KId 1; KComma; KDots]).
  - apply (N_paren names (covered names) false [KStar; KId 0]); [|discriminate].
    apply (D_pointer names (covered names) false [] [KId 0] 0 []); [intros []|]. apply D_direct, N_name.
  - apply (L_more names (covered names) [INT; KId 2; KLb; KQual QConst; KStatic; KNum 3; KRb] _ _
      [KId 1; KComma; KDots]).
    + apply (P_named names (covered names) [int] [KId 2; KLb; KQual QConst; KStatic; KNum 3; KRb] 2); try discriminate.
      * exact I.
      * reflexivity.
      * apply D_direct. apply (N_array names (covered names) true [KId 2] 2 [] [KQual QConst; KStatic; KNum 3]).
        -- apply N_name.
        -- apply (B_static_after _ [QConst] (ENum 3)); [discriminate| |exact I]. intros [F | []]; discriminate.
    + apply (L_dots names (covered names) [KId 1]). apply (P_none names (covered names) [WName 1]); [discriminate|repeat split|reflexivity].
Qed.
Example c50_example_run :
  exists d, declarator names 30 sample = Ok (d, []) /\
    analyze value d (YBase [int]) =
      Some (Some 0%nat,
            YPtr (YFun (YPtr (YArr (Constant 5) false no_quals (YBase [int])))
                       [Some (YQual (true, false, false) (YPtr (YBase [int]))); Some (YBase [WName 1])] true)).
Proof. eexists. split; reflexivity. Qed.

(** The type name of a pointer to an array of three *)
Example c50_type_name_example :
  adtor names (covered names) [KLp; KStar; KRp; KLb; KNum 3; KRb] [Pointer []; Array (Bounded (ENum 3)) false []].
Proof.
  apply A_direct. apply (T_array names (covered names) [KLp; KStar; KRp] [Pointer []] [KNum 3]).
  - apply Z_some. apply (T_paren names (covered names) [KStar]). apply (A_pointer names (covered names) []). intros [].
  - apply (B_length _ [] (ENum 3)); [intros []|exact I].
Qed.

Lemma more_fuel : forall T k ts r, declarator T k ts = r -> r <> Stuck -> forall n, (k <= n)%nat -> declarator T n ts = r.
Proof.
  intros T k ts r H NS n Hn. destruct (fuel_all T k n Hn) as (F & _). destruct (F ts) as [F' | F']; congruence.
Qed.

(** 6.7.6.3p11: in [int f(int (T))] the parameter is a function taking a [T]; it is taken for
    an integer named [T]. *)
Theorem c50_typedef_parameter_refuted : exists ts L d,
  dtor names (standard names) false ts 0 L /\
  (exists N, forall n, (N <= n)%nat -> declarator names n ts = Ok (d, [])) /\
  analyze value d (YBase [int]) <> Some (Some 0%nat, build value L (YBase [int])).
Proof.
  exists [KId 0; KLp; INT; KLp; KId 1; KRp; KRp], [Function [([int], [Function [([WName 1], [])] false])] false].
  eexists. split; [|split].
  - apply D_direct. apply (N_function names (standard names) false [KId 0] 0 [] [INT; KLp; KId 1; KRp]); [apply N_name|].
    apply L_one. apply (P_abstract names (standard names) [int] [KLp; KId 1; KRp]); try discriminate; try exact I; try reflexivity.
    apply A_direct. apply (T_function names (standard names) [] [] [KId 1]); [apply Z_none|].
    apply L_one. apply (P_none names (standard names) [WName 1]); [discriminate|repeat split|reflexivity].
  - exists 20%nat. apply more_fuel; [vm_compute; reflexivity|discriminate].
  - cbn. discriminate.
Qed.

(** [int f(int (T x))] and [int a[*p]] are refused. *)
Theorem c50_typedef_parameter_name_refuted : exists ts L,
  dtor names (standard names) false ts 0 L /\ exists N, forall n, (N <= n)%nat -> declarator names n ts = Err.
Proof.
  exists [KId 0; KLp; INT; KLp; KId 1; KId 2; KRp; KRp], [Function [([int], [Function [([WName 1], [])] false])] false].
  split.
  - apply D_direct. apply (N_function names (standard names) false [KId 0] 0 [] [INT; KLp; KId 1; KId 2; KRp]); [apply N_name|].
    apply L_one.
    apply (P_abstract names (standard names) [int] [KLp; KId 1; KId 2; KRp]); try discriminate; try exact I; try reflexivity.
    apply A_direct. apply (T_function names (standard names) [] [] [KId 1; KId 2]); [apply Z_none|].
    apply L_one. apply (P_named names (standard names) [WName 1] [KId 2] 2); [discriminate|repeat split|reflexivity|].
    apply D_direct, N_name.
  - exists 20%nat. apply more_fuel; [vm_compute; reflexivity|discriminate].
Qed.

Theorem c50_dereferenced_length_refuted : exists ts L,
  dtor names (standard names) false ts 0 L /\ exists N, forall n, (N <= n)%nat -> declarator names n ts = Err.
Proof.
  exists [KId 0; KLb; KStar; KNum 2; KRb], [Array (Bounded (EDeref (ENum 2))) false []].
  split.
  - apply D_direct. apply (N_array names (standard names) false [KId 0] 0 [] [KStar; KNum 2]); [apply N_name|].
    apply (B_length _ [] (EDeref (ENum 2))); [intros []|exact I].
  - exists 20%nat. apply more_fuel; [vm_compute; reflexivity|discriminate].
Qed.

(** * Constraints *)

Section Constraints.
  Variables complete_base void_base : list word -> bool.
  (** [void] is incomplete *)
  Hypothesis void_incomplete : forall ws, void_base ws = true -> complete_base ws = false.
  Notation check := (check complete_base void_base).
  Notation satisfied := (satisfied complete_base void_base).

  (** parameters are adjusted *)
  Definition outer (t : cty) : Prop := match t with YArr _ _ _ _ => False | YQual _ (YPtr _) => True | YQual _ _ => False | _ => True end.
  Fixpoint adjusted (t : cty) : Prop :=
    match t with
    | YBase _ => True
    | YPtr t | YQual _ t => adjusted t
    | YArr _ _ _ t => adjusted t
    | YFun r ps _ =>
      adjusted r /\ fold_right (fun (p : option cty) P => match p with None => P | Some p => (adjusted p /\ outer p) /\ P end) True ps
    end.
  Lemma adjusted_in : forall ps p,
    fold_right (fun (p : option cty) P => match p with None => P | Some p => (adjusted p /\ outer p) /\ P end) True ps ->
    In (Some p) ps -> adjusted p /\ outer p.
  Proof.
    induction ps as [|q ps IH]; intros p H I; [destruct I|]. cbn in H.
    destruct I as [-> | I]; [tauto|]. destruct q; apply IH; tauto.
  Qed.
  Lemma with_quals_adjusted : forall qs t, adjusted t -> adjusted (with_quals qs t).
  Proof. intros qs t H. unfold with_quals. destruct (has _ qs); exact H. Qed.
  Lemma with_quals_outer : forall qs t, outer (with_quals qs (YPtr t)).
  Proof. intros qs t. unfold with_quals. destruct (has _ qs); exact I. Qed.
  Lemma derive_adjusted : forall constant v t, adjusted t -> adjusted (derive constant v t).
  Proof.
    intros constant. fix IH 1. intros [qs|b st qs|ps dots|n] t A.
    - cbn. apply with_quals_adjusted. exact A.
    - exact A.
    - cbn. split; [exact A|]. induction ps as [|[ws L] ps IHps]; [exact I|]. cbn. split; [|exact IHps].
      assert (ALL : adjusted (fold_right (derive constant) (YBase ws) L)).
      { clear IHps. induction L as [|v L IHL]; [exact I|]. cbn. apply IH. exact IHL. }
      destruct L as [|v L].
      + split; exact I.
      + assert (ALL' : adjusted (fold_right (derive constant) (YBase ws) L)).
        { clear ALL IHps. induction L as [|w L IHL]; [exact I|]. cbn. apply IH. exact IHL. }
        destruct v as [qs|b st qs|ps' dots'|n].
        * split; [exact ALL|]. cbn. apply with_quals_outer.
        * split; [apply with_quals_adjusted; exact ALL'|apply with_quals_outer].
        * split; [exact ALL|exact I].
        * split; [exact ALL|exact I].
    - cbn. split; [exact A|]. induction n as [|n IHn]; [exact I|]. exact IHn.
  Qed.
  Lemma build_adjusted : forall constant L ws, adjusted (build constant L (YBase ws)).
  Proof.
    intros constant L ws. induction L as [|v L IH]; [exact I|]. cbn. apply derive_adjusted. exact IH.
  Qed.

  Lemma incomplete_spec : forall t, incomplete complete_base t = false <-> complete_type complete_base t.
  Proof.
    induction t as [ws|t IH|q t IH|n st q t IH|r IH ps dots]; cbn.
    - rewrite negb_false_iff. split; [constructor; assumption|intros H; inversion H; assumption].
    - split; [constructor|reflexivity].
    - rewrite IH. split; [constructor; assumption|intros H; inversion H; assumption].
    - split.
      + intros H. constructor. intros ->. discriminate.
      + intros H. inversion H. subst. destruct n; congruence.
    - split; [constructor|reflexivity].
  Qed.
  Lemma zero_spec : forall q, zero q = true <-> q = no_quals.
  Proof. intros [[[] []] []]; unfold no_quals; cbn; split; congruence. Qed.

  Fixpoint depth (t : cty) : nat :=
    match t with
    | YBase _ => 0
    | YPtr t | YQual _ t => S (depth t)
    | YArr _ _ _ t => S (depth t)
    | YFun r ps _ => S (Nat.max (depth r) (fold_right (fun (p : option cty) m => match p with Some p => Nat.max (depth p) m | None => m end) 0 ps))
    end%nat.
  Lemma depth_in : forall ps p, In (Some p) ps ->
    (depth p <= fold_right (fun (p : option cty) m => match p with Some p => Nat.max (depth p) m | None => m end) 0 ps)%nat.
  Proof.
    induction ps as [|q ps IH]; intros p I; [destruct I|]. cbn. destruct I as [-> | I]; [lia|].
    specialize (IH p I). destruct q; lia.
  Qed.

  Lemma check_spec : forall n param t, (depth t < n)%nat -> adjusted t -> (param = true -> outer t) ->
    check param t = true <-> forall s, inside false s t -> satisfied s.
  Proof.
    induction n as [|n IH]; intros param t Hn A O; [lia|]. destruct t as [ws|t|q t|b st q t|r ps dots]; cbn [check].
    - split; [|reflexivity]. intros _ s I. inversion I. exact Logic.I.
    - cbn in Hn. rewrite (IH false t) by (try discriminate; try exact A; lia). split; intros H s I.
      + inversion I; subst; [exact Logic.I|auto].
      + apply H. constructor. exact I.
    - cbn in Hn. rewrite (IH param t); [|lia|exact A|].
      + split; intros H s I.
        * inversion I; subst; [exact Logic.I|auto].
        * apply H. constructor. exact I.
      + intros P. specialize (O P). destruct t; cbn in O |- *; tauto.
    - cbn in Hn.
      assert (F : param = false) by (destruct param; [destruct (O eq_refl)|reflexivity]). subst param.
      rewrite !andb_true_iff, (IH false t) by (try discriminate; try exact A; lia).
      rewrite orb_false_r, andb_true_iff, !negb_true_iff, incomplete_spec, zero_spec. split.
      + intros [[H1 [H2 H3]] [H4 H5]] s I. inversion I; subst; [|auto]. cbn. repeat split; auto.
        intros r ps dots ->. discriminate.
      + intros H. destruct (H _ (I_self false _)) as (H2 & H3 & H4 & H5). repeat split; auto.
        * intros s I. apply H. constructor. exact I.
        * destruct t; try reflexivity. exfalso. exact (H3 _ _ _ eq_refl).
    - cbn in Hn. destruct A as [_ A]. rewrite !andb_true_iff, !negb_true_iff, forallb_forall. split.
      + intros [[H1 H2] H3] s I. inversion I; subst.
        * cbn. split; [intros r' ps' dots' ->; discriminate|]. split; [intros n' st q e ->; discriminate|].
          intros p Ip. specialize (H3 _ Ip). cbn in H3. apply andb_true_iff in H3. destruct H3 as [_ H3].
          assert (C : negb (incomplete complete_base p) = true -> complete_type complete_base p).
          { rewrite negb_true_iff. apply incomplete_spec. }
          destruct p as [ws| | | |]; try (left; apply C; exact H3).
          destruct (void_base ws) eqn:V; [|left; apply C; exact H3].
          right. exists ws. repeat split; auto. apply Nat.eqb_eq in H3.
          destruct ps as [|p [|]]; cbn in H3; try discriminate. destruct Ip as [-> | []]. reflexivity.
        * match goal with Hp : In (Some p) ps |- _ => rename Hp into Ip end.
          pose proof (adjusted_in _ _ A Ip) as [Ap Op]. pose proof (depth_in _ _ Ip) as D.
          specialize (H3 _ Ip). cbn in H3. apply andb_true_iff in H3. destruct H3 as [H3 _].
          apply (proj1 (IH true p ltac:(lia) Ap (fun _ => Op)) H3). assumption.
        * discriminate.
      + intros H. destruct (H _ (I_self false _)) as (H1 & H2 & H3). split; [split|].
        * destruct r; try reflexivity. exfalso. exact (H1 _ _ _ eq_refl).
        * destruct r; try reflexivity. exfalso. exact (H2 _ _ _ _ eq_refl).
        * intros [p|] Ip; [|reflexivity]. pose proof (adjusted_in _ _ A Ip) as [Ap Op]. pose proof (depth_in _ _ Ip) as D.
          apply andb_true_iff. split.
          -- apply (IH true p ltac:(lia) Ap (fun _ => Op)). intros s I. apply H. eapply I_parameter; eauto.
          -- assert (C : complete_type complete_base p -> negb (incomplete complete_base p) = true).
             { rewrite negb_true_iff. apply incomplete_spec. }
             destruct (H3 _ Ip) as [H4 | (ws & -> & V & ->)].
             ++ apply C in H4. destruct p as [ws| | | |]; try exact H4. destruct (void_base ws) eqn:V; [|exact H4].
                cbn in H4. rewrite (void_incomplete _ V) in H4. discriminate.
             ++ rewrite V. reflexivity.
  Qed.

  (** A declared type is accepted exactly if every type it is made of, other than by way of a
      return type, meets the constraints of 6.7.6.2 and 6.7.6.3.  In full: with return types,
      and with lengths that are positive. *)
  Theorem c50_constraints_partial : forall constant L ws,
    check false (build constant L (YBase ws)) = true <->
    forall s, inside false s (build constant L (YBase ws)) -> satisfied s.
  Proof.
    intros constant L ws. eapply check_spec; [apply Nat.lt_succ_diag_r|apply build_adjusted|discriminate].
  Qed.
End Constraints.

(** [int f(int x[static 3])] is accepted, [int x[static 3]] and a function returning an array
    are not. *)
Definition known (ws : list word) : bool := match ws with [WSpec true 9] => false | _ => true end.
Definition void (ws : list word) : bool := match ws with [WSpec true 9] => true | _ => false end.
Example c50_constraints_example :
  let fixed := Array (Bounded (ENum 3)) true [] in
  check known void false (build value [Function [([int], [fixed])] false] (YBase [int])) = true /\
  check known void false (build value [fixed] (YBase [int])) = false /\
  check known void false (build value [Pointer []; Function [] false; Array Unbounded false []] (YBase [int])) = false.
Proof. repeat split. Qed.

(** A pointer to a function that returns a function, as return type, is accepted. *)
Theorem c50_return_type_refuted : exists L s,
  check known void false (build value L (YBase [int])) = true /\
  inside true s (build value L (YBase [int])) /\ ~ satisfied known void s.
Proof.
  exists [Function [] false; Pointer []; Function [] false; Function [] false].
  exists (YFun (YFun (YBase [int]) [] false) [] false). split; [reflexivity|]. split.
  - cbn. apply I_return; [reflexivity|]. apply I_pointer, I_self.
  - intros [H _]. exact (H _ _ _ eq_refl).
Qed.
(** So is an array of length zero. *)
Theorem c50_length_refuted : exists L,
  check known void false (build value L (YBase [int])) = true /\ ~ positive (build value L (YBase [int])).
Proof. exists [Array (Bounded (ENum 0)) false []]. split; [reflexivity|]. cbn. lia. Qed.

Print Assumptions c50_declarators_partial.
Print Assumptions c50_type_names_partial.
Print Assumptions c50_accepted.
Print Assumptions c50_accepted_type_names.
Print Assumptions c50_covered_standard.
Print Assumptions c50_unambiguous.
Print Assumptions c50_typedef_parameter_refuted.
Print Assumptions c50_typedef_parameter_name_refuted.
Print Assumptions c50_dereferenced_length_refuted.
Print Assumptions c50_constraints_partial.
Print Assumptions c50_return_type_refuted.
Print Assumptions c50_length_refuted.
