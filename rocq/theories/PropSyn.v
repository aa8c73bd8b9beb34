(** C57: declarations, statements and translation units are parsed as the grammar of the standard and the scope of typedef names say. *)
From Coq Require Import ZArith NArith List Bool Lia.
From Verif Require ParseModel ParseSpec ParseProofs.
From Verif Require Import SynModel SynSpec SynProofs SynFuel SynTerm SynExpr.
Import ListNotations.
Import ParseModel (punct(..), outcome(..)).

(** * For any parser of expressions *)
Section C57.
Context {ex : Type}.
Context (expression assignment constant : (Z -> bool) -> list tok -> outcome ex * list tok).
Context (Eexp Easg Econ : (Z -> bool) -> ex -> list tok -> Prop).
Notation unit_of := (translation_unit expression assignment constant).

(** The parser stops on all tokens, well-formed or not: from some number of steps on there is an answer, always the same *)
Theorem c57_stops : stopping expression -> stopping assignment -> stopping constant ->
  forall ts, exists o, o <> NoFuel /\ forall m, 3 * length ts + 3 <= m -> unit_of m ts = o.
Proof.
  intros H1 H2 H3 ts. exists (unit_of (enough ts) ts). pose proof (unit_stops _ _ _ H1 H2 H3 ts) as N. split; [exact N|].
  intros m L. apply (fuel_irrelevant _ _ _ _ _ _ _ eq_refl N L).
Qed.

Hypothesis Hexp : reads false expression Eexp.
Hypothesis Hasg : reads true assignment Easg.
Hypothesis Hcon : reads true constant Econ.
(** The tree of a unit is the one that the grammar derives *)
Theorem c57_unit_partial : stopping expression -> stopping assignment -> stopping constant -> forall xs ts,
  g_unit true Eexp Easg Econ start xs ts -> forall m, 3 * length ts + 3 <= m -> unit_of m ts = Ok xs.
Proof.
  intros H1 H2 H3 xs ts D m L. destruct (c57_stops H1 H2 H3 ts) as (o & N & A). rewrite (A m L).
  destruct (unit_complete _ _ _ _ _ _ Hexp Hasg Hcon xs ts D) as [n U].
  rewrite <- (A (m + n)) by lia. apply U. lia.
Qed.
(** No tokens have two trees *)
Theorem c57_unambiguous_partial : forall xs ys ts,
  g_unit true Eexp Easg Econ start xs ts -> g_unit true Eexp Easg Econ start ys ts -> xs = ys.
Proof.
  intros xs ys ts D D'. destruct (unit_complete _ _ _ _ _ _ Hexp Hasg Hcon xs ts D) as [n U].
  destruct (unit_complete _ _ _ _ _ _ Hexp Hasg Hcon ys ts D') as [n' U'].
  specialize (U (n + n') ltac:(lia)). specialize (U' (n + n') ltac:(lia)). congruence.
Qed.
(** An [else] belongs to the nearest [if] without one (6.8.4.1p3); at the start of a block, sc: the enclosing scopes *)
Theorem c57_else_partial : forall E e1 t1 e2 t2 s3 t3 E3 s4 t4 E4 sc rest,
  (forall x, is_typedef sc x = cls E x) -> Eexp (cls E) e1 t1 -> Eexp (cls E) e2 t2 ->
  g_stmt true Eexp Easg Econ E s3 t3 E3 -> opens s3 = false -> g_stmt true Eexp Easg Econ E3 s4 t4 E4 ->
  match rest with TKw KElse :: _ => False | _ => True end ->
  exists n, forall m, n <= m ->
    fst (parse expression assignment constant m _ GStmt
      (([] : block) :: sc, [TKw KIf; TP PLParen] ++ t1 ++ [TP PRParen; TKw KIf; TP PLParen] ++ t2 ++ [TP PRParen] ++ t3 ++ [TKw KElse] ++ t4 ++ rest))
    = Ok (SIf e1 (SIf e2 s3 (Some s4)) None).
Proof.
  intros E e1 t1 e2 t2 s3 t3 E3 s4 t4 E4 sc rest HI H1 H2 H3 Ho H4 Hn.
  destruct (proj1 (stmt_complete _ _ _ _ _ _ Hexp Hasg Hcon) E (SIf e1 (SIf e2 s3 (Some s4)) None)
    (TKw KIf :: TP PLParen :: t1 ++ TP PRParen :: TKw KIf :: TP PLParen :: t2 ++ TP PRParen :: t3 ++ TKw KElse :: t4) E4) with (sc := (([] : block) :: sc) : scope) (rest := rest)
    as (sc' & [n R1] & _ & _).
  - apply gw_if; [exact H1|]. eapply gw_if_else; eassumption.
  - exact (inv_enter E E sc HI (fun _ => eq_refl)).
  - intros _. exact Hn.
  - exists n. intros m L. specialize (R1 m L). cbn [app] in *. repeat (rewrite <- app_assoc in R1; cbn [app] in R1). exact (f_equal fst R1).
Qed.
End C57.

(** * With the parser of expressions *)
Lemma rule_stops : forall g, stopping (rule g).
Proof.
  intros g c ts. unfold rule. destruct spelled as [F1 F2 _ _ _ _ _ _].
  destruct (ParseProofs.run_E ety_rule einit_rule cfg F1 F2 g (map (classify c) ts)) as (_ & N & _).
  destruct (PM.run _ _ _ _ _) as [o r]. split; [exact N|]. intros e ts' H. injection H as _ <-. rewrite skipn_length. lia.
Qed.
(** [e_expression] .. are the rules of [ParseModel], [sp] the grammar of 6.5 *)
Definition c_unit (lim : bool) := g_unit lim (sp 0) (sp 1) (sp 2) start.
Definition parsed (ts : list tok) (o : outcome (list (ext (ex := expr)))) : Prop :=
  forall m, 3 * length ts + 3 <= m -> translation_unit e_expression e_assignment e_constant m ts = o.
Theorem c57_whole_partial : forall xs ts, c_unit true xs ts -> parsed ts (Ok xs).
Proof.
  intros xs ts H m L. eapply c57_unit_partial; [apply expression_reads|apply assignment_reads|apply constant_reads|apply rule_stops..|exact H|exact L].
Qed.
Theorem c57_whole_unambiguous_partial : forall xs ys ts, c_unit true xs ts -> c_unit true ys ts -> xs = ys.
Proof.
  intros xs ys ts. apply (c57_unambiguous_partial _ _ _ _ _ _ expression_reads assignment_reads constant_reads).
Qed.
Theorem c57_whole_stops : forall ts, exists o, o <> NoFuel /\ parsed ts o.
Proof. apply c57_stops; apply rule_stops. Qed.

(** ** A unit *)
(*   typedef int T;
     struct S { T a : 3; int *b; } s;
     enum E { A, B = 1, };
     T f(const T *x, int[], T ( * )(T, ...)) {
       T *i;
       for (int j = A; j; j) if (j) ; else { int T[1]; T; }
       do T: case 1: x = 1; while (x);
       return x * i;
     }
     int a[1][2] = { [0] = { 1 }, 2 }, *p = a; *)
Notation nT := 1%Z. Notation nS := 2%Z. Notation na := 3%Z. Notation nb := 4%Z. Notation ns := 5%Z. Notation nE := 6%Z. Notation nA := 7%Z.
Notation nB := 8%Z. Notation nf := 9%Z. Notation nx := 10%Z. Notation ni := 11%Z. Notation nj := 12%Z. Notation np := 13%Z.
Definition int : tok := TKw (KType 0).
Definition EN x : expr := PM.EName x.
Definition EC c : expr := PM.EConst c.
Definition sample_tokens : list tok :=
  [TKw KTypedef; int; TId nT; TSemi;
   TKw (KTag KStruct); TId nS; TP PLBrace; TId nT; TId na; TP PColon; TConst 3; TSemi; int; TP PStar; TId nb; TSemi; TP PRBrace; TId ns; TSemi;
   TKw (KTag KEnum); TId nE; TP PLBrace; TId nA; TP PComma; TId nB; TP PAssign; TConst 1; TP PComma; TP PRBrace; TSemi;
   TId nT; TId nf; TP PLParen; TKw (KQual 0); TId nT; TP PStar; TId nx; TP PComma; int; TP PLBracket; TP PRBracket; TP PComma;
     TId nT; TP PLParen; TP PStar; TP PRParen; TP PLParen; TId nT; TP PComma; TEllipsis; TP PRParen; TP PRParen; TP PLBrace;
     TId nT; TP PStar; TId ni; TSemi;
     TKw KFor; TP PLParen; int; TId nj; TP PAssign; TId nA; TSemi; TId nj; TSemi; TId nj; TP PRParen;
       TKw KIf; TP PLParen; TId nj; TP PRParen; TSemi; TKw KElse; TP PLBrace; int; TId nT; TP PLBracket; TConst 1; TP PRBracket; TSemi;
       TId nT; TSemi; TP PRBrace;
     TKw KDo; TId nT; TP PColon; TKw KCase; TConst 1; TP PColon; TId nx; TP PAssign; TConst 1; TSemi; TKw KWhile; TP PLParen; TId nx; TP PRParen; TSemi;
     TKw KReturn; TId nx; TP PStar; TId ni; TSemi; TP PRBrace;
   int; TId na; TP PLBracket; TConst 1; TP PRBracket; TP PLBracket; TConst 2; TP PRBracket; TP PAssign; TP PLBrace;
     TP PLBracket; TConst 0; TP PRBracket; TP PAssign; TP PLBrace; TConst 1; TP PRBrace; TP PComma; TConst 2; TP PRBrace; TP PComma;
     TP PStar; TId np; TP PAssign; TId na; TSemi]%Z.
Definition id x : declr (ex := expr) := DId (Some x).
Definition sample_tree : list (ext (ex := expr)) :=
  [XDecl (Decl [SpTypedef; SpType 0] [(id nT, None)]);
   XDecl (Decl [SpBody KStruct (Some nS) [Field [SpName nT] [(id na, Some (EC 3))]; Field [SpType 0] [(DPtr [] (id nb), None)]]] [(id ns, None)]);
   XDecl (Decl [SpEnum (Some nE) [(nA, None); (nB, Some (EC 1))]] []);
   XFun [SpName nT] (DFun [PDecl [SpQual (KQual 0); SpName nT] (DPtr [] (id nx)); PDecl [SpType 0] (DArr false [] AUnb (DId None));
                          PDecl [SpName nT] (DFun [PDecl [SpName nT] (DId None)] true (DPtr [] (DId None)))] false (id nf)) []
     [IDecl (Decl [SpName nT] [(DPtr [] (id ni), None)]);
      IStmt (SFor (FDecl (Decl [SpType 0] [(id nj, Some (IExpr (EN nA)))])) (Some (EN nj)) (Some (EN nj))
        (SIf (EN nj) (SExpr None) (Some (SBlock [IDecl (Decl [SpType 0] [(DArr false [] (ALen (EC 1)) (id nT), None)]); IStmt (SExpr (Some (EN nT)))]))));
      IStmt (SDo (SLabel nT (SCase (EC 1) (SExpr (Some (PM.EAssign PM.ASimple (EN nx) (EC 1)))))) (EN nx));
      IStmt (SReturn (Some (PM.EBin PM.OMul (EN nx) (EN ni))))];
   XDecl (Decl [SpType 0] [(DArr false [] (ALen (EC 2)) (DArr false [] (ALen (EC 1)) (id na)),
                            Some (IList [([DIndex (EC 0)], IList [([], IExpr (EC 1))]); ([], IExpr (EC 2))]));
                           (DPtr [] (id np), Some (IExpr (EN na)))])]%Z.

(** *** Its derivation *)
Lemma up : forall l t ts, l <= 16 -> ParseSpec.D ety_spell einit_spell 14 16 t ts -> ParseSpec.D ety_spell einit_spell 14 l t ts.
Proof.
  intros l t ts L H. remember (16 - l) as n eqn:Q. revert l L Q. induction n as [|n IH]; intros l L Q.
  - replace l with 16 by lia. exact H.
  - apply ParseSpec.D_up; [lia|]. apply IH; lia.
Qed.
Lemma sp_name : forall l c x, l <= 16 -> c x = false -> sp l c (PM.EName x) [TId x].
Proof. intros l c x L H. exists (ParseSpec.TrName x). split; [|reflexivity]. cbn. rewrite H. apply up; [exact L|constructor]. Qed.
Lemma sp_const : forall l c v, l <= 16 -> sp l c (PM.EConst v) [TConst v].
Proof. intros l c v L. exists (ParseSpec.TrConst v). split; [|reflexivity]. apply up; [exact L|constructor]. Qed.
Lemma sp_assign : forall c x v, c x = false -> sp 0 c (PM.EAssign PM.ASimple (PM.EName x) (PM.EConst v)) [TId x; TP PAssign; TConst v].
Proof.
  intros c x v H. exists (ParseSpec.TrAssign PM.ASimple (ParseSpec.TrName x) (ParseSpec.TrConst v)). split; [|reflexivity].
  apply ParseSpec.D_up; [lia|]. cbn. rewrite H. apply (ParseSpec.D_assign _ _ 14 PM.ASimple _ _ [_] [_]); apply up; try lia; constructor.
Qed.
Lemma sp_mul : forall c x y, c x = false -> c y = false -> sp 0 c (PM.EBin PM.OMul (PM.EName x) (PM.EName y)) [TId x; TP PStar; TId y].
Proof.
  intros c x y H H'. exists (ParseSpec.TrBin PM.OMul (ParseSpec.TrName x) (ParseSpec.TrName y)). split; [|reflexivity].
  do 12 (apply ParseSpec.D_up; [lia|]). cbn. rewrite H, H'. apply (ParseSpec.D_bin _ _ 14 PM.OMul _ _ [_] [_]); apply up; cbn; try lia; constructor.
Qed.
Lemma can : forall E x k, forallb (fun p => negb (Z.eqb x (fst p)) || Bool.eqb (snd p) k) (here E) = true ->
  (k = true -> existsb (Z.eqb x) (loops E) = false) -> can_declare true E x k.
Proof.
  intros E x k H L. split.
  - intros k' I. rewrite forallb_forall in H. specialize (H _ I). cbn in H. rewrite Z.eqb_refl in H. now apply Bool.eqb_prop in H.
  - intros K I. specialize (L K). apply not_true_iff_false in L. apply L. apply existsb_exists. exists x. split; [exact I|apply Z.eqb_refl].
Qed.
Lemma can_any : forall E x k, forallb (fun p => negb (Z.eqb x (fst p)) || Bool.eqb (snd p) k) (here E) = true -> can_declare false E x k.
Proof.
  intros E x k H. split; [|exact I]. intros k' I. rewrite forallb_forall in H. specialize (H _ I). cbn in H. rewrite Z.eqb_refl in H.
  now apply Bool.eqb_prop in H.
Qed.
Ltac agr := let x := fresh in let H := fresh in intros x H; cbn in H;
  repeat (destruct H as [H|H]; [try discriminate H; try (injection H as <-; reflexivity)|]); destruct H.
Ltac leaf := match goal with
  | |- sp _ _ (PM.EName _) _ => apply sp_name; [lia|reflexivity]
  | |- sp _ _ (EN _) _ => apply sp_name; [lia|reflexivity]
  | |- sp _ _ (PM.EConst _) _ => apply sp_const; lia
  | |- sp _ _ (EC _) _ => apply sp_const; lia
  | |- sp _ _ (PM.EAssign _ _ _) _ => apply sp_assign; reflexivity
  | |- sp _ _ (PM.EBin _ _ _) _ => apply sp_mul; reflexivity
  | |- limit false _ => exact I
  | |- can_declare false _ _ _ => apply can_any; reflexivity
  | |- can_declare _ _ _ _ => apply can; [reflexivity|first [discriminate|reflexivity]]
  | |- limit true (agree _ _ _) => agr
  | |- limit true (no_star _) => exact I
  | |- limit true (_ = _) => reflexivity
  | |- limit true (forall x, cls (add ?y _ _) x = _) => let x := fresh in intros x; cbn; destruct (Z.eqb_spec x y) as [->|]; reflexivity
  | |- limit true (forall x, In (x, true) _ -> _) => let H := fresh in intros ? H; cbn in H |- *; intuition congruence
  | |- limit true (forall x, In x (param_names _) -> _) =>
    let H := fresh in intros ? H; cbn in H; repeat (destruct H as [<-|H]; [reflexivity|]); destruct H
  | |- name_of _ = _ => reflexivity
  | |- has_type _ = true => reflexivity
  | |- _ <> [] => discriminate
  | |- forallb is_qual _ = true => reflexivity
  | |- _ = _ => reflexivity
  end.
Ltac grow := match goal with
  | |- g_spec1 _ _ _ (SpName _) _ => apply g1_name; reflexivity
  | |- g_spec1 _ _ _ _ _ => constructor
  | |- g_specs _ _ _ _ _ [] _ _ => apply gl_nil
  | |- g_specs _ _ _ _ _ (SpBody _ _ _ :: _) _ _ => eapply gl_body; [discriminate|discriminate|..]
  | |- g_specs _ _ _ _ _ (SpEnum _ _ :: _) _ _ => eapply (gl_enum _ _ _ _ _ _ _ _ _ _ _ _ true)
  | |- g_specs _ _ _ _ _ (_ :: _) _ _ => eapply gl_simple
  | |- g_simple _ _ _ [] _ => apply gs_nil
  | |- g_simple _ _ _ (_ :: _) _ => eapply gs_cons
  | |- g_fields _ _ _ _ [] _ _ => apply gf_nil
  | |- g_fields _ _ _ _ (_ :: _) _ _ => eapply gf_cons
  | |- g_fdecls _ _ _ _ [_] _ => apply gfd_last
  | |- g_fdecl _ _ _ _ _ None _ => apply gfw_plain
  | |- g_fdecl _ _ _ _ _ (Some _) _ => eapply gfw_bits
  | |- g_enums _ _ _ [_] _ _ => eapply ge_last
  | |- g_enums _ _ _ (_ :: _) _ _ => eapply ge_cons
  | |- g_value _ _ None _ => apply gv_none
  | |- g_value _ _ (Some _) _ => eapply gv_some
  | |- g_declr _ _ _ (DPtr _ _) _ => eapply gd_ptr
  | |- g_declr _ _ _ _ _ => apply gd_direct
  | |- g_direct _ _ _ (id _) _ => apply gi_id
  | |- g_direct _ _ _ (DId _) _ => apply gi_id
  | |- g_direct _ _ _ (DArr _ _ _ _) _ => eapply gi_arr
  | |- g_direct _ _ _ (DFun _ _ _) _ => eapply gi_fun
  | |- g_array _ _ _ _ _ AUnb _ => apply ga_unb
  | |- g_array _ _ _ _ _ (ALen _) _ => eapply ga_len
  | |- g_abs _ _ _ (DPtr _ _) _ => eapply gb_ptr
  | |- g_abs _ _ _ _ _ => apply gb_direct
  | |- g_dabs _ _ _ (DId None) _ => apply gx_nil
  | |- g_dabs _ _ _ (DArr _ _ _ _) _ => eapply gx_arr
  | |- g_dabs _ _ _ (DFun _ _ _) _ => eapply gx_fun
  | |- g_dabs _ _ _ (DPtr _ _) _ => eapply gx_paren
  | |- g_pars _ _ _ [] _ _ => apply gp_none
  | |- g_pars _ _ _ (_ :: _) _ _ => eapply gp_some
  | |- g_more _ _ _ [] true _ => apply gm_ell
  | |- g_more _ _ _ [] false _ => apply gm_nil
  | |- g_more _ _ _ (_ :: _) _ _ => eapply gm_cons
  | |- g_param _ _ _ (PDecl _ (DPtr _ (id _))) _ => eapply gq_named
  | |- g_param _ _ _ (PDecl _ (id _)) _ => eapply gq_named
  | |- g_param _ _ _ _ _ => eapply gq_abs
  | |- g_init _ _ _ (IExpr _) _ => eapply gn_expr
  | |- g_init _ _ _ (IList _) _ => eapply (gn_list _ _ _ _ _ false)
  | |- g_ilist _ _ _ [_] _ => eapply gnl_last
  | |- g_ilist _ _ _ (_ :: _) _ => eapply gnl_cons
  | |- g_designation _ _ [] _ => reflexivity
  | |- g_designation _ _ _ _ => eexists; split; [|reflexivity]
  | |- g_desigs _ _ [] _ => apply gz_nil
  | |- g_desigs _ _ (DIndex _ :: _) _ => eapply gz_index
  | |- g_inits _ _ _ _ _ _ [_] _ _ => eapply gt_last
  | |- g_inits _ _ _ _ _ _ (_ :: _) _ _ => eapply gt_cons
  | |- g_idecl _ _ _ _ _ _ _ _ None _ _ => eapply gid_plain
  | |- g_idecl _ _ _ _ _ _ _ _ (Some _) _ _ => eapply gid_init
  | |- g_decl _ _ _ _ (Decl _ []) _ _ => eapply gc_none
  | |- g_decl _ _ _ _ (Decl _ _) _ _ => eapply gc_some
  | |- g_opt _ _ None _ => apply go_none
  | |- g_opt _ _ (Some _) _ => eapply go_some
  | |- g_stmt _ _ _ _ _ (SLabel _ _) _ _ => eapply gw_label
  | |- g_stmt _ _ _ _ _ (SCase _ _) _ _ => eapply gw_case
  | |- g_stmt _ _ _ _ _ (SBlock _) _ _ => eapply gw_block
  | |- g_stmt _ _ _ _ _ (SExpr _) _ _ => eapply gw_expr
  | |- g_stmt _ _ _ _ _ (SIf _ _ None) _ _ => eapply gw_if
  | |- g_stmt _ _ _ _ _ (SIf _ _ (Some _)) _ _ => eapply gw_if_else
  | |- g_stmt _ _ _ _ _ (SDo _ _) _ _ => eapply gw_do
  | |- g_stmt _ _ _ _ _ (SFor _ _ _ _) _ _ => eapply gw_for
  | |- g_stmt _ _ _ _ _ (SReturn _) _ _ => eapply gw_return
  | |- g_finit _ _ _ _ _ (FDecl _) _ _ => eapply gx_decl
  | |- g_items _ _ _ _ _ [] _ _ => apply gm_none
  | |- g_items _ _ _ _ _ (IDecl _ :: _) _ _ => eapply gm_decl
  | |- g_items _ _ _ _ _ (IStmt _ :: _) _ _ => eapply gm_stmt
  | |- g_ext _ _ _ _ _ (XDecl _) _ _ => eapply gu_decl
  | |- g_ext _ _ _ _ _ (XFun _ _ [] _) _ _ => eapply gu_fun
  | |- g_unit _ _ _ _ _ [_] _ => eapply gk_last
  | |- g_unit _ _ _ _ _ (_ :: _) _ => eapply gk_cons
  end.
Ltac derive := repeat first [grow|leaf].
Example sample_derived : c_unit true sample_tree sample_tokens.
Proof.
  assert (H : exists ts, c_unit true sample_tree ts /\ ts = sample_tokens); [|destruct H as (ts & H & <-); exact H].
  eexists. split; [unfold c_unit, sample_tree; derive|].
  reflexivity.
Qed.

(** ** Units of the standard that get another tree or none *)
(** [ts]: a unit of the standard; [xs]: its tree; [o]: the answer of the parser *)
Definition misread (ts : list tok) (xs : list (ext (ex := expr))) (o : outcome (list (ext (ex := expr)))) : Prop :=
  c_unit false xs ts /\ parsed ts o /\ o <> Ok xs.
Definition tT : list tok := [TKw KTypedef; int; TId nT; TSemi].
Definition xT : ext (ex := expr) := XDecl (Decl [SpTypedef; SpType 0] [(id nT, None)]).
Definition body (its : list item) : ext (ex := expr) := XFun [SpType 0] (DFun [] false (id nf)) [] its.
Definition tbody (ts : list tok) : list tok := [int; TId nf; TP PLParen; TP PRParen; TP PLBrace] ++ ts ++ [TP PRBrace].

Ltac derived t := match goal with |- c_unit ?l ?xs ?ts =>
  let H := fresh in assert (H : exists ts', c_unit l xs ts' /\ ts' = ts); [|destruct H as (? & H & <-); exact H];
  eexists; split; [unfold c_unit, xT, body; derive; t|reflexivity] end.
Ltac computed := match goal with |- parsed ?ts ?o => let m := fresh in let L := fresh in intros m L;
  apply (fuel_irrelevant _ _ _ (enough ts) m ts o); [vm_compute; reflexivity|discriminate|exact L] end.
(** An identifier is in scope after its declarator (6.2.1p7), the parser takes it as declared after the whole declaration:
    [typedef int T; int f() { int T, a = T; }] is rejected *)
Theorem c57_scope_refuted :
  misread (tT ++ tbody [int; TId nT; TP PComma; TId na; TP PAssign; TId nT; TSemi])
    [xT; body [IDecl (Decl [SpType 0] [(id nT, None); (id na, Some (IExpr (EN nT)))])]] Syntax.
Proof. split; [derived idtac|split; [computed|discriminate]]. Qed.
(** The parameters of a function are in scope in its body (6.2.1p4), for the parser they are not: in
    [typedef int T; int f(int T) { T; }] the body is a declaration without declarators instead of an expression *)
Theorem c57_parameter_refuted :
  let f its := XFun [SpType 0] (DFun [PDecl [SpType 0] (id nT)] false (id nf)) [] its in
  misread (tT ++ [int; TId nf; TP PLParen; int; TId nT; TP PRParen; TP PLBrace; TId nT; TSemi; TP PRBrace])
    [xT; f [IStmt (SExpr (Some (EN nT)))]] (Ok [xT; f [IDecl (Decl [SpName nT] [])]]).
Proof. cbv zeta. split; [derived idtac|split; [computed|discriminate]]. Qed.
(** What a loop declares is gone after it (6.8.5p5). For the parser it is declared in the enclosing block:
    [int f() { for (int T; ; ) ; typedef int T; }] and [typedef int T; int f() { for (int T; ; ) ; T x; }] are rejected *)
Theorem c57_loop_refuted :
  misread (tbody ([TKw KFor; TP PLParen; int; TId nT; TSemi; TSemi; TP PRParen; TSemi] ++ tT))
    [body [IStmt (SFor (FDecl (Decl [SpType 0] [(id nT, None)])) None None (SExpr None)); IDecl (Decl [SpTypedef; SpType 0] [(id nT, None)])]] Syntax.
Proof. split; [derived idtac|split; [computed|discriminate]]. Qed.
Theorem c57_loop_hides_refuted :
  misread (tT ++ tbody [TKw KFor; TP PLParen; int; TId nT; TSemi; TSemi; TP PRParen; TSemi; TId nT; TId nx; TSemi])
    [xT; body [IStmt (SFor (FDecl (Decl [SpType 0] [(id nT, None)])) None None (SExpr None)); IDecl (Decl [SpName nT] [(id nx, None)])]] Syntax.
Proof. split; [derived idtac|split; [computed|discriminate]]. Qed.
(** So are the parameters of an old-style function after its definition: [int f(x) int x; {} typedef int x;] is rejected *)
Theorem c57_old_style_refuted :
  misread ([int; TId nf; TP PLParen; TId nx; TP PRParen; int; TId nx; TSemi; TP PLBrace; TP PRBrace; TKw KTypedef; int; TId nx; TSemi])
    [XFun [SpType 0] (DFun [PName nx] false (id nf)) [Decl [SpType 0] [(id nx, None)]] []; XDecl (Decl [SpTypedef; SpType 0] [(id nx, None)])] Syntax.
Proof.
  split; [|split; [computed|discriminate]].
  match goal with |- c_unit ?l ?xs ?ts => assert (H : exists ts', c_unit l xs ts' /\ ts' = ts); [|destruct H as (? & H & <-); exact H] end.
  eexists. split; [unfold c_unit; eapply gk_cons; [eapply gu_old; [reflexivity|..]|]; derive|reflexivity].
Qed.
(** Labels have a name space of their own (6.2.3): [typedef int T; int f() { T: ; }] is rejected *)
Theorem c57_label_refuted :
  misread (tT ++ tbody [TId nT; TP PColon; TSemi])
    [xT; body [IStmt (SLabel nT (SExpr None))]] Syntax.
Proof. split; [derived idtac|split; [computed|discriminate]]. Qed.
(** An identifier in a parameter declaration that can be taken as a typedef name or as a parameter name is a typedef name
    (6.7.6.3p11). The parser makes it the name: in [typedef int T; int f(int (T));] the parameter is a function *)
Theorem c57_parameter_type_refuted :
  let f p := XDecl (Decl [SpType 0] [(DFun [PDecl [SpType 0] p] false (id nf), None)]) in
  misread (tT ++ [int; TId nf; TP PLParen; int; TP PLParen; TId nT; TP PRParen; TP PRParen; TSemi])
    [xT; f (DFun [PDecl [SpName nT] (DId None)] false (DId None))] (Ok [xT; f (id nT)]).
Proof. cbv zeta. split; [derived idtac|split; [computed|discriminate]]. Qed.
(** [_Atomic(int) x;] (6.7.2.4) is rejected: the closing parenthesis is never read *)
Theorem c57_atomic_refuted :
  misread ([TKw KAtomic; TP PLParen; int; TP PRParen; TId nx; TSemi])
    [XDecl (Decl [SpAtomic (TName [SpType 0] (DId None))] [(id nx, None)])] Syntax.
Proof. split; [derived ltac:(apply g1_atomic; reflexivity)|split; [computed|discriminate]]. Qed.
(** [int x, a[*x];]: an asterisk after the bracket is taken for an unspecified length; a dereference is rejected *)
Theorem c57_length_refuted :
  misread ([int; TP PStar; TId nx; TP PComma; TId na; TP PLBracket; TP PStar; TId nx; TP PRBracket; TSemi])
    [XDecl (Decl [SpType 0] [(DPtr [] (id nx), None); (DArr false [] (ALen (PM.EUn PM.OIndirect (EN nx))) (id na), None)])] Syntax.
Proof.
  split; [derived ltac:(try (exists (ParseSpec.TrUn ParseSpec.UDeref (ParseSpec.TrName nx)); split; [|reflexivity];
    do 13 (apply ParseSpec.D_up; [lia|]); instantiate (1 := [TP PStar; TId nx]);
    apply (ParseSpec.D_un _ _ 14 ParseSpec.UDeref _ [_]); apply up; [lia|constructor]))|split; [computed|discriminate]].
Qed.

(** The hypotheses of [c57_else_partial] hold of [if (x) if (x) ; else return;] *)
Example c57_else_sample : forall sc, (forall x, is_typedef sc x = cls start x) ->
  exists n, forall m, n <= m ->
    fst (parse e_expression e_assignment e_constant m _ GStmt
      (([] : block) :: sc, [TKw KIf; TP PLParen; TId nx; TP PRParen; TKw KIf; TP PLParen; TId nx; TP PRParen; TSemi; TKw KElse; TKw KReturn; TSemi; TP PRBrace]))
    = Ok (SIf (EN nx) (SIf (EN nx) (SExpr None) (Some (SReturn None))) None).
Proof.
  intros sc H. apply (c57_else_partial _ _ _ _ _ _ expression_reads assignment_reads constant_reads start (EN nx) [TId nx] (EN nx) [TId nx]
    (SExpr None) ([] ++ [TSemi]) start (SReturn None) (TKw KReturn :: [] ++ [TSemi]) start sc [TP PRBrace]); try exact H; try exact I; try reflexivity; derive.
Qed.

Print Assumptions c57_stops.
Print Assumptions c57_unit_partial.
Print Assumptions c57_unambiguous_partial.
Print Assumptions c57_else_partial.
Print Assumptions c57_whole_partial.
Print Assumptions c57_whole_unambiguous_partial.
Print Assumptions c57_whole_stops.
Print Assumptions sample_derived.
Print Assumptions c57_scope_refuted.
Print Assumptions c57_parameter_refuted.
Print Assumptions c57_loop_refuted.
Print Assumptions c57_loop_hides_refuted.
Print Assumptions c57_old_style_refuted.
Print Assumptions c57_label_refuted.
Print Assumptions c57_parameter_type_refuted.
Print Assumptions c57_atomic_refuted.
Print Assumptions c57_length_refuted.
