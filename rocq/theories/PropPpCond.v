(** C56: conditions of #if and #elif. *)
From Coq Require Import ZArith Bool List String Lia PeanoNat.
From Coq Require Import ZifyBool ZifyNat.
From Verif Require Import CTypes Bits LexModel MacroModel CSem ExprCompile ExprProofs ConstEval.
From Verif Require Import MacroSpec MacroProofs PropMacro PropIntConst PpCondModel PpCondSpec PpCondProofs.
From Verif Require ParseModel ParseSpec PropParse.
Import ListNotations.
Open Scope Z_scope.

(** ** The line after macro replacement *)

Section C56.
Variable literal : nat -> option (ity * Z).
Context {ty ini : Type} (type_name : ParseModel.parser ty) (initializer_list : ParseModel.parser ini) (cfg : ParseModel.config).
Context (ty_spell : ty -> list ParseModel.tok) (ini_spell : ini -> list ParseModel.tok).
Hypothesis sp : PropParse.spelling type_name initializer_list ty_spell ini_spell.
Variable E : senv.
Notation evaluate := (evaluate_tokens literal type_name initializer_list cfg E).

Lemma kx_typed : forall e, suffixed e = true -> valid e = true -> ktype_of E (kx e) <> None.
Proof.
  intros e S V. destruct (ktype_sim E _ _ (cit_ctype E _ (kx_const e S V))) as (k & K & _). congruence.
Qed.

(** The part of the line that is an expression decides, whatever follows it. *)
Lemma evaluate_prefix : forall e ts l rest xs, phrase literal 2 e ts -> valid e = true ->
  spaces_out l = ts ++ rest -> convert_buffer literal rest = Some xs -> ParseSpec.stops 0 xs ->
  evaluate l = match keval E (kx e) with OVal z => of_bool (negb (z =? 0)) | OErr => CError | OUB => CUndef end.
Proof.
  intros e ts l rest xs P V L R St. unfold evaluate_tokens. rewrite <- convert_spaces, L.
  destruct (phrase_derives literal ty_spell ini_spell _ _ _ P V) as (ys & C & D).
  rewrite (convert_app _ _ _ _ _ C R).
  assert (D0 : ParseSpec.D ty_spell ini_spell 14 0 (tree_of e) ys) by (eapply (D_lift literal); [| |exact D]; lia).
  rewrite (PropParse.c14_parses_partial _ _ cfg _ _ sp _ _ _ D0 St). cbn [fst]. rewrite node_expr.
  pose proof (phrase_suffixed _ _ _ _ P) as S. pose proof (kx_typed e S V) as K.
  destruct (ktype_of E (kx e)); [reflexivity|contradiction K; reflexivity].
Qed.
Lemma evaluate_whole : forall e l, phrase literal 2 e (spaces_out l) -> valid e = true ->
  evaluate l = match keval E (kx e) with OVal z => of_bool (negb (z =? 0)) | OErr => CError | OUB => CUndef end.
Proof. intros e l P V. eapply evaluate_prefix; try eassumption; [symmetry; apply app_nil_r|reflexivity|exact I]. Qed.

Theorem c56_tokens_partial : forall e l v, phrase literal 2 e (spaces_out l) -> valid e = true -> agrees e = true ->
  pvalue e = Some v -> evaluate l = of_bool (negb (v =? 0)).
Proof.
  intros e l v P V A H. rewrite (evaluate_whole e l P V). destruct (value_ok E e v) as [-> R]; auto.
  - eapply phrase_suffixed. exact P.
  - rewrite (s64_zero _ _ R). reflexivity.
Qed.

(** With constants that are signed in phase 7 no more is asked for. *)
Theorem c56_signed_partial : forall e l v, phrase literal 2 e (spaces_out l) -> valid e = true -> signed_constants e = true ->
  pvalue e = Some v -> evaluate l = of_bool (negb (v =? 0)).
Proof.
  intros e l v P V A H. eapply c56_tokens_partial; try eassumption. apply signed_agrees; auto.
  eapply phrase_suffixed. exact P.
Qed.

(** ** The line as it is written *)

Variable fmt : list tok -> string.
Notation condition := (condition literal fmt type_name initializer_list cfg E).

Definition no_ids (l : list tok) : Prop := forall s b, ~ In (TId s b) l.
Lemma no_ids_tail : forall t l, no_ids (t :: l) -> no_ids l.
Proof. intros t l N s b I. exact (N s b (or_intror I)). Qed.
Lemma pragmas_no_ids : forall n l, no_ids l -> (List.length l <= n)%nat -> pragmas n l = Ok l.
Proof.
  induction n as [|n IH]; intros l N L; (destruct l as [|t l]; [reflexivity|]); cbn [List.length] in L; [lia|].
  pose proof (IH l (no_ids_tail _ _ N) ltac:(lia)) as Q. destruct t; cbn [pragmas]; rewrite ?Q; try reflexivity.
  exfalso. eapply N. left. reflexivity.
Qed.
Lemma zero_no_ids : forall l, no_ids (map zero l).
Proof. intros l s b I. apply in_map_iff in I. destruct I as (t & Q & _). destruct t; discriminate. Qed.
Lemma unpragma_no_ids : forall l r, unpragma l r -> no_ids l -> r = l.
Proof.
  induction 1 as [|t l l' N U IH|]; intro I; [reflexivity|f_equal; apply IH; eapply no_ids_tail; exact I|].
  exfalso. eapply I. left. reflexivity.
Qed.
Lemma erase_zero : forall r e, map erase r = map zero e -> r = map zero e.
Proof.
  intros r e H. rewrite <- H. assert (N : no_ids (map erase r)) by (rewrite H; apply zero_no_ids). clear H.
  induction r as [|t r IH]; [reflexivity|]. cbn [map] in *. rewrite <- IH by (eapply no_ids_tail; exact N).
  destruct t; try reflexivity. exfalso. eapply N. left. reflexivity.
Qed.

Section Macros.
Variable defs : list (string * macro).

Lemma run_no_ids : objects defs -> forall f l x, run fmt defs f true l = Ok x -> no_ids x.
Proof.
  intro Ho. induction f as [|f IH]; intros l x H; [discriminate|]. destruct l as [|t r].
  { cbn in H. injection H as <-. intros s b []. }
  assert (G : forall t0, (forall s b, t0 <> TId s b) -> bind (run fmt defs f true r) (fun res => Ok (t0 :: res)) = Ok x -> no_ids x).
  { intros t0 N Q. destruct (run fmt defs f true r) as [y| |] eqn:R; try discriminate. cbn [bind] in Q. injection Q as <-.
    intros s b [I|I]; [exact (N _ _ I)|]. exact (IH _ _ R s b I). }
  destruct t as [s b| | | | | | |]; try (rewrite run_tok in H by discriminate; eapply G; [|exact H]; discriminate).
  rewrite run_id, orb_true_r in H. destruct (String.eqb s "defined" && true)%bool.
  { destruct (defined_operator defs r); [|discriminate]. eapply IH; exact H. }
  destruct (locate defs s) as [m|] eqn:L; [|eapply IH; exact H].
  destruct (Ho _ _ L) as (body & -> & _). destruct (apply_object fmt f s body); try discriminate. eapply IH; exact H.
Qed.

(** [ts]: the line; [ts']: its defined operators evaluated; [l]: its macros replaced. *)
Lemma substituted : forall ts ts' l, objects defs -> plain defs true ->
  (forall s body, locate defs s = Some (MObj body) -> exists body', pastes body body') ->
  source ts -> resolves defs ts ts' -> expands defs [] ts' l ->
  forall fuel, run_substitutions fmt defs fuel true ts = Fuel \/ run_substitutions fmt defs fuel true ts = Ok (map zero l).
Proof.
  intros ts ts' l Ho Hp Hb Hs R X fuel. destruct (run_substitutions fmt defs fuel true ts) as [r| |] eqn:Q; [right|exfalso|now left].
  - destruct (c11_result fmt defs true fuel ts r Ho Hp Hs Q) as (t2 & l2 & P2 & X2 & U).
    cbn [prepared] in P2. assert (t2 = ts') by (eapply resolves_fun; eassumption). subst t2.
    assert (l2 = l) by (eapply c11_standard_unique; eassumption). subst l2. cbn [concluded] in U.
    apply unpragma_no_ids in U; [|apply zero_no_ids]. f_equal. apply erase_zero. exact U.
  - unfold run_substitutions in Q. destruct (run fmt defs fuel true ts) as [x| |] eqn:Rn; try discriminate.
    + cbn [bind] in Q. rewrite pragmas_no_ids in Q; [discriminate|eapply run_no_ids; eassumption|lia].
    + eapply (run_no_error fmt defs true Ho Hp Hb); [|exact Rn]. intros _. eauto.
Qed.

(** Object-like macros: if no macro names itself, directly or not, the condition is decided
    and is that of the standard. *)
Theorem c56_line_partial : forall ts ts' l e v, objects defs -> plain defs true ->
  (forall s body, locate defs s = Some (MObj body) -> exists body', pastes body body') ->
  source ts -> resolves defs ts ts' -> expands defs [] ts' l ->
  (forall s, In (TId s false) ts' -> is_macro defs s = true -> Acc (fun y x => mentions defs true x y) s) ->
  phrase literal 2 e (spaces_out (map zero l)) -> valid e = true -> agrees e = true -> pvalue e = Some v ->
  (exists fuel, condition defs fuel ts <> CFuel) /\
  forall fuel, condition defs fuel ts <> CFuel -> condition defs fuel ts = of_bool (negb (v =? 0)).
Proof.
  intros ts ts' l e v Ho Hp Hb Hs R X Ac P V A H.
  assert (Q : forall fuel, run_substitutions fmt defs fuel true ts = Ok (map zero l) ->
            condition defs fuel ts = of_bool (negb (v =? 0))).
  { intros fuel Q. unfold condition. rewrite Q. eapply c56_tokens_partial; eassumption. }
  pose proof (substituted ts ts' l Ho Hp Hb Hs R X) as W. split.
  - destruct (proj2 (c11_terminates_iff fmt defs true ts ts' Ho Hp Hb Hs R) Ac) as [fuel F]. exists fuel.
    destruct (W fuel) as [W1|W1]; [contradiction|]. rewrite (Q _ W1). destruct (v =? 0); discriminate.
  - intros fuel N. destruct (W fuel) as [W1|W1]; [|exact (Q _ W1)]. exfalso. apply N. unfold condition. now rewrite W1.
Qed.

(** Lines without macro names, whatever macros there are: identifiers count as 0, the
    operator defined tells what is a macro. *)
Lemma run_plain : forall ts ts', resolves defs ts ts' -> (forall s b, In (TId s b) ts' -> is_macro defs s = false) ->
  forall f, (2 * List.length ts < f)%nat -> run fmt defs f true ts = Ok (map zero ts').
Proof.
  induction 1 as [|t l l' N R IH|b s1 x y l l' S1 R IH|b s1 s2 s3 x y l l' S1 S2 S3 R IH]; intros M f F.
  - destruct f; [lia|]. reflexivity.
  - cbn [List.length] in F. destruct f as [|[|f]]; [lia|lia|].
    assert (M' : forall s b, In (TId s b) l' -> is_macro defs s = false) by (intros s b I; apply (M s b); right; exact I).
    destruct t as [s b| | | | | | |];
      try (rewrite run_tok by discriminate; rewrite IH by (auto; lia); reflexivity).
    rewrite run_id, orb_true_r. destruct (String.eqb s "defined") eqn:D.
    { apply String.eqb_eq in D. subst s. exfalso. eapply N. reflexivity. }
    cbn [andb]. specialize (M s b (or_introl eq_refl)). unfold is_macro in M. destruct (locate defs s); [discriminate|].
    rewrite run_tok by discriminate. rewrite IH by (auto; lia). reflexivity.
  - cbn [List.length] in F. rewrite app_length in F. cbn [List.length] in F. destruct f as [|[|f]]; [lia|lia|].
    rewrite run_id, orb_true_r. cbn [String.eqb Ascii.eqb Bool.eqb andb]. rewrite defined_name by assumption.
    rewrite run_tok by discriminate. rewrite IH; [reflexivity| |lia]. intros s c I. apply (M s c). right. exact I.
  - cbn [List.length] in F. rewrite app_length in F. cbn [List.length] in F. rewrite app_length in F. cbn [List.length] in F.
    rewrite app_length in F. cbn [List.length] in F. destruct f as [|[|f]]; [lia|lia|].
    rewrite run_id, orb_true_r. cbn [String.eqb Ascii.eqb Bool.eqb andb]. rewrite defined_paren by assumption.
    rewrite run_tok by discriminate. rewrite IH; [reflexivity| |lia]. intros s c I. apply (M s c). right. exact I.
Qed.

Theorem c56_no_macros_partial : forall ts ts' e v, resolves defs ts ts' ->
  (forall s b, In (TId s b) ts' -> is_macro defs s = false) ->
  phrase literal 2 e (spaces_out (map zero ts')) -> valid e = true -> agrees e = true -> pvalue e = Some v ->
  forall fuel, (2 * List.length ts < fuel)%nat -> condition defs fuel ts = of_bool (negb (v =? 0)).
Proof.
  intros ts ts' e v R M P V A H fuel F. unfold condition, run_substitutions. rewrite (run_plain _ _ R M _ F). cbn [bind].
  rewrite pragmas_no_ids; [|apply zero_no_ids|lia]. eapply c56_tokens_partial; eassumption.
Qed.
End Macros.
End C56.

(** ** Concrete cases *)

Fixpoint digits_value (b : Z) (w : list Z) (acc : Z) : option Z :=
  match w with
  | [] => Some acc
  | c :: w => match digit_value c with Some d => if d <? b then digits_value b w (acc * b + d) else None | None => None end
  end.
Lemma digits_number : forall b w x acc v, number b x acc -> digits_value b w acc = Some v -> number b (x ++ w) v.
Proof.
  induction w as [|c w IH]; intros x acc v N H; cbn in H; [injection H as <-; now rewrite app_nil_r|].
  destruct (digit_value c) as [d|] eqn:D; [|discriminate]. destruct (d <? b) eqn:L; [|discriminate].
  replace (x ++ c :: w) with ((x ++ [c]) ++ w) by now rewrite <- app_assoc. eapply IH; [|exact H].
  constructor; auto. lia.
Qed.
Lemma number_of : forall b w v, digits_value b w 0 = Some v -> number b w v.
Proof. intros b w v H. exact (digits_number b w [] 0 v (num_nil b) H). Qed.

Definition P := TPunct.
Definition sp_ := TWs false.
Ltac decimal w s := eapply (Ph_num _ _ (text w) (text s) true); [reflexivity|apply const_dec; [apply number_of; vm_compute; reflexivity|discriminate]|].
Ltac hexadecimal w s := eapply (Ph_num _ _ (text w) (text s) false); [reflexivity|apply const_hex; [apply number_of; vm_compute; reflexivity|discriminate|cbn; tauto]|].
Ltac octal w s := eapply (Ph_num _ _ (text w) (text s) false); [reflexivity|apply const_oct; apply number_of; vm_compute; reflexivity|].
Ltac up n := match n with 0%nat => idtac | S ?k => apply Ph_up; [lia|]; up k end.
Ltac none := apply suf_none.
Ltac suffix_u := apply suf_u; split; [cbn; tauto|reflexivity].
Ltac suffix_l := apply suf_l; left; split; [cbn; tauto|reflexivity].

Definition one := PNum true false 0 1.

(** ( 1 + X ) * 2 == 6 >> defined ( X ), where X is 2 *)
Definition macros : list (string * macro) := [("X", MObj [TNum "2"]); ("F", MFun ["a"] false [TId "a" false])]%string.
Definition line : list tok :=
  [sp_; P P_LEFT_PARENTHESE; TNum "1"; sp_; P P_PLUS; sp_; TId "Y" false; P P_RIGHT_PARENTHESE; P P_STAR; TNum "2"; sp_;
   P P_EQUAL; sp_; TNum "4"; sp_; P P_RIGHT_SHIFT; TId "defined" false; sp_; P P_LEFT_PARENTHESE; TId "X" false; sp_;
   P P_RIGHT_PARENTHESE]%string.
Definition line_resolved : list tok :=
  [sp_; P P_LEFT_PARENTHESE; TNum "1"; sp_; P P_PLUS; sp_; TId "Y" false; P P_RIGHT_PARENTHESE; P P_STAR; TNum "2"; sp_;
   P P_EQUAL; sp_; TNum "4"; sp_; P P_RIGHT_SHIFT; TNum "1"]%string.
Definition line_expr : pexpr :=
  PBin QEq (PBin QMul (PBin QAdd one (PNum false false 0 0)) (PNum true false 0 2))
    (PBin QShr (PNum true false 0 4) one).
Lemma spaces_nil : spaces [].
Proof. intros t []. Qed.
Lemma spaces_one : spaces [sp_].
Proof. intros t [<-|[]]. reflexivity. Qed.
Example line_resolves : resolves macros line line_resolved.
Proof.
  unfold line, line_resolved. do 16 (apply R_keep; [discriminate|]).
  apply (R_paren macros false [sp_] [] [sp_] "X" false [] []); auto using spaces_nil, spaces_one. constructor.
Qed.
Example line_phrase : forall literal, phrase literal 2 line_expr (spaces_out (map zero line_resolved)).
Proof.
  intro literal. cbn -[text]. up 6%nat.
  apply (Ph_bin literal QEq _ _ [P P_LEFT_PARENTHESE; TNum "1"; P P_PLUS; TNum "0"; P P_RIGHT_PARENTHESE; P P_STAR; TNum "2"]%string
           [TNum "4"; P P_RIGHT_SHIFT; TNum "1"]%string); cbn [pbin_level].
  - up 4%nat.
    apply (Ph_bin literal QMul _ _ [P P_LEFT_PARENTHESE; TNum "1"; P P_PLUS; TNum "0"; P P_RIGHT_PARENTHESE]%string [TNum "2"]%string); cbn [pbin_level].
    + up 4%nat. apply (Ph_paren literal _ [TNum "1"; P P_PLUS; TNum "0"]%string). up 9%nat.
      apply (Ph_bin literal QAdd _ _ [TNum "1"]%string [TNum "0"]%string); cbn [pbin_level].
      * up 5%nat. decimal "1"%string ""%string. none.
      * up 4%nat. octal "0"%string ""%string. none.
    + up 3%nat. decimal "2"%string ""%string. none.
  - up 1%nat. apply (Ph_bin literal QShr _ _ [TNum "4"]%string [TNum "1"]%string); cbn [pbin_level].
    + up 6%nat. decimal "4"%string ""%string. none.
    + up 5%nat. decimal "1"%string ""%string. none.
Qed.
Example line_met : forall literal fmt cfg E fuel, (100 < fuel)%nat ->
  condition literal fmt PropParse.ty_rule PropParse.init_rule cfg E macros fuel line = CTrue.
Proof.
  intros. rewrite (c56_no_macros_partial literal _ _ cfg _ _ PropParse.c14_hypotheses E fmt macros line line_resolved line_expr 1);
    try reflexivity.
  - apply line_resolves.
  - intros s b I. unfold line_resolved in I. repeat (destruct I as [I|I]; [try discriminate I; try (injection I as <- _; reflexivity)|]). destruct I.
  - apply line_phrase.
  - cbn [line List.length]. lia.
Qed.

(** X + 1 > A, where X is 2 and A is ( X - 1 ) *)
Definition macros2 : list (string * macro) :=
  [("X", MObj [TNum "2"]); ("A", MObj [P P_LEFT_PARENTHESE; TId "X" false; P P_MINUS; TNum "1"; P P_RIGHT_PARENTHESE])]%string.
Definition line2 : list tok := [TId "X" false; P P_PLUS; TNum "1"; sp_; P P_GREATER_THAN; sp_; TId "A" false]%string.
Definition line2_expanded : list tok :=
  [TNum "2"; P P_PLUS; TNum "1"; sp_; P P_GREATER_THAN; sp_; P P_LEFT_PARENTHESE; TNum "2"; P P_MINUS; TNum "1"; P P_RIGHT_PARENTHESE]%string.
Definition line2_expr : pexpr :=
  PBin QGt (PBin QAdd (PNum true false 0 2) one) (PBin QSub (PNum true false 0 2) one).
Example line2_phrase : forall literal, phrase literal 2 line2_expr (spaces_out (map zero line2_expanded)).
Proof.
  intro literal. cbn -[text]. up 7%nat.
  apply (Ph_bin literal QGt _ _ [TNum "2"; P P_PLUS; TNum "1"]%string [P P_LEFT_PARENTHESE; TNum "2"; P P_MINUS; TNum "1"; P P_RIGHT_PARENTHESE]%string); cbn [pbin_level].
  - up 2%nat. apply (Ph_bin literal QAdd _ _ [TNum "2"]%string [TNum "1"]%string); cbn [pbin_level].
    + up 5%nat. decimal "2"%string ""%string. none.
    + up 4%nat. decimal "1"%string ""%string. none.
  - up 6%nat. apply (Ph_paren literal _ [TNum "2"; P P_MINUS; TNum "1"]%string). up 9%nat.
    apply (Ph_bin literal QSub _ _ [TNum "2"]%string [TNum "1"]%string); cbn [pbin_level].
    + up 5%nat. decimal "2"%string ""%string. none.
    + up 4%nat. decimal "1"%string ""%string. none.
Qed.

Example line2_met : forall literal fmt cfg E,
  (exists fuel, condition literal fmt PropParse.ty_rule PropParse.init_rule cfg E macros2 fuel line2 <> CFuel) /\
  forall fuel, condition literal fmt PropParse.ty_rule PropParse.init_rule cfg E macros2 fuel line2 <> CFuel ->
    condition literal fmt PropParse.ty_rule PropParse.init_rule cfg E macros2 fuel line2 = CTrue.
Proof.
  intros literal fmt cfg E.
  assert (Loc : forall s m, locate macros2 s = Some m ->
    s = "X"%string /\ m = MObj [TNum "2"]%string \/
    s = "A"%string /\ m = MObj [P P_LEFT_PARENTHESE; TId "X" false; P P_MINUS; TNum "1"; P P_RIGHT_PARENTHESE]%string).
  { intros s m H. unfold locate, macros2 in H. cbn [locate_in] in H.
    destruct (String.eqb "X" s) eqn:Ex; [apply String.eqb_eq in Ex; injection H as <-; subst s; left; auto|].
    destruct (String.eqb "A" s) eqn:Ea; [apply String.eqb_eq in Ea; injection H as <-; subst s; right; auto|discriminate]. }
  assert (Keep : forall l, (forall t, In t l -> t <> TPunct P_DOUBLE_HASH) -> pastes l l).
  { induction l as [|t l IH]; intro N; constructor.
    - intros _ s r Hs Q. eapply N; [|reflexivity]. right. rewrite Q. apply in_or_app. right. left. reflexivity.
    - apply IH. intros u I. apply N. right. exact I. }
  assert (Pa : forall s body, locate macros2 s = Some (MObj body) -> pastes body body).
  { intros s body H. apply Keep. destruct (Loc _ _ H) as [[_ Q]|[_ Q]]; injection Q as ->; cbn; intros t I;
      repeat (destruct I as [<-|I]; [discriminate|]); destruct I. }
  assert (Ob : objects macros2).
  { intros s m H. destruct (Loc _ _ H) as [[_ ->]|[_ ->]]; eexists; (split; [reflexivity|]); repeat constructor. }
  assert (Same : forall s body body', locate macros2 s = Some (MObj body) -> pastes body body' -> body' = body).
  { intros s body body' H Q. destruct (Ob _ _ H) as (bd & Q' & Sb). injection Q' as <-.
    eapply pastes_fun; [exact Sb|exact Q|]. eapply Pa. exact H. }
  assert (Bs : forall s body, locate macros2 s = Some (MObj body) -> exists body', pastes body body') by eauto.
  assert (X : Acc (fun y x => mentions macros2 true x y) "X"%string).
  { constructor. intros y (body & body' & L & Q & I & _). rewrite (Same _ _ _ L Q) in I. injection L as <-.
    destruct I as [I|[]]; discriminate. }
  eapply (c56_line_partial literal _ _ cfg _ _ PropParse.c14_hypotheses E fmt macros2 line2 line2 line2_expanded line2_expr 1);
    try reflexivity; try assumption.
  - intros _ s body body' L Q. rewrite (Same _ _ _ L Q). intros b I.
    destruct (Loc _ _ L) as [[_ R]|[_ R]]; injection R as ->; cbn in I; repeat (destruct I as [I|I]; [discriminate I|]); destruct I.
  - repeat constructor.
  - unfold line2. do 7 (apply R_keep; [discriminate|]). constructor.
  - unfold line2, line2_expanded.
    assert (X1 : forall h, expands macros2 h [TNum "2"]%string [TNum "2"]%string).
    { intro h. apply E_keep; [discriminate|constructor]. }
    apply (E_replace macros2 [] "X" false [TNum "2"]%string [TNum "2"]%string [TNum "2"]%string); auto.
    { eapply Pa with (s := "X"%string). reflexivity. }
    do 5 (apply E_keep; [discriminate|]).
    pose (bodyA := [P P_LEFT_PARENTHESE; TId "X" false; P P_MINUS; TNum "1"; P P_RIGHT_PARENTHESE]%string).
    apply (E_replace macros2 [] "A" false bodyA bodyA [P P_LEFT_PARENTHESE; TNum "2"; P P_MINUS; TNum "1"; P P_RIGHT_PARENTHESE]%string [] []
      eq_refl); [tauto|eapply Pa with (s := "A"%string); reflexivity| |constructor].
    apply E_keep; [discriminate|].
    apply (E_replace macros2 ["A"%string] "X" false [TNum "2"]%string [TNum "2"]%string [TNum "2"]%string _ [P P_MINUS; TNum "1"; P P_RIGHT_PARENTHESE]%string); auto.
    { intros [Q|[]]; discriminate. }
    { eapply Pa with (s := "X"%string). reflexivity. }
    do 3 (apply E_keep; [discriminate|]). constructor.
  - intros s I M. destruct I as [I|I]; [injection I as <-; exact X|].
    do 5 (destruct I as [I|I]; [discriminate I|]). destruct I as [I|[]]. injection I as <-.
    constructor. intros y (body & body' & L & Q & I & _). rewrite (Same _ _ _ L Q) in I. injection L as <-.
    repeat (destruct I as [I|I]; [try discriminate I; injection I as <-; exact X|]). destruct I.
  - apply line2_phrase.
Qed.

(** ** Refutations *)

Section Refuted.
Variable literal : nat -> option (ity * Z).
Variable fmt : list tok -> string.
Context {ty ini : Type} (type_name : ParseModel.parser ty) (initializer_list : ParseModel.parser ini) (cfg : ParseModel.config).
Context (ty_spell : ty -> list ParseModel.tok) (ini_spell : ini -> list ParseModel.tok).
Hypothesis sp : PropParse.spelling type_name initializer_list ty_spell ini_spell.
Variable E : senv.
Notation evaluate := (evaluate_tokens literal type_name initializer_list cfg E).
Notation condition := (condition literal fmt type_name initializer_list cfg E).

(** -1 < 0xFFFFFFFF holds: both are intmax_t.  Kefir takes the constant for an unsigned int. *)
Theorem c56_unsigned_int_refuted : exists e l, phrase literal 2 e l /\ valid e = true /\ pvalue e = Some 1 /\ evaluate l = CFalse.
Proof.
  exists (PBin QLt (PUn NMinus one) (PNum false false 0 4294967295)), [P P_MINUS; TNum "1"; P P_LESS_THAN; TNum "0xFFFFFFFF"]%string.
  assert (Ph : phrase literal 2 (PBin QLt (PUn NMinus one) (PNum false false 0 4294967295)) [P P_MINUS; TNum "1"; P P_LESS_THAN; TNum "0xFFFFFFFF"]%string).
  { up 7%nat. apply (Ph_bin literal QLt _ _ [P P_MINUS; TNum "1"]%string [TNum "0xFFFFFFFF"]%string); cbn [pbin_level].
    - up 5%nat. apply (Ph_un literal NMinus _ [TNum "1"]%string). up 3%nat. decimal "1"%string ""%string. none.
    - up 6%nat. hexadecimal "0xFFFFFFFF"%string ""%string. none. }
  split; [exact Ph|]. split; [reflexivity|]. split; [reflexivity|].
  match goal with |- evaluate ?l = _ => rewrite (evaluate_whole literal type_name initializer_list cfg _ _ sp E _ l Ph eq_refl) end.
  reflexivity.
Qed.

(** -1L > 0u holds: both are converted to uintmax_t.  Kefir compares in long. *)
Theorem c56_mixed_refuted : exists e l, phrase literal 2 e l /\ valid e = true /\ pvalue e = Some 1 /\ evaluate l = CFalse.
Proof.
  exists (PBin QGt (PUn NMinus (PNum true false 1 1)) (PNum false true 0 0)), [P P_MINUS; TNum "1L"; P P_GREATER_THAN; TNum "0u"]%string.
  assert (Ph : phrase literal 2 (PBin QGt (PUn NMinus (PNum true false 1 1)) (PNum false true 0 0)) [P P_MINUS; TNum "1L"; P P_GREATER_THAN; TNum "0u"]%string).
  { up 7%nat. apply (Ph_bin literal QGt _ _ [P P_MINUS; TNum "1L"]%string [TNum "0u"]%string); cbn [pbin_level].
    - up 5%nat. apply (Ph_un literal NMinus _ [TNum "1L"]%string). up 3%nat. decimal "1"%string "L"%string. suffix_l.
    - up 6%nat. octal "0"%string "u"%string. suffix_u. }
  split; [exact Ph|]. split; [reflexivity|]. split; [reflexivity|].
  match goal with |- evaluate ?l = _ => rewrite (evaluate_whole literal type_name initializer_list cfg _ _ sp E _ l Ph eq_refl) end.
  reflexivity.
Qed.

(** 0x7FFFFFFFFFFFFFFFu + 1u is 2^63: kefir's own addition overflows. *)
Theorem c56_overflow_refuted : exists e l, phrase literal 2 e l /\ valid e = true /\ pvalue e = Some (2 ^ 63) /\ evaluate l = CUndef.
Proof.
  exists (PBin QAdd (PNum false true 0 (2 ^ 63 - 1)) (PNum true true 0 1)), [TNum "0x7FFFFFFFFFFFFFFFu"; P P_PLUS; TNum "1u"]%string.
  assert (Ph : phrase literal 2 (PBin QAdd (PNum false true 0 (2 ^ 63 - 1)) (PNum true true 0 1)) [TNum "0x7FFFFFFFFFFFFFFFu"; P P_PLUS; TNum "1u"]%string).
  { up 9%nat. apply (Ph_bin literal QAdd _ _ [TNum "0x7FFFFFFFFFFFFFFFu"]%string [TNum "1u"]%string); cbn [pbin_level].
    - up 5%nat. hexadecimal "0x7FFFFFFFFFFFFFFF"%string "u"%string. suffix_u.
    - up 4%nat. decimal "1"%string "u"%string. suffix_u. }
  split; [exact Ph|]. split; [reflexivity|]. split; [reflexivity|].
  match goal with |- evaluate ?l = _ => rewrite (evaluate_whole literal type_name initializer_list cfg _ _ sp E _ l Ph eq_refl) end.
  reflexivity.
Qed.

(** 1 2 is no expression: kefir takes it for 1. *)
Theorem c56_trailing_refuted : exists l, (forall e, valid e = true -> ~ phrase literal 2 e (spaces_out l)) /\ evaluate l = CTrue.
Proof.
  exists [TNum "1"; sp_; TNum "2"]%string.
  assert (Ph : phrase literal 2 one [TNum "1"]%string) by (up 14%nat; decimal "1"%string ""%string; none).
  split.
  - intros e V Q. destruct (phrase_derives literal ty_spell ini_spell _ _ _ Q V) as (ys & C & D).
    assert (D0 : ParseSpec.D ty_spell ini_spell 14 0 (tree_of e) ys) by (eapply (D_lift literal); [| |exact D]; lia).
    destruct (phrase_derives literal ty_spell ini_spell _ _ _ Ph eq_refl) as (zs & C1 & D1).
    assert (D2 : ParseSpec.D ty_spell ini_spell 14 0 (tree_of one) zs) by (eapply (D_lift literal); [| |exact D1]; lia).
    pose proof (PropParse.c14_parses_partial _ _ cfg _ _ sp _ _ [] D0 I) as R1.
    pose proof (PropParse.c14_parses_partial _ _ cfg _ _ sp _ _ [ParseModel.TConst (code IInt 2)] D2 I) as R2.
    cbn in C1. injection C1 as <-. cbn in C. injection C as <-. rewrite app_nil_r in R1. cbn [app] in R2. change (wrap64 2) with 2 in R1. rewrite R1 in R2. discriminate.
  - rewrite (evaluate_prefix literal type_name initializer_list cfg _ _ sp E one [TNum "1"]%string [TNum "1"; sp_; TNum "2"]%string
      [TNum "2"]%string [ParseModel.TConst (code IInt 2)]); try reflexivity. exact Ph.
Qed.

(** The name of a function-like macro that no argument list follows is not replaced (6.10.3p10)
    and counts as 0 (6.10.1p4): kefir reports an error. *)
Theorem c56_function_name_refuted : exists defs s ps body, locate defs s = Some (MFun ps false body) /\
  (forall fuel, condition defs (S (S fuel)) [TId s false] = CError) /\
  evaluate (map zero [TId s false]) = CFalse.
Proof.
  exists macros, "F"%string, ["a"%string], [TId "a"%string false]. split; [reflexivity|]. split.
  - intro fuel. unfold condition, PpCondModel.condition, run_substitutions.
    replace (run fmt macros (S (S fuel)) true [TId "F" false]%string) with (Ok [TId "F" false]%string) by reflexivity.
    cbn [bind]. replace (pragmas _ _) with (Ok [TId "F" false]%string) by reflexivity.
    unfold evaluate_tokens. cbn [convert_buffer convert].
    assert (Q : ParseModel.expression type_name initializer_list cfg [ParseModel.TName 0] = (ParseModel.Ok (ParseModel.EName 0), [])).
    { exact (PropParse.c14_parses_partial _ _ cfg _ _ sp (ParseSpec.TrName 0) [ParseModel.TName 0] []
        ltac:(repeat (apply ParseSpec.D_up; [lia|]); apply ParseSpec.D_name) I). }
    rewrite Q. reflexivity.
  - assert (Ph : phrase literal 2 (PNum false false 0 0) [TNum "0"]%string) by (up 14%nat; octal "0"%string ""%string; none).
    exact (evaluate_whole literal type_name initializer_list cfg _ _ sp E _ [TNum "0"]%string Ph eq_refl).
Qed.

(** A macro that names itself counts as 0 as well: kefir replaces it forever. *)
Theorem c56_itself_refuted : exists defs s l, objects defs /\ resolves defs [TId s false] [TId s false] /\
  expands defs [] [TId s false] l /\ evaluate (map zero l) = CFalse /\
  forall fuel, condition defs fuel [TId s false] = CFuel.
Proof.
  exists itself, "A"%string, [TId "A"%string false]. destruct (c11_if_itself_refuted fmt) as (F & R & X & _).
  split; [|split; [exact R|split; [exact X|split]]].
  - intros s m H. unfold locate, itself in H. cbn [locate_in] in H. destruct (String.eqb "A" s); [|discriminate].
    injection H as <-. eexists. split; [reflexivity|]. repeat constructor.
  - assert (Ph : phrase literal 2 (PNum false false 0 0) [TNum "0"]%string) by (up 14%nat; octal "0"%string ""%string; none).
    exact (evaluate_whole literal type_name initializer_list cfg _ _ sp E _ [TNum "0"]%string Ph eq_refl).
  - intro fuel. unfold PpCondModel.condition. specialize (F fuel). unfold id in F. rewrite F. reflexivity.
Qed.
End Refuted.

Print Assumptions c56_tokens_partial.
Print Assumptions c56_signed_partial.
Print Assumptions c56_line_partial.
Print Assumptions c56_no_macros_partial.
Print Assumptions c56_unsigned_int_refuted.
Print Assumptions c56_mixed_refuted.
Print Assumptions c56_overflow_refuted.
Print Assumptions c56_trailing_refuted.
Print Assumptions c56_function_name_refuted.
Print Assumptions c56_itself_refuted.
