(** The parser reads declarations, statements and translation units as the grammar derives them. *)
From Coq Require Import ZArith List Bool Lia.
From Verif Require ParseModel.
From Verif Require Import SynModel SynSpec.
Import ListNotations.
Import ParseModel (punct(..), outcome(..), punct_eqb).

Ltac isr :=
  match goal with
  | |- context [is ?p (?sc, ?t :: ?r)] =>
    let b := eval lazy in (is p (sc, t :: r)) in
    match b with true => idtac | false => idtac end;
    change (is p (sc, t :: r)) with b
  | |- context [is_semi (?sc, ?t :: ?r)] =>
    let b := eval lazy in (is_semi (sc, t :: r)) in
    match b with true => idtac | false => idtac end;
    change (is_semi (sc, t :: r)) with b
  end.
Ltac red1 := cbv beta iota zeta delta [when expect semi shift bind ret fail apply must orelse quals opt_static fst snd tl andb orb negb].
Ltac toks ts := destruct ts as [|[| |[]| | | |] ?]; try exact I; try contradiction; try reflexivity.
Ltac apps := repeat (progress (rewrite <- ?app_assoc; cbn [app])).
Ltac go := repeat (progress red1 || isr).

Local Notation can_declare := (SynSpec.can_declare true).
Local Notation g_spec1 := (SynSpec.g_spec1 true).
Local Notation g_simple := (SynSpec.g_simple true).
Local Notation g_array := (SynSpec.g_array true).
Local Notation g_declr := (SynSpec.g_declr true).
Local Notation g_direct := (SynSpec.g_direct true).
Local Notation g_abs := (SynSpec.g_abs true).
Local Notation g_dabs := (SynSpec.g_dabs true).
Local Notation g_pars := (SynSpec.g_pars true).
Local Notation g_more := (SynSpec.g_more true).
Local Notation g_param := (SynSpec.g_param true).
Local Notation g_fdecl := (SynSpec.g_fdecl true).
Local Notation g_fdecls := (SynSpec.g_fdecls true).
Local Notation g_enums := (SynSpec.g_enums true).
Local Notation g_specs := (SynSpec.g_specs true).
Local Notation g_fields := (SynSpec.g_fields true).
Local Notation g_inits := (SynSpec.g_inits true).
Local Notation g_idecl := (SynSpec.g_idecl true).
Local Notation g_decl := (SynSpec.g_decl true).
Local Notation g_finit := (SynSpec.g_finit true).
Local Notation g_stmt := (SynSpec.g_stmt true).
Local Notation g_items := (SynSpec.g_items true).
Local Notation g_ext := (SynSpec.g_ext true).
Local Notation g_unit := (SynSpec.g_unit true).

Section Proofs.
Context {ex : Type}.
Context (expression assignment constant : (Z -> bool) -> list tok -> outcome ex * list tok).
Context (Eexp Easg Econ : (Z -> bool) -> ex -> list tok -> Prop).
Hypothesis Hexp : reads false expression Eexp.
Hypothesis Hasg : reads true assignment Easg.
Hypothesis Hcon : reads true constant Econ.

Notation P := (parse expression assignment constant).
Definition R {A} (g : goal A) (s : st) (r : outcome A * st) : Prop := exists n, forall m, n <= m -> P m A g s = r.

Ltac fuel n := exists (S n); intros [|m] Hm; [lia|]; cbn [parse]; cbv beta iota delta [step].
Ltac use H m := rewrite (H m ltac:(lia)).

(** * Expressions *)
Lemma erule_ok : forall cm r sp c (e : ex) ts t rest sc, reads cm r sp -> sp c e ts -> agree c (is_typedef sc) ts ->
  ends_expression cm t = true -> erule (ex := ex) r (sc, ts ++ t :: rest) = (Ok e, (sc, t :: rest)).
Proof. intros. unfold erule, apply. cbn [fst snd]. rewrite (rd_ok _ _ _ H _ _ _ _ _ _ H0 H1 H2). reflexivity. Qed.
Lemma erule_none : forall cm r sp t ts sc, reads (ex := ex) cm r sp -> no_expression t = true ->
  erule (ex := ex) r (sc, t :: ts) = (NoMatch, (sc, t :: ts)).
Proof.
  intros. unfold erule, apply. cbn [fst snd]. pose proof (rd_none _ _ _ H (is_typedef sc) _ ts H0) as N.
  destruct (r (is_typedef sc) (t :: ts)) as [o s']. cbn in N. subst o. reflexivity.
Qed.

Lemma agree_app : forall c c' a b, agree c c' (a ++ b) -> agree c c' a /\ agree c c' b.
Proof. intros c c' a b H. split; intros x Hx; apply H, in_or_app; auto. Qed.
Lemma agree_cons : forall c c' t b, agree c c' (t :: b) -> agree c c' b.
Proof. intros c c' t b H x Hx. apply H. now right. Qed.

(** * Specifiers *)
Lemma has_type_app : forall a b : list (spec (ex := ex)), has_type (a ++ b) = has_type a || has_type b.
Proof. intros. unfold has_type. apply existsb_app. Qed.

(** the specifier list ends at [ts] *)
Definition no_spec (c : Z -> bool) (has : bool) (ts : list tok) : bool :=
  match ts with
  | TKw (KTypedef | KStatic | KStorage _ | KType _ | KQual _ | KAtomic | KFun _ | KTag _) :: _ => false
  | TId x :: _ => has || negb (c x)
  | _ => true
  end.
Lemma no_spec_specifier : forall run acc sc ts, no_spec (is_typedef sc) (has_type acc) ts = true ->
  specifier (ex := ex) run acc (sc, ts) = (NoMatch, (sc, ts)).
Proof.
  intros run acc sc ts H. unfold specifier. cbn [fst snd]. destruct ts as [|[x|k| | | | |] ts]; try reflexivity.
  - cbn in H. destruct (has_type acc); [reflexivity|]. destruct (is_typedef sc x); [discriminate|reflexivity].
  - destruct k; try discriminate; reflexivity.
Qed.
Lemma specs_end : forall acc sc ts, acc <> [] -> no_spec (is_typedef sc) (has_type acc) ts = true ->
  R (GSpecs acc) (sc, ts) (Ok acc, (sc, ts)).
Proof.
  intros acc sc ts Ha H. fuel 0. unfold apply. rewrite no_spec_specifier by exact H. destruct acc; [congruence|reflexivity].
Qed.
Lemma specs_none : forall sc ts, no_spec (is_typedef sc) false ts = true -> R (GSpecs []) (sc, ts) (NoMatch, (sc, ts)).
Proof. intros sc ts H. fuel 0. unfold apply. rewrite no_spec_specifier by exact H. reflexivity. Qed.

(** one simple specifier *)
Lemma spec1_step : forall c acc sp ts sc rest r, g_spec1 c (has_type acc) sp ts -> agree c (is_typedef sc) ts ->
  match rest with TP PLBrace :: _ => False | _ => True end ->
  R (GSpecs (acc ++ [sp])) (sc, rest) r -> R (GSpecs acc) (sc, ts ++ rest) r.
Proof.
  intros c acc sp ts sc rest r H Ag Hr [n Hn]. fuel n.
  assert (S : apply (specifier (P m) acc) (sc, ts ++ rest) = (Ok sp, (sc, rest))).
  { unfold apply. inversion H; subst; cbn [app]; try reflexivity; try discriminate.
    - unfold specifier. cbn [snd].
      destruct k; unfold apply, shift, struct_specifier, enum_specifier, when; cbn [fst snd tl];
        destruct rest as [|[| |[]| | | |] ?]; try reflexivity; contradiction.
    - unfold specifier. cbn [snd fst]. rewrite H0. cbn [negb andb].
      rewrite <- (Ag x) by now left. rewrite H1. reflexivity. }
  rewrite S. apply Hn. lia.
Qed.
Lemma atomic_step : forall acc sc rest r, match rest with TP PLParen :: _ => False | _ => True end ->
  R (GSpecs (acc ++ [SpQual KAtomic])) (sc, rest) r -> R (GSpecs acc) (sc, TKw KAtomic :: rest) r.
Proof.
  intros acc sc rest r Hr [n Hn]. fuel n.
  assert (S : apply (specifier (P m) acc) (sc, TKw KAtomic :: rest) = (Ok (SpQual KAtomic), (sc, rest))).
  { unfold apply, specifier, shift. cbn [fst snd tl]. destruct rest as [|[| |[]| | | |] ?]; try reflexivity; contradiction. }
  rewrite S. apply Hn. lia.
Qed.

Definition spec_first (t : tok) : bool :=
  match t with
  | TKw (KTypedef | KStatic | KStorage _ | KType _ | KQual _ | KAtomic | KFun _ | KTag _) | TId _ => true
  | _ => false
  end.
Lemma spec1_first : forall c has (sp : spec (ex := ex)) ts, g_spec1 c has sp ts -> exists t ts', ts = t :: ts' /\ spec_first t = true.
Proof. intros c has sp ts H. inversion H; subst; eexists; eexists; split; reflexivity. Qed.
Lemma simple_first : forall c has (ss : list (spec (ex := ex))) ts, g_simple c has ss ts -> ss <> [] -> exists t ts', ts = t :: ts' /\ spec_first t = true.
Proof.
  intros c has ss ts H N. inversion H; subst; [congruence| |].
  - destruct (spec1_first _ _ _ _ H0) as (t & ts2 & -> & F). eexists. eexists. split; [reflexivity|exact F].
  - eexists. eexists. split; reflexivity.
Qed.
Definition no_brace (ts : list tok) : Prop := match ts with TP PLBrace :: _ => False | _ => True end.
Lemma simple_reads : forall c has ss ts, g_simple c has ss ts -> forall acc sc rest,
  has = has_type acc -> agree c (is_typedef sc) ts -> acc ++ ss <> [] -> no_brace rest ->
  no_spec (is_typedef sc) (has_type (acc ++ ss)) rest = true ->
  R (GSpecs acc) (sc, ts ++ rest) (Ok (acc ++ ss), (sc, rest)).
Proof.
  intros c has ss ts H. induction H as [has|has sp ts ss ts' H1 H IH|has ss ts' N H IH]; intros acc sc rest Hh Ag Ne Nb Ns.
  - rewrite app_nil_r in *. now apply specs_end.
  - apply agree_app in Ag. destruct Ag as [A1 A2]. rewrite <- app_assoc. subst has.
    eapply spec1_step; [exact H1|exact A1| |].
    + destruct (ss) as [|sp2 ss2] eqn:Es.
      * inversion H; subst. exact Nb.
      * destruct (simple_first _ _ _ _ H) as (t & ts2 & -> & F); [discriminate|]. cbn. destruct t; try exact I. now destruct p.
    + assert (Q : (acc ++ [sp]) ++ ss = acc ++ sp :: ss) by now rewrite <- app_assoc.
      rewrite <- Q in *. apply IH; auto. rewrite has_type_app. cbn. now rewrite orb_false_r.
  - apply agree_cons in Ag. cbn [app]. apply atomic_step.
    + destruct (simple_first _ _ _ _ H) as (t & ts2 & -> & F); [exact N|]. cbn. destruct t; try exact I. now destruct p.
    + assert (Q : (acc ++ [SpQual KAtomic]) ++ ss = acc ++ SpQual KAtomic :: ss) by now rewrite <- app_assoc.
      rewrite <- Q in *. apply IH; auto. rewrite has_type_app. cbn. now rewrite orb_false_r.
Qed.

(** * Declarators *)
Definition no_qual (ts : list tok) : Prop := match ts with TKw (KQual _ | KAtomic) :: _ => False | _ => True end.
Lemma qualifiers_app : forall qs rest, forallb is_qual qs = true -> no_qual rest -> qualifiers (map TKw qs ++ rest) = (qs, rest).
Proof.
  induction qs as [|q qs IH]; intros rest H N; cbn [map app].
  - destruct rest as [|[|[]| | | | |] r]; try reflexivity; contradiction.
  - cbn in H. apply andb_prop in H. destruct H as [Hq H].
    destruct q; try discriminate; cbn [qualifiers]; rewrite (IH rest H N); reflexivity.
Qed.
Lemma opt_static_no : forall A (k : bool -> pr A) sc ts, match ts with TKw KStatic :: _ => False | _ => True end ->
  opt_static k (sc, ts) = k false (sc, ts).
Proof. intros A k sc ts H. unfold opt_static. cbn [snd]. destruct ts as [|[|[]| | | | |] r]; try reflexivity; contradiction. Qed.
Lemma quals_app : forall A (k : list kw -> pr A) qs sc rest, forallb is_qual qs = true -> no_qual rest ->
  quals k (sc, map TKw qs ++ rest) = k qs (sc, rest).
Proof. intros. unfold quals. cbn [fst snd]. now rewrite qualifiers_app. Qed.

Definition no_static (ts : list tok) : Prop := match ts with TKw KStatic :: _ => False | _ => True end.
Lemma quals_static : forall qs rest, forallb is_qual qs = true -> no_static rest -> no_static (map TKw qs ++ rest).
Proof. intros [|[] qs] rest H N; try exact I; try discriminate. exact N. Qed.

Lemma len_reads : forall c (e : ex) ts sc rest, Easg c e ts -> no_star ts -> agree c (is_typedef sc) ts ->
  (forall r, no_static (ts ++ r) /\ no_qual (ts ++ r)) /\ is PStar (sc, ts ++ TP PRBracket :: rest) = false /\
  erule assignment (sc, ts ++ TP PRBracket :: rest) = (Ok e, (sc, TP PRBracket :: rest)).
Proof.
  intros c e ts sc rest H N Ag. destruct (rd_first _ _ _ Hasg _ _ _ H) as (t & ts' & -> & F). split; [|split].
  - intros r. cbn. destruct t; try (split; exact I). destruct k; try discriminate; split; exact I.
  - cbn. destruct t; try reflexivity. destruct p; try reflexivity; contradiction.
  - eapply erule_ok; eauto.
Qed.

Lemma tail_array : forall c s qs n ats abs d sc rest r, g_array Easg c s qs n ats -> forallb is_qual qs = true ->
  agree c (is_typedef sc) ats -> R (GTail abs (DArr s qs n d)) (sc, rest) r ->
  R (GTail abs d) (sc, TP PLBracket :: ats ++ TP PRBracket :: rest) r.
Proof.
  intros c s qs n ats abs d sc rest r H Q Ag [N Hn]. fuel N. unfold when. isr. unfold shift. cbn [fst snd tl].
  unfold array_declarator. inversion H; subst.
  - rewrite opt_static_no by (apply quals_static; [exact Q|exact I]). rewrite quals_app by (auto; exact I).
    rewrite opt_static_no by exact I. cbn [andb orb]. unfold bind, when. isr.
    rewrite (erule_none _ _ _ (TP PRBracket) rest sc Hasg eq_refl). unfold expect. isr. unfold shift. cbn [fst snd tl]. apply Hn. lia.
  - rewrite <- app_assoc. cbn [app]. rewrite opt_static_no by (apply quals_static; [exact Q|exact I]).
    rewrite quals_app by (auto; exact I). rewrite opt_static_no by exact I. go. apply Hn. lia.
  - rewrite <- app_assoc. apply agree_app in Ag. destruct (len_reads _ _ _ _ rest H0 H1 (proj2 Ag)) as (A & B & C).
    rewrite opt_static_no by (apply quals_static; [exact Q|apply A]). rewrite quals_app by (auto; apply A).
    rewrite opt_static_no by apply A. cbn [andb orb]. unfold bind, when. rewrite B, C. go. apply Hn. lia.
  - cbn [app]. rewrite <- app_assoc. apply agree_cons in Ag. apply agree_app in Ag.
    destruct (len_reads _ _ _ _ rest H0 H1 (proj2 Ag)) as (A & B & C).
    unfold opt_static at 1. cbn [fst snd]. rewrite quals_app by (auto; apply A).
    rewrite opt_static_no by apply A. cbn [andb orb]. unfold bind, when. rewrite B, C. go. apply Hn. lia.
  - rewrite <- app_assoc. cbn [app]. apply agree_app in Ag. destruct Ag as [_ Ag]. apply agree_cons in Ag.
    destruct (len_reads _ _ _ _ rest H1 H2 Ag) as (A & B & C).
    rewrite opt_static_no by (destruct qs as [|[] qs]; try congruence; try exact I; discriminate).
    rewrite quals_app by (auto; exact I). unfold opt_static. cbn [fst snd andb orb]. unfold bind, when. rewrite B, C. go. apply Hn. lia.
Qed.

Definition no_tail (ts : list tok) : Prop := match ts with TP PLBracket :: _ | TP PLParen :: _ => False | _ => True end.
Lemma tail_end : forall abs d sc rest, no_tail rest -> R (GTail abs d) (sc, rest) (Ok d, (sc, rest)).
Proof.
  intros abs d sc rest H. fuel 0. unfold when.
  assert (A : is PLBracket (sc, rest) = false /\ is PLParen (sc, rest) = false).
  { destruct rest as [|[| |[]| | | |] r]; try contradiction; split; reflexivity. }
  destruct A as [-> ->]. reflexivity.
Qed.
Definition PR (abs : bool) (sc : scope) (s : list tok) (r : outcome (list param * bool) * st) : Prop :=
  exists n, forall m, n <= m -> parameters (P m) abs (sc, s) = r.
Lemma tail_fun : forall abs d sc pts ps ell rest r,
  PR abs sc (pts ++ TP PRParen :: rest) (Ok (ps, ell), (sc, TP PRParen :: rest)) ->
  R (GTail abs (DFun ps ell d)) (sc, rest) r -> R (GTail abs d) (sc, TP PLParen :: pts ++ TP PRParen :: rest) r.
Proof.
  intros abs d sc pts ps ell rest r [n1 H1] [n2 H2]. fuel (n1 + n2). unfold when. isr. isr. cbv iota. unfold shift. cbn [fst snd tl].
  unfold bind. use H1 m. go. apply H2. lia.
Qed.

(** tokens at which no declarator, no abstract declarator starts *)
Definition no_declr (ts : list tok) : Prop := match ts with TP PStar :: _ | TP PLParen :: _ | TId _ :: _ => False | _ => True end.
Definition no_abs (ts : list tok) : Prop := match ts with TP PStar :: _ | TP PLParen :: _ | TP PLBracket :: _ => False | _ => True end.
Definition NM (sc : scope) (s : list tok) : Prop := exists n s', forall m, n <= m -> direct_base (ex := ex) (P m) (sc, s) = (NoMatch, (sc, s')).
Definition DN (sc : scope) (s : list tok) : Prop := R GDeclr (sc, s) (NoMatch, (sc, s)).
Lemma star_is : forall sc ts, match ts with TP PStar :: _ => False | _ => True end -> is PStar (sc, ts) = false.
Proof. intros sc ts H. destruct ts as [|[| |[]| | | |] r]; try reflexivity; contradiction. Qed.
Lemma paren_is : forall sc ts, match ts with TP PLParen :: _ => False | _ => True end -> is PLParen (sc, ts) = false.
Proof. intros sc ts H. destruct ts as [|[| |[]| | | |] r]; try reflexivity; contradiction. Qed.
Lemma nm_first : forall sc ts, match ts with TP PLParen :: _ | TId _ :: _ => False | _ => True end -> NM sc ts.
Proof.
  intros sc ts H. exists 0, ts. intros m _. unfold direct_base.
  rewrite paren_is by (toks ts).
  cbn [snd]. destruct ts as [|[| |[]| | | |] r]; try reflexivity; contradiction.
Qed.
Lemma nm_dn : forall sc ts, match ts with TP PStar :: _ => False | _ => True end -> NM sc ts -> DN sc ts.
Proof.
  intros sc ts H (n & s' & Hn). fuel n. unfold apply, when. rewrite star_is by exact H. unfold bind. use Hn m. reflexivity.
Qed.
Lemma dn_first : forall sc ts, no_declr ts -> DN sc ts.
Proof. intros sc ts H. apply nm_dn; [|apply nm_first]; toks ts. Qed.
Lemma gabs_none : forall sc ts, no_abs ts -> R GAbs (sc, ts) (NoMatch, (sc, ts)).
Proof.
  intros sc ts H. destruct (tail_end true (DId None) sc ts) as [n Hn]; [toks ts|]. fuel n.
  unfold apply, when. rewrite star_is by (toks ts). unfold direct_abstract, abstract_base, bind.
  rewrite paren_is by (toks ts). use Hn m. reflexivity.
Qed.
Definition AB (sc : scope) (s : list tok) : Prop :=
  exists n, forall m, n <= m -> abstract_base (ex := ex) (P m) (sc, s) = (Ok (DId None), (sc, s)).
Lemma ab_first : forall sc s, match s with TP PLParen :: _ => False | _ => True end -> AB sc s.
Proof. intros sc s H. exists 0. intros m _. unfold abstract_base. now rewrite paren_is. Qed.
Lemma ab_paren : forall sc s, no_abs s -> AB sc (TP PLParen :: s).
Proof.
  intros sc s H. destruct (gabs_none sc s H) as [n Hn]. exists n. intros m Hm. unfold abstract_base. isr. unfold shift, bind. cbn [fst snd tl].
  use Hn m. reflexivity.
Qed.

Lemma pars_first : forall c (ps : list (param (ex := ex))) ell ts, g_pars Easg c ps ell ts ->
  ts = [] \/ exists t ts', ts = t :: ts' /\ spec_first t = true /\
    (forall x, t = TId x -> exists ss d ps', ps = PDecl (SpName x :: ss) d :: ps').
Proof.
  intros c ps ell ts H. inversion H; subst; [now left|right].
  assert (Q : forall ss sts, @SynSpec.g_simple true ex c false ss sts -> has_type ss = true -> exists t ts', sts = t :: ts' /\ spec_first t = true /\
     (forall x, t = TId x -> exists ss', ss = SpName x :: ss')).
  { intros ss sts Hs Ht. inversion Hs; subst; [discriminate| |].
    - inversion H2; subst; eexists; eexists; (split; [reflexivity|split; [reflexivity|intros ? Q; try discriminate Q]]).
      injection Q as ->. eexists. reflexivity.
    - eexists; eexists; (split; [reflexivity|split; [reflexivity|intros ? Q; discriminate Q]]). }
  inversion H0; subst; destruct (Q _ _ H2 H3) as (t & ts2 & -> & F & N); exists t; eexists;
    (split; [reflexivity|split; [exact F|]]); intros x Hx; destruct (N x Hx) as (ss' & ->); eauto.
Qed.


(** first tokens *)
Definition declr_first (ts : list tok) : Prop := match ts with TP PStar :: _ | TP PLParen :: _ | TId _ :: _ => True | _ => False end.
Definition direct_first (ts : list tok) : Prop := match ts with TP PLParen :: _ | TId _ :: _ => True | _ => False end.
Definition dabs_first (ts : list tok) : Prop := match ts with [] | TP PLParen :: _ | TP PLBracket :: _ => True | _ => False end.
Definition abs_first (ts : list tok) : Prop := match ts with [] | TP PStar :: _ | TP PLParen :: _ | TP PLBracket :: _ => True | _ => False end.

Lemma declr_shapes : forall c,
  (forall d ts, g_declr Easg c d ts -> declr_first ts) /\
  (forall d ts, g_direct Easg c d ts -> direct_first ts) /\
  (forall d ts, g_abs Easg c d ts -> abs_first ts /\ (ts <> [] -> d <> DId None) /\ (ts = [] -> d = DId None)) /\
  (forall d ts, g_dabs Easg c d ts -> dabs_first ts /\ (ts <> [] -> d <> DId None) /\ (ts = [] -> d = DId None)) /\
  (forall ps ell ts, g_pars Easg c ps ell ts -> True) /\
  (forall ps ell ts, g_more Easg c ps ell ts -> True) /\
  (forall p ts, g_param Easg c p ts -> True).
Proof.
  intros c. apply g_declr_mut; intros; auto; try exact I.
  - destruct ts as [|[| |[]| | | |] ?]; try exact I; contradiction.
  - cbn. destruct ts as [|[| |[]| | | |] ?]; try exact I; contradiction.
  - cbn. destruct ts as [|[| |[]| | | |] ?]; try exact I; contradiction.
  - split; [exact I|split; discriminate].
  - destruct H0 as (A & B & C). split; [|now split]. destruct ts as [|[| |[]| | | |] ?]; try exact I; contradiction.
  - split; [exact I|split; [congruence|reflexivity]].
  - destruct H0 as (A & B & C). split; [exact I|split; [auto|discriminate]].
  - destruct H0 as (A & B & C). split; [|split; [discriminate|destruct ts; discriminate]].
    destruct ts as [|[| |[]| | | |] ?]; try exact I; contradiction.
  - destruct H0 as (A & B & C). split; [|split; [discriminate|destruct ts; discriminate]].
    destruct ts as [|[| |[]| | | |] ?]; try exact I; contradiction.
Qed.

Definition par_stop (ts : list tok) : Prop := match ts with TP PComma :: _ | TP PRParen :: _ => True | _ => False end.

Lemma declr_complete : forall c,
  (forall d ts, g_declr Easg c d ts -> forall sc rest, agree c (is_typedef sc) ts -> no_tail rest ->
     R GDeclr (sc, ts ++ rest) (Ok d, (sc, rest))) /\
  (forall d ts, g_direct Easg c d ts -> forall sc rest r, agree c (is_typedef sc) ts -> R (GTail false d) (sc, rest) r ->
     exists n, forall m, n <= m -> bind (direct_base (P m)) (fun b => P m _ (GTail false b)) (sc, ts ++ rest) = r) /\
  (forall d ts, g_abs Easg c d ts -> forall sc rest, agree c (is_typedef sc) ts ->
     par_stop rest -> ((ts <> [] -> R GAbs (sc, ts ++ rest) (Ok d, (sc, rest))) /\ R GPtrTail (sc, ts ++ rest) (Ok d, (sc, rest))) /\
     (names_type d = false -> DN sc (ts ++ rest))) /\
  (forall d ts, g_dabs Easg c d ts -> forall sc rest, agree c (is_typedef sc) ts ->
     (forall r, R (GTail true d) (sc, rest) r -> (ts = [] -> AB sc rest) ->
      exists n, forall m, n <= m -> bind (abstract_base (P m)) (fun b => P m _ (GTail true b)) (sc, ts ++ rest) = r) /\
     (names_type d = false -> (ts = [] -> NM sc rest) -> NM sc (ts ++ rest))) /\
  (forall ps ell ts, g_pars Easg c ps ell ts -> forall abs sc rest, agree c (is_typedef sc) ts ->
     PR abs sc (ts ++ TP PRParen :: rest) (Ok (ps, ell), (sc, TP PRParen :: rest))) /\
  (forall ps ell ts, g_more Easg c ps ell ts -> forall acc sc rest, agree c (is_typedef sc) ts ->
     R (GParams acc) (sc, ts ++ TP PRParen :: rest) (Ok (acc ++ ps, ell), (sc, TP PRParen :: rest))) /\
  (forall p ts, g_param Easg c p ts -> forall sc rest, agree c (is_typedef sc) ts -> par_stop rest ->
     R GParam (sc, ts ++ rest) (Ok p, (sc, rest))).
Proof.
  intros c. destruct (declr_shapes c) as (Sd & Si & Sa & Sx & _ & _ & _). apply g_declr_mut.
  - (* pointer *)
    intros qs d ts Q HD IH sc rest Ag N. apply agree_cons in Ag. apply agree_app in Ag.
    destruct (IH sc rest (proj2 Ag) N) as [n Hn]. cbn [app]. rewrite <- app_assoc. fuel n. unfold apply, when. isr.
    unfold pointer, expect. isr. unfold shift. cbn [fst snd tl].
    rewrite quals_app; [|exact Q|]. 2:{ apply Sd in HD. destruct ts as [|[| |[]| | | |] ?]; try exact I; contradiction. }
    unfold bind. use Hn m. reflexivity.
  - (* direct *)
    intros d ts HD IH sc rest Ag N. destruct (IH sc rest _ Ag (tail_end false d sc rest N)) as [n Hn]. fuel n.
    unfold apply, when. rewrite star_is. 2:{ apply Si in HD. destruct ts as [|[| |[]| | | |] ?]; try exact I; contradiction. }
    use Hn m. reflexivity.
  - (* identifier *)
    intros x sc rest r Ag [n Hn]. exists n. intros m Hm. cbn [app]. unfold bind, direct_base. isr. cbn [snd]. go. now apply Hn.
  - (* parentheses *)
    intros d ts HD IH sc rest r Ag [n Hn]. apply agree_cons in Ag. apply agree_app in Ag.
    destruct (IH sc (TP PRParen :: rest) (proj1 Ag) I) as [n1 Hn1].
    exists (n + n1). intros m Hm. cbn [app]. rewrite <- app_assoc. cbn [app]. unfold bind, direct_base. isr. unfold shift. cbn [fst snd tl].
    unfold bind. use Hn1 m. go. apply Hn. lia.
  - (* array *)
    intros d ts s qs n ats HD IH Q HA sc rest r Ag Hr. apply agree_app in Ag. destruct Ag as [A1 A2]. apply agree_cons in A2.
    apply agree_app in A2. rewrite <- app_assoc. apply IH; [exact A1|]. cbn [app]. rewrite <- app_assoc. cbn [app].
    eapply tail_array; [exact HA|exact Q|exact (proj1 A2)|exact Hr].
  - (* function *)
    intros d ts ps ell pts HD IH HP IHP sc rest r Ag Hr. apply agree_app in Ag. destruct Ag as [A1 A2]. apply agree_cons in A2.
    apply agree_app in A2. rewrite <- app_assoc. apply IH; [exact A1|]. cbn [app]. rewrite <- app_assoc. cbn [app].
    eapply tail_fun; [|exact Hr]. apply IHP. exact (proj1 A2).
  - (* abstract pointer *)
    intros qs d ts Q HD IH sc rest Ag Hr. apply agree_cons in Ag. apply agree_app in Ag.
    destruct (IH sc rest (proj2 Ag) Hr) as ((_ & [n1 H1]) & C).
    assert (Nq : no_qual (ts ++ rest)).
    { apply Sa in HD. destruct HD as (HD & _). toks ts. cbn [app]. toks rest. }
    cbn [app]. rewrite <- app_assoc. split; [split|].
    + intros _. fuel n1. unfold apply, when. isr. unfold pointer, expect. isr. unfold shift. cbn [fst snd tl].
      rewrite quals_app by auto. unfold bind. use H1 m. reflexivity.
    + fuel n1. unfold orelse, pointer, expect. isr. unfold shift. cbn [fst snd tl].
      rewrite quals_app by auto. unfold bind. use H1 m. reflexivity.
    + intros Nt. destruct (C Nt) as [n2 H2]. fuel n2. unfold apply, when. isr. unfold pointer, expect. isr. unfold shift. cbn [fst snd tl].
      rewrite quals_app by auto. unfold bind. use H2 m. reflexivity.
  - (* abstract direct *)
    intros d ts HD IH sc rest Ag Hr. destruct (IH sc rest Ag) as [B C].
    assert (AR : AB sc rest) by (apply ab_first; toks rest).
    assert (NR : no_tail rest) by toks rest.
    destruct (B _ (tail_end true d sc rest NR) (fun _ => AR)) as [n1 H1].
    assert (Ns : is PStar (sc, ts ++ rest) = false).
    { apply star_is. destruct (Sx _ _ HD) as (F & _). toks ts. cbn [app]. toks rest. }
    split; [split|].
    + intros Ne. pose proof (proj1 (proj2 (Sx _ _ HD)) Ne) as Nd. fuel n1. unfold apply, when. rewrite Ns.
      unfold direct_abstract. unfold bind in H1 |- *. specialize (H1 m ltac:(lia)).
      destruct (abstract_base (P m) (sc, ts ++ rest)) as [[b| | |] s']; try discriminate. rewrite H1.
      destruct d as [[x|]| | |]; try reflexivity. congruence.
    + fuel n1. unfold orelse, pointer, expect. rewrite Ns.
      unfold direct_abstract. unfold bind in H1 |- *. specialize (H1 m ltac:(lia)).
      destruct (abstract_base (P m) (sc, ts ++ rest)) as [[b| | |] s']; try discriminate. rewrite H1.
      destruct d as [[x|]| | |]; reflexivity.
    + intros Nt. apply nm_dn. { destruct (Sx _ _ HD) as (F & _). toks ts. cbn [app]. toks rest. }
      apply C; [exact Nt|]. intros _. apply nm_first. toks rest.
  - (* nothing *)
    intros sc rest Ag. split; [|intros _ H; now apply H].
    intros r [n1 H1] A. destruct (A eq_refl) as [n2 H2]. exists (n1 + n2). intros m Hm. cbn [app]. unfold bind. use H2 m. apply H1. lia.
  - (* abstract parentheses *)
    intros d ts HD IH Ne sc rest Ag. apply agree_cons in Ag. apply agree_app in Ag.
    destruct (IH sc (TP PRParen :: rest) (proj1 Ag) I) as ((B & _) & C). specialize (B Ne).
    cbn [app]. rewrite <- app_assoc. cbn [app]. split.
    + intros r [n1 H1] _. destruct B as [n2 H2]. exists (n1 + n2). intros m Hm. unfold bind, abstract_base. isr. unfold shift. cbn [fst snd tl].
      unfold bind. use H2 m. go. apply H1. lia.
    + intros Nt _. destruct (C Nt) as [n3 H3]. exists n3. eexists. intros m Hm. unfold direct_base. isr. unfold shift. cbn [fst snd tl].
      unfold bind. use H3 m. reflexivity.
  - (* abstract array *)
    intros d ts s qs n ats HD IH Q HA sc rest Ag. apply agree_app in Ag. destruct Ag as [A1 A2]. apply agree_cons in A2.
    apply agree_app in A2. rewrite <- app_assoc. cbn [app]. rewrite <- app_assoc. cbn [app].
    destruct (IH sc (TP PLBracket :: ats ++ TP PRBracket :: rest) A1) as [B C]. split.
    + intros r Hr _. apply B; [|intros _; now apply ab_first]. eapply tail_array; [exact HA|exact Q|exact (proj1 A2)|exact Hr].
    + intros Nt _. apply C; [exact Nt|]. intros _. now apply nm_first.
  - (* abstract function *)
    intros d ts ps ell pts HD IH HP IHP sc rest Ag. apply agree_app in Ag. destruct Ag as [A1 A2]. apply agree_cons in A2.
    apply agree_app in A2. rewrite <- app_assoc. cbn [app]. rewrite <- app_assoc. cbn [app].
    destruct (IH sc (TP PLParen :: pts ++ TP PRParen :: rest) A1) as [B C]. split.
    + intros r Hr _. apply B.
      * eapply tail_fun; [|exact Hr]. apply IHP. exact (proj1 A2).
      * intros _. apply ab_paren. destruct (pars_first _ _ _ _ HP) as [->|(t & ts' & -> & F & _)]; [exact I|].
        cbn. destruct t; try exact I. discriminate.
    + intros Nt _. destruct (Sx _ _ HD) as (_ & X1 & X2). apply C.
      * destruct ts as [|t ts']; [rewrite X2; reflexivity|]. specialize (X1 ltac:(discriminate)).
        destruct d as [[x|]| | |]; try exact Nt; try reflexivity. 
      * intros ->. specialize (X2 eq_refl). subst d.
        assert (D : DN sc (pts ++ TP PRParen :: rest)).
        { apply dn_first. destruct (pars_first _ _ _ _ HP) as [->|(t & ts' & -> & F & G)]; [exact I|].
          cbn. destruct t; try exact I; [|discriminate]. destruct (G x eq_refl) as (ss & d & ps' & ->). discriminate Nt. }
        destruct D as [n1 H1]. exists n1. eexists. intros m Hm. unfold direct_base. isr. unfold shift. cbn [fst snd tl].
        unfold bind. use H1 m. reflexivity.
  - (* no parameters *)
    intros abs sc rest _. destruct (specs_none sc (TP PRParen :: rest) eq_refl) as [n Hn]. exists (S n). intros m Hm. cbn [app].
    assert (G : P m _ GParam (sc, TP PRParen :: rest) = (NoMatch, (sc, TP PRParen :: rest))).
    { destruct m as [|m]; [lia|]. cbn [parse]. cbv beta iota delta [step]. unfold bind. use Hn m. reflexivity. }
    unfold parameters. unfold bind at 1. rewrite G. cbn [fst snd]. destruct abs; reflexivity.
  - (* parameters *)
    intros p ts ps ell ts' HP IH HM IHM abs sc rest Ag. apply agree_app in Ag. destruct Ag as [A1 A2]. rewrite <- app_assoc.
    assert (St : par_stop (ts' ++ TP PRParen :: rest)) by (inversion HM; subst; exact I).
    destruct (IH sc _ A1 St) as [n1 H1]. destruct (IHM [p] sc rest A2) as [n2 H2]. exists (n1 + n2). intros m Hm.
    unfold parameters. unfold bind at 1. use H1 m. use H2 m. reflexivity.
  - (* end of the parameters *)
    intros acc sc rest _. cbn [app]. fuel 0. go. now rewrite app_nil_r.
  - (* ellipsis *)
    intros acc sc rest _. cbn [app]. destruct (specs_none sc (TEllipsis :: TP PRParen :: rest) eq_refl) as [n Hn]. fuel (S n).
    unfold when. isr. unfold shift. cbn [fst snd tl].
    assert (G : P m _ GParam (sc, TEllipsis :: TP PRParen :: rest) = (NoMatch, (sc, TEllipsis :: TP PRParen :: rest))).
    { destruct m as [|m]; [lia|]. cbn [parse]. cbv beta iota delta [step]. unfold bind. use Hn m. reflexivity. }
    rewrite G. cbn. now rewrite app_nil_r.
  - (* more parameters *)
    intros p ts ps ell ts' HP IH HM IHM acc sc rest Ag. apply agree_cons in Ag. apply agree_app in Ag. destruct Ag as [A1 A2].
    cbn [app]. rewrite <- app_assoc.
    assert (St : par_stop (ts' ++ TP PRParen :: rest)) by (inversion HM; subst; exact I).
    destruct (IH sc _ A1 St) as [n1 H1]. destruct (IHM (acc ++ [p]) sc rest A2) as [n2 H2]. fuel (n1 + n2).
    unfold when. isr. unfold shift. cbn [fst snd tl]. use H1 m. use H2 m. now rewrite <- app_assoc.
  - (* named parameter *)
    intros ss sts d ts HS HT HD IH sc rest Ag Hr. apply agree_app in Ag. destruct Ag as [A1 A2]. rewrite <- app_assoc.
    assert (Fd := Sd _ _ HD).
    destruct (simple_reads _ _ _ _ HS [] sc (ts ++ rest)) as [n1 H1]; auto.
    { destruct ss; [discriminate|discriminate]. }
    { toks ts. }
    { cbn [app]. rewrite HT. toks ts. }
    destruct (IH sc rest A2) as [n2 H2]; [toks rest|]. fuel (n1 + n2). unfold bind. use H1 m. unfold orelse. use H2 m. reflexivity.
  - (* abstract parameter *)
    intros ss sts d ts HS HT HD IH Nt sc rest Ag Hr. apply agree_app in Ag. destruct Ag as [A1 A2]. rewrite <- app_assoc.
    destruct (Sa _ _ HD) as (Fd & _ & X).
    destruct (simple_reads _ _ _ _ HS [] sc (ts ++ rest)) as [n1 H1]; auto.
    { destruct ss; [discriminate|discriminate]. }
    { toks ts. cbn [app]. toks rest. }
    { cbn [app]. rewrite HT. toks ts. cbn [app]. toks rest. }
    destruct (IH sc rest A2 Hr) as ((B & _) & C). destruct (C Nt) as [n2 H2].
    destruct ts as [|t ts].
    + destruct (gabs_none sc rest) as [n3 H3]; [toks rest|]. rewrite (X eq_refl). cbn [app] in *. fuel (n1 + n2 + n3). unfold bind. use H1 m.
      unfold orelse. use H2 m. use H3 m. reflexivity.
    + destruct (B ltac:(discriminate)) as [n3 H3]. fuel (n1 + n2 + n3). unfold bind. use H1 m.
      unfold orelse. use H2 m. use H3 m. reflexivity.
Qed.

(** * Names in scope *)
(** [X]: further names that may already be in the block, but not as typedef names *)
Definition Inv (X : Z -> Prop) (E : env) (sc : scope) : Prop :=
  (exists b up, sc = b :: up /\
     forall x k, find b x = Some k -> In (x, k) (here E) \/ (k = false /\ (In x (loops E) \/ X x))) /\
  forall x, is_typedef sc x = cls E x.
Lemma inv_agree : forall X E sc ts, Inv X E sc -> agree (cls E) (is_typedef sc) ts.
Proof. intros X E sc ts (_ & H) x _. now rewrite H. Qed.
Lemma declare_ok : forall X E sc x k, Inv X E sc -> can_declare E x k -> (k = true -> ~ X x) ->
  exists sc', declare k x sc = Some sc' /\ Inv X (add x k E) sc' /\ tl sc' = tl sc.
Proof.
  intros X E sc x k ((b & up & -> & Hb) & Hc) (C1 & C2) NX. unfold declare. destruct (find b x) as [k'|] eqn:F.
  - assert (Q : k' = k).
    { destruct (Hb x k' F) as [Hi|(-> & [Hi|Hi])]; [now apply C1| |]; destruct k; auto; exfalso; [now apply (C2 eq_refl)|now apply (NX eq_refl)]. }
    subst k'. rewrite Bool.eqb_reflx. eexists. split; [reflexivity|]. split; [|reflexivity]. split.
    + exists b, up. split; [reflexivity|]. intros y ky Fy. destruct (Hb y ky Fy) as [Hi|Hi]; [left; now right|now right].
    + intros y. cbn [cls add]. destruct (Z.eqb_spec y x) as [->|N]; [|apply Hc]. cbn. now rewrite F.
  - eexists. split; [reflexivity|]. split; [|reflexivity]. split.
    + exists ((x, k) :: b), up. split; [reflexivity|]. intros y ky Fy. cbn in Fy. destruct (Z.eqb_spec y x) as [->|N].
      * injection Fy as <-. left. now left.
      * destruct (Hb y ky Fy) as [Hi|Hi]; [left; now right|now right].
    + intros y. cbn [cls add]. cbn. destruct (Z.eqb_spec y x) as [->|N]; [reflexivity|]. apply (Hc y).
Qed.

(** * Specifiers with bodies *)
Definition sep (t : tok) : bool := match t with TSemi | TP PComma => true | _ => false end.
Lemma fdecl_reads : forall c d w ts t rest sc, g_fdecl Easg Econ c d w ts -> agree c (is_typedef sc) ts -> sep t = true ->
  exists n, forall m, n <= m -> forall A (k : declr -> option ex -> pr A),
    bind (orelse (P m _ GDeclr) (when (is PColon) (ret (DId None)) (fail Syntax)))
      (fun d => bind (when (is PColon) (shift (bind (must (erule constant)) (fun e => ret (Some e)))) (ret None)) (fun w => k d w))
      (sc, ts ++ t :: rest) = k d w (sc, t :: rest).
Proof.
  intros c d w ts t rest sc H Ag Ht. assert (Et : ends_expression true t = true) by (destruct t as [| |[]| | | |]; try discriminate; reflexivity).
  inversion H; subst.
  - destruct (proj1 (declr_complete c) _ _ H0 sc (t :: rest) Ag) as [n Hn]; [destruct t as [| |[]| | | |]; try discriminate; exact I|].
    exists n. intros m Hm A k. unfold bind, orelse. use Hn m. unfold when.
    replace (is PColon (sc, t :: rest)) with false by (destruct t as [| |[]| | | |]; try discriminate; reflexivity). reflexivity.
  - apply agree_app in Ag. destruct Ag as [A1 A2]. apply agree_cons in A2.
    destruct (proj1 (declr_complete c) _ _ H0 sc (TP PColon :: ets ++ t :: rest) A1 I) as [n Hn]. exists n. intros m Hm A k.
    rewrite <- app_assoc. cbn [app]. unfold bind, orelse. use Hn m. unfold when. isr. unfold shift, must. cbn [fst snd tl].
    rewrite (erule_ok _ _ _ _ _ _ _ rest sc Hcon H1 A2 Et). reflexivity.
  - apply agree_cons in Ag. cbn [app]. destruct (dn_first sc (TP PColon :: ets ++ t :: rest) I) as [n Hn]. exists n. intros m Hm A k.
    unfold bind, orelse. use Hn m. unfold when. repeat isr. unfold ret at 1. isr. unfold shift, must. cbn [fst snd tl].
    rewrite (erule_ok _ _ _ _ _ _ _ rest sc Hcon H0 Ag Et). reflexivity.
Qed.
Lemma fdecls_reads : forall c ds ts, g_fdecls Easg Econ c ds ts -> ds <> [] -> forall acc sc rest, agree c (is_typedef sc) ts ->
  R (GFieldDecls acc) (sc, ts ++ TSemi :: rest) (Ok (acc ++ ds), (sc, TSemi :: rest)).
Proof.
  intros c ds ts H. induction H as [c|c d w ts H|c d w ts ds ts' H Hd HD IH]; intros Ne acc sc rest Ag; [congruence| |].
  - destruct (fdecl_reads _ _ _ _ TSemi rest sc H Ag eq_refl) as [n Hn]. fuel n. use Hn m. go. reflexivity.
  - apply agree_app in Ag. destruct Ag as [A1 A2]. apply agree_cons in A2. rewrite <- app_assoc. cbn [app].
    destruct (fdecl_reads _ _ _ _ (TP PComma) (ts' ++ TSemi :: rest) sc H A1 eq_refl) as [n1 H1].
    destruct (IH Hd (acc ++ [(d, w)]) sc rest A2) as [n2 H2]. fuel (n1 + n2). use H1 m. unfold when. isr. unfold shift. cbn [fst snd tl].
    use H2 m. now rewrite <- app_assoc.
Qed.

Lemma value_reads : forall c v ts t rest sc, g_value Econ c v ts -> agree c (is_typedef sc) ts ->
  match t with TP PComma | TP PRBrace => True | _ => False end ->
  when (is PAssign) (shift (bind (must (erule constant)) (fun e => ret (Some e)))) (ret None) (sc, ts ++ t :: rest) = (Ok v, (sc, t :: rest)).
Proof.
  intros c v ts t rest sc H Ag Ht. inversion H; subst.
  - unfold when. cbn [app]. destruct t as [| |[]| | | |]; try contradiction; reflexivity.
  - apply agree_cons in Ag. cbn [app]. unfold when. isr. unfold shift, bind, must. cbn [fst snd tl].
    assert (Et : ends_expression true t = true) by (destruct t as [| |[]| | | |]; try contradiction; reflexivity).
    now rewrite (erule_ok _ _ _ _ _ _ _ rest sc Hcon H0 Ag Et).
Qed.
Lemma enums_reads : forall X E es ts E', g_enums Econ E es ts E' -> forall acc sc (comma : bool) rest, Inv X E sc -> exists sc',
  R (GEnums acc) (sc, ts ++ (if comma then [TP PComma] else []) ++ TP PRBrace :: rest) (Ok (acc ++ es), (sc', TP PRBrace :: rest)) /\
  Inv X E' sc' /\ tl sc' = tl sc.
Proof.
  intros X E es ts E' H. induction H as [E x v ts Hv C|E x v ts es ts' E' Hv C H IH]; intros acc sc comma rest HI.
  - destruct (declare_ok _ _ _ x false HI C ltac:(discriminate)) as (sc' & D & HI' & T). exists sc'. split; [|now split].
    cbn [app]. fuel 0. cbn [snd]. unfold shift, bind at 1. cbn [fst snd tl].
    destruct comma; cbn [app]; (rewrite (value_reads _ _ _ _ _ _ Hv (inv_agree _ _ _ _ HI)); [|exact I]); cbn [fst snd]; rewrite D;
      go; reflexivity.
  - destruct (declare_ok _ _ _ x false HI C ltac:(discriminate)) as (sc1 & D & HI1 & T1).
    destruct (IH (acc ++ [(x, v)]) sc1 comma rest HI1) as (sc' & [n Hn] & HI' & T'). exists sc'. split; [|split; [exact HI'|congruence]].
    cbn [app]. rewrite <- app_assoc. cbn [app]. fuel n. cbn [snd]. unfold shift at 1. unfold bind at 1. cbn [fst snd tl].
    rewrite (value_reads _ _ _ _ _ _ Hv (inv_agree _ _ _ _ HI)); [|exact I]. cbn [fst snd]. rewrite D. unfold when. isr. unfold shift. cbn [fst snd tl].
    assert (F : is PRBrace (sc1, ts' ++ (if comma then [TP PComma] else []) ++ TP PRBrace :: rest) = false) by (inversion H; reflexivity).
    rewrite F. use Hn m. now rewrite <- app_assoc.
Qed.


Lemma specs_first : forall E has ss ts E', g_specs Easg Econ E has ss ts E' -> ss <> [] ->
  exists t ts', ts = t :: ts' /\ spec_first t = true /\ (forall x, t = TId x -> cls E x = true).
Proof.
  intros E has ss ts E' H N. inversion H; subst; try congruence.
  - inversion H0; subst; eexists; eexists; (split; [reflexivity|split; [reflexivity|intros ? Q; inversion Q; subst; assumption]]).
  - eexists; eexists; (split; [reflexivity|split; [reflexivity|discriminate]]).
  - eexists; eexists; (split; [reflexivity|split; [reflexivity|discriminate]]).
  - eexists; eexists; (split; [reflexivity|split; [reflexivity|discriminate]]).
Qed.
Lemma fdecls_first : forall c ds ts, g_fdecls Easg Econ c ds ts -> ds <> [] ->
  match ts with TP PStar :: _ | TP PLParen :: _ | TId _ :: _ | TP PColon :: _ => True | _ => False end.
Proof.
  intros c ds ts H N. assert (Q : forall d w ts, g_fdecl Easg Econ c d w ts -> match ts with TP PStar :: _ | TP PLParen :: _ | TId _ :: _ | TP PColon :: _ => True | _ => False end).
  { intros d w ts0 H0. destruct (declr_shapes c) as (Sd & _). destruct H0 as [c d ts0 H0|c d ts0 e ets H0 _|]; try exact I;
      destruct (declr_shapes c) as (Sd' & _); apply Sd' in H0; toks ts0. }
  destruct H as [c|c d w ts H|c d w ts ds ts' H _ _]; [congruence|eapply Q; eassumption|]. apply Q in H. toks ts.
Qed.

Lemma specs_complete : forall X,
  (forall E has ss ts E', g_specs Easg Econ E has ss ts E' -> forall acc sc rest, has = has_type acc -> Inv X E sc ->
     has_type (acc ++ ss) = true -> no_brace rest -> no_spec (fun _ => true) true rest = true -> exists sc',
     R (GSpecs acc) (sc, ts ++ rest) (Ok (acc ++ ss), (sc', rest)) /\ Inv X E' sc' /\ tl sc' = tl sc) /\
  (forall E fs ts E', g_fields Easg Econ E fs ts E' -> forall acc sc rest, Inv X E sc -> exists sc',
     R (GFields acc) (sc, ts ++ TP PRBrace :: rest) (Ok (acc ++ fs), (sc', TP PRBrace :: rest)) /\ Inv X E' sc' /\ tl sc' = tl sc).
Proof.
  intros X. apply g_specs_mut.
  - (* end *)
    intros E has acc sc rest Hh HI Ht Nb Ns. exists sc. split; [|now split]. rewrite app_nil_r in *.
    apply specs_end; [destruct acc; discriminate|]. rewrite Ht. destruct rest as [|[]]; auto.
  - (* simple *)
    intros E has sp ts ss ts' E' H1 HS IH acc sc rest Hh HI Ht Nb Ns. subst has.
    assert (Q : (acc ++ [sp]) ++ ss = acc ++ sp :: ss) by now rewrite <- app_assoc.
    rewrite <- Q in *. destruct (IH (acc ++ [sp]) sc rest) as (sc' & G & HI' & T); auto.
    { rewrite has_type_app. cbn. now rewrite orb_false_r. }
    exists sc'. split; [|now split]. rewrite <- app_assoc. eapply spec1_step; [exact H1|exact (inv_agree _ _ _ _ HI)| |exact G].
    destruct ss as [|sp2 ss2]; [inversion HS; subst; exact Nb|].
    destruct (specs_first _ _ _ _ _ HS) as (t & ts2 & -> & F & _); [discriminate|]. cbn. destruct t; try exact I. now destruct p.
  - (* _Atomic *)
    intros E has ss ts' E' Ne HS IH acc sc rest Hh HI Ht Nb Ns. subst has.
    assert (Q : (acc ++ [SpQual KAtomic]) ++ ss = acc ++ SpQual KAtomic :: ss) by now rewrite <- app_assoc.
    rewrite <- Q in *. destruct (IH (acc ++ [SpQual KAtomic]) sc rest) as (sc' & G & HI' & T); auto.
    { rewrite has_type_app. cbn. now rewrite orb_false_r. }
    exists sc'. split; [|now split]. cbn [app]. apply atomic_step; [|exact G].
    destruct (specs_first _ _ _ _ _ HS Ne) as (t & ts2 & -> & F & _). cbn. destruct t; try exact I. now destruct p.
  - (* struct body *)
    intros E has k x fs ts E1 ss ts' E' Nk Nf HF IHF HS IH acc sc rest Hh HI Ht Nb Ns. subst has.
    destruct (IHF [] sc (ts' ++ rest) HI) as (sc1 & [n1 H1] & HI1 & T1).
    assert (Q : (acc ++ [SpBody k x fs]) ++ ss = acc ++ SpBody k x fs :: ss) by now rewrite <- app_assoc.
    rewrite <- Q in *. destruct (IH (acc ++ [SpBody k x fs]) sc1 rest) as (sc' & [n2 H2] & HI' & T2); auto.
    { rewrite has_type_app. cbn. now rewrite orb_true_r. }
    exists sc'. split; [|split; [exact HI'|congruence]]. cbn [app]. rewrite <- app_assoc. cbn [app]. rewrite <- app_assoc. cbn [app].
    fuel (n1 + n2).
    assert (S : apply (specifier (P m) acc) (sc, TKw (KTag k) :: g_name x ++ TP PLBrace :: ts ++ TP PRBrace :: ts' ++ rest) =
                (Ok (SpBody k x fs), (sc1, ts' ++ rest))).
    { unfold apply, specifier. cbn [snd].
      destruct k; try congruence; (destruct x as [x|]; cbn [g_name app]; unfold struct_specifier; go; use H1 m; go; reflexivity). }
    rewrite S. use H2 m. reflexivity.
  - (* enum body *)
    intros E has x es ts E1 ss ts' E' comma HE HS IH acc sc rest Hh HI Ht Nb Ns. subst has.
    destruct (enums_reads _ _ _ _ _ HE [] sc comma (ts' ++ rest) HI) as (sc1 & [n1 H1] & HI1 & T1).
    assert (Q : (acc ++ [SpEnum x es]) ++ ss = acc ++ SpEnum x es :: ss) by now rewrite <- app_assoc.
    rewrite <- Q in *. destruct (IH (acc ++ [SpEnum x es]) sc1 rest) as (sc' & [n2 H2] & HI' & T2); auto.
    { rewrite has_type_app. cbn. now rewrite orb_true_r. }
    exists sc'. split; [|split; [exact HI'|congruence]]. apps.
    fuel (n1 + n2).
    assert (S : apply (specifier (P m) acc) (sc, TKw (KTag KEnum) :: g_name x ++ TP PLBrace :: ts ++ (if comma then [TP PComma] else []) ++ TP PRBrace :: ts' ++ rest) =
                (Ok (SpEnum x es), (sc1, ts' ++ rest))).
    { unfold apply, specifier. cbn [snd].
      (destruct x as [x|]; cbn [g_name app]; unfold enum_specifier; go; use H1 m; go; reflexivity). }
    rewrite S. use H2 m. now rewrite Q.
  - (* end of the fields *)
    intros E acc sc rest HI. exists sc. split; [|now split]. cbn [app].
    destruct (specs_none sc (TP PRBrace :: rest) eq_refl) as [n Hn]. fuel n. unfold field_declaration, apply, bind. use Hn m. rewrite app_nil_r. reflexivity.
  - (* field *)
    intros E ss sts E1 ds dts fs ts E' HS IHS Ht HD HF IHF acc sc rest HI.
    destruct (IHS [] sc (dts ++ TSemi :: ts ++ TP PRBrace :: rest) eq_refl HI Ht) as (sc1 & [n1 H1] & HI1 & T1).
    { destruct ds as [|d0 ds0]; [inversion HD; subst; exact I|]. pose proof (fdecls_first _ _ _ HD ltac:(discriminate)) as F. toks dts. }
    { destruct ds as [|d0 ds0]; [inversion HD; subst; exact eq_refl|]. pose proof (fdecls_first _ _ _ HD ltac:(discriminate)) as F. toks dts. }
    destruct (IHF (acc ++ [Field ss ds]) sc1 rest HI1) as (sc' & [n2 H2] & HI' & T2).
    exists sc'. split; [|split; [exact HI'|congruence]].
    assert (FD : exists n, forall m, n <= m -> when is_semi (ret []) (P m _ (GFieldDecls [])) (sc1, dts ++ TSemi :: ts ++ TP PRBrace :: rest) =
                (Ok ds, (sc1, TSemi :: ts ++ TP PRBrace :: rest))).
    { destruct ds as [|d0 ds0].
      - inversion HD; subst. exists 0. intros m _. reflexivity.
      - pose proof (fdecls_first _ _ _ HD ltac:(discriminate)) as F.
        destruct (fdecls_reads _ _ _ HD ltac:(discriminate) [] sc1 (ts ++ TP PRBrace :: rest) (inv_agree _ _ _ _ HI1)) as [n Hn].
        exists n. intros m Hm. unfold when. replace (is_semi _) with false by (toks dts). use Hn m. reflexivity. }
    destruct FD as [n3 H3]. rewrite <- !app_assoc. cbn [app]. fuel (n1 + n2 + n3). unfold field_declaration, apply, bind. use H1 m. cbn [app].
    use H3 m. go. use H2 m. now rewrite <- app_assoc.
Qed.

(** * Initializers *)
Lemma asg_first : forall c e ts, Easg c e ts -> exists t ts', ts = t :: ts' /\ starts_expression c t = true.
Proof. intros c e ts H. exact (rd_first _ _ _ Hasg _ _ _ H). Qed.
Lemma init_first : forall c i ts, g_init Easg Econ c i ts -> exists t ts', ts = t :: ts' /\ (t = TP PLBrace \/ starts_expression c t = true).
Proof.
  intros c i ts H. inversion H; subst.
  - destruct (asg_first _ _ _ H0) as (t & ts' & -> & F). eauto.
  - eauto.
Qed.
Lemma desigs_reads : forall c ds ts, g_desigs Econ c ds ts -> forall acc sc rest, agree c (is_typedef sc) ts ->
  R (GDesig acc) (sc, ts ++ TP PAssign :: rest) (Ok (acc ++ ds), (sc, TP PAssign :: rest)).
Proof.
  intros c ds ts H. induction H as [|e ts ds ts' He H IH|x ds ts' H IH]; intros acc sc rest Ag.
  - cbn [app]. fuel 0. go. now rewrite app_nil_r.
  - apply agree_cons in Ag. apply agree_app in Ag. destruct Ag as [A1 A2]. apply agree_cons in A2.
    destruct (IH (acc ++ [DIndex e]) sc rest A2) as [n Hn]. apps. fuel n. go.
    rewrite (erule_ok _ _ _ _ _ _ (TP PRBracket) (ts' ++ TP PAssign :: rest) sc Hcon He A1 eq_refl). go. use Hn m. now rewrite <- app_assoc.
  - apply agree_cons in Ag. apply agree_cons in Ag. destruct (IH (acc ++ [DMember x]) sc rest Ag) as [n Hn]. apps. fuel n. go.
    use Hn m. now rewrite <- app_assoc.
Qed.
Lemma designation_reads : forall c ds dts, g_designation Econ c ds dts -> forall sc t rest, agree c (is_typedef sc) dts ->
  match t with TP PLBracket | TP PDot => False | _ => True end ->
  exists n, forall m, n <= m -> when (fun s => is PLBracket s || is PDot s)
    (bind (P m _ (GDesig [])) (fun ds => expect PAssign Syntax (ret ds))) (ret []) (sc, dts ++ t :: rest) = (Ok ds, (sc, t :: rest)).
Proof.
  intros c ds dts H sc t rest Ag Ht. unfold g_designation in H. destruct ds as [|d ds].
  - subst dts. exists 0. intros m _. cbn [app]. unfold when. destruct t as [| |[]| | | |]; try contradiction; reflexivity.
  - destruct H as (ts & H & ->). apply agree_app in Ag. destruct (desigs_reads _ _ _ H [] sc (t :: rest) (proj1 Ag)) as [n Hn].
    exists n. intros m Hm. apps. unfold when.
    assert (F : is PLBracket (sc, ts ++ TP PAssign :: t :: rest) || is PDot (sc, ts ++ TP PAssign :: t :: rest) = true)
      by (inversion H; subst; reflexivity).
    rewrite F. unfold bind. use Hn m. go. reflexivity.
Qed.
Lemma entry_first : forall c ds dts i its r sc, g_designation Econ c ds dts -> g_init Easg Econ c i its -> is PRBrace (sc, dts ++ its ++ r) = false.
Proof.
  intros c ds dts i its r sc H1 H2. unfold g_designation in H1. destruct ds as [|d ds].
  - subst dts. destruct (init_first _ _ _ H2) as (t1 & ts1 & -> & [->|F]); [reflexivity|].
    cbn [app]. destruct t1 as [| |[]| | | |]; try discriminate; reflexivity.
  - destruct H1 as (ts1 & H1 & ->). inversion H1; subst; reflexivity.
Qed.
Lemma init_complete : forall c,
  (forall i ts, g_init Easg Econ c i ts -> forall sc t rest, agree c (is_typedef sc) ts ->
     match t with TSemi | TP PComma | TP PRBrace => True | _ => False end ->
     R GInit (sc, ts ++ t :: rest) (Ok i, (sc, t :: rest))) /\
  (forall l ts, g_ilist Easg Econ c l ts -> forall acc sc (comma : bool) rest, agree c (is_typedef sc) ts ->
     R (GInitList acc) (sc, ts ++ (if comma then [TP PComma] else []) ++ TP PRBrace :: rest) (Ok (acc ++ l), (sc, TP PRBrace :: rest))).
Proof.
  intros c. apply g_init_mut.
  - intros e ts He sc t rest Ag Ht. fuel 0. unfold when.
    destruct (asg_first _ _ _ He) as (t0 & ts0 & -> & F).
    replace (is PLBrace _) with false by (destruct t0 as [| |[]| | | |]; try discriminate; reflexivity).
    unfold bind, must. rewrite (erule_ok _ _ _ _ _ _ t rest sc Hasg He Ag); [reflexivity|].
    destruct t as [| |[]| | | |]; try contradiction; reflexivity.
  - intros l ts comma HL IH sc t rest Ag _. apply agree_cons in Ag. apply agree_app in Ag. destruct Ag as [A1 _].
    destruct (IH [] sc comma (t :: rest) A1) as [n Hn]. apps. fuel n. unfold when at 1. isr. unfold shift. cbn [fst snd tl].
    unfold bind, when.
    assert (F : is PRBrace (sc, ts ++ (if comma then [TP PComma] else []) ++ TP PRBrace :: t :: rest) = false).
    { inversion HL; subst; apps; eapply entry_first; eassumption. }
    rewrite F. use Hn m. go. reflexivity.
  - intros ds dts i ts HD Hi IH acc sc comma rest Ag. apply agree_app in Ag. destruct Ag as [A1 A2].
    assert (N : forall t, t = TP PLBrace \/ starts_expression c t = true -> match t with TP PLBracket | TP PDot => False | _ => True end)
      by (intros t [->|F]; [exact I|destruct t as [| |[]| | | |]; try discriminate; exact I]).
    destruct (init_first _ _ _ Hi) as (t & ts' & -> & F).
    destruct comma; apps.
    + destruct (designation_reads _ _ _ HD sc t (ts' ++ TP PComma :: TP PRBrace :: rest) A1 (N t F)) as [n1 H1].
      destruct (IH sc (TP PComma) (TP PRBrace :: rest) A2 I) as [n2 H2]. cbn [app] in H2. fuel (n1 + n2). unfold bind at 1. use H1 m.
      unfold bind. use H2 m. go. reflexivity.
    + destruct (designation_reads _ _ _ HD sc t (ts' ++ TP PRBrace :: rest) A1 (N t F)) as [n1 H1].
      destruct (IH sc (TP PRBrace) rest A2 I) as [n2 H2]. cbn [app] in H2. fuel (n1 + n2). unfold bind at 1. use H1 m.
      unfold bind. use H2 m. go. reflexivity.
  - intros ds dts i ts l ts1 HD Hi IH HL IHL acc sc comma rest Ag. apply agree_app in Ag. destruct Ag as [A1 A2].
    apply agree_app in A2. destruct A2 as [A2 A3]. apply agree_cons in A3.
    assert (N : forall t, t = TP PLBrace \/ starts_expression c t = true -> match t with TP PLBracket | TP PDot => False | _ => True end)
      by (intros t [->|F]; [exact I|destruct t as [| |[]| | | |]; try discriminate; exact I]).
    destruct (init_first _ _ _ Hi) as (t & ts' & -> & F). apps.
    set (r := (if comma then [TP PComma] else []) ++ TP PRBrace :: rest) in *.
    destruct (designation_reads _ _ _ HD sc t (ts' ++ TP PComma :: ts1 ++ r) A1 (N t F)) as [n1 H1].
    destruct (IH sc (TP PComma) (ts1 ++ r) A2 I) as [n2 H2]. cbn [app] in H2.
    destruct (IHL (acc ++ [(ds, i)]) sc comma rest A3) as [n3 H3]. fold r in H3. fuel (n1 + n2 + n3). unfold bind at 1. use H1 m.
    unfold bind. use H2 m. unfold when. isr. unfold shift. cbn [fst snd tl].
    assert (G : is PRBrace (sc, ts1 ++ r) = false).
    { inversion HL; subst; apps; eapply entry_first; eassumption. }
    rewrite G. use H3 m. now rewrite <- app_assoc.
Qed.

(** * Declarations *)
Lemma agree_trans : forall c c0 sc ts, agree c c0 ts -> (forall x, is_typedef sc x = c0 x) -> agree c (is_typedef sc) ts.
Proof. intros c c0 sc ts A H x Hx. rewrite H. now apply A. Qed.
Lemma idecl_reads : forall c0 k E d x i ts E', g_idecl Easg Econ c0 k E d x i ts E' -> forall sc t rest,
  (forall x, is_typedef sc x = c0 x) -> sep t = true ->
  exists n, forall m, n <= m -> forall A (K : declr -> option init -> pr A),
    bind (must (P m _ GDeclr)) (fun d => bind (when (is PAssign) (shift (bind (P m _ GInit) (fun i => ret (Some i)))) (ret None)) (fun i => K d i))
      (sc, ts ++ t :: rest) = K d i (sc, t :: rest).
Proof.
  intros c0 k E d x i ts E' H sc t rest Hc Ht. inversion H; subst.
  - destruct (proj1 (declr_complete _) _ _ H0 sc (t :: rest) (agree_trans _ _ _ _ H1 Hc)) as [n Hn].
    { destruct t as [| |[]| | | |]; try discriminate; exact I. }
    exists n. intros m Hm A K. unfold bind, must. use Hn m. unfold when.
    replace (is PAssign _) with false by (destruct t as [| |[]| | | |]; try discriminate; reflexivity). reflexivity.
  - destruct (proj1 (declr_complete _) _ _ H0 sc (TP PAssign :: its ++ t :: rest) (agree_trans _ _ _ _ H1 Hc) I) as [n Hn].
    destruct (proj1 (init_complete _) _ _ H4 sc t rest (agree_trans _ _ _ _ H5 Hc)) as [n2 Hn2].
    { destruct t as [| |[]| | | |]; try discriminate; exact I. }
    exists (n + n2). intros m Hm A K. apps. unfold bind, must. use Hn m. unfold when. isr. unfold shift. cbn [fst snd tl]. use Hn2 m. reflexivity.
Qed.
Lemma inits_reads : forall c0 k E ds ts E', g_inits Easg Econ c0 k E ds ts E' -> forall acc sc rest,
  (forall x, is_typedef sc x = c0 x) -> R (GInitDecls acc) (sc, ts ++ TSemi :: rest) (Ok (acc ++ ds), (sc, TSemi :: rest)).
Proof.
  intros c0 k E ds ts E' H. induction H as [E d x i ts E' H|E d x i ts E1 ds ts' E' H HD IH]; intros acc sc rest Hc.
  - destruct (idecl_reads _ _ _ _ _ _ _ _ H sc TSemi rest Hc eq_refl) as [n Hn]. fuel n. use Hn m. go. reflexivity.
  - destruct (idecl_reads _ _ _ _ _ _ _ _ H sc (TP PComma) (ts' ++ TSemi :: rest) Hc eq_refl) as [n1 H1].
    destruct (IH (acc ++ [(d, i)]) sc rest Hc) as [n2 H2]. apps. fuel (n1 + n2). use H1 m. unfold when. isr. unfold shift. cbn [fst snd tl].
    use H2 m. now rewrite <- app_assoc.
Qed.
Definition none (_ : Z) : Prop := False.
Lemma idecl_shape : forall c0 k E d x i ts E', g_idecl Easg Econ c0 k E d x i ts E' ->
  name_of d = Some x /\ can_declare E x k /\ E' = add x k E /\ declr_first ts.
Proof.
  intros c0 k E d x i ts E' H. inversion H; subst; repeat split; auto; try apply H3;
    destruct (declr_shapes (cls E)) as (Sd & _); apply Sd in H0; auto. destruct ts0 as [|[| |[]| | | |] ?]; try exact I; contradiction.
Qed.
Lemma inits_declare : forall c0 k E ds ts E', g_inits Easg Econ c0 k E ds ts E' -> forall sc, Inv none E sc ->
  exists sc', declare_all k ds sc = Some sc' /\ Inv none E' sc' /\ tl sc' = tl sc.
Proof.
  intros c0 k E ds ts E' H. induction H as [E d x i ts E' H|E d x i ts E1 ds ts' E' H HD IH]; intros sc HI.
  - destruct (idecl_shape _ _ _ _ _ _ _ _ H) as (N & C & -> & _).
    destruct (declare_ok _ _ _ _ _ HI C (fun _ f => f)) as (sc' & D & HI' & T). exists sc'. cbn. rewrite N, D. auto.
  - destruct (idecl_shape _ _ _ _ _ _ _ _ H) as (N & C & -> & _).
    destruct (declare_ok _ _ _ _ _ HI C (fun _ f => f)) as (sc1 & D & HI1 & T). destruct (IH sc1 HI1) as (sc' & D' & HI' & T').
    exists sc'. cbn. rewrite N, D, D'. split; [reflexivity|split; [exact HI'|congruence]].
Qed.
Lemma inits_first : forall c0 k E ds ts E', g_inits Easg Econ c0 k E ds ts E' -> declr_first ts.
Proof.
  intros c0 k E ds ts E' H. inversion H; subst; destruct (idecl_shape _ _ _ _ _ _ _ _ H0) as (_ & _ & _ & F); [exact F|]. toks ts0.
Qed.
(** what follows the specifiers of a declaration *)
Definition dtail (E : env) (ss : list (spec (ex := ex))) (ds : list (declr * option init)) (ts : list tok) (E' : env) : Prop :=
  (ds = [] /\ ts = [] /\ E' = E) \/ g_inits Easg Econ (cls E) (typedefs ss) E ds ts E'.
Lemma decl_parts : forall E ss ds ts E', g_decl Easg Econ E (Decl ss ds) ts E' -> exists sts E1 dts,
  g_specs Easg Econ E false ss sts E1 /\ has_type ss = true /\ dtail E1 ss ds dts E' /\ ts = sts ++ dts ++ [TSemi].
Proof.
  intros E ss ds ts E' H. inversion H; subst.
  - exists sts, E', []. repeat split; auto. now left.
  - exists sts, E1, ts0. repeat split; auto. now right.
Qed.
Lemma inv_absorb : forall X E sc, Inv X E sc -> (forall x, X x -> In (x, false) (here E)) -> Inv none E sc.
Proof.
  intros X E sc ((b & up & -> & Hb) & Hc) HX. split; [|exact Hc]. exists b, up. split; [reflexivity|].
  intros x k F. destruct (Hb x k F) as [Hi|(-> & [Hi|Hi])]; auto.
Qed.
Lemma dtail_first : forall E ss ds ts E', dtail E ss ds ts E' -> forall rest, no_brace (ts ++ TSemi :: rest) /\ no_spec (fun _ => true) true (ts ++ TSemi :: rest) = true.
Proof.
  intros E ss ds ts E' [(_ & -> & _)|H] rest; [split; [exact I|reflexivity]|]. apply inits_first in H. toks ts; split; try exact I; reflexivity.
Qed.
Lemma decl_reads : forall E ss sts E1 ds dts E' X sc rest, g_specs Easg Econ E false ss sts E1 -> has_type ss = true ->
  dtail E1 ss ds dts E' -> Inv X E sc -> (forall x, X x -> In (x, false) (here E1)) -> exists sc',
  R GDecl (sc, sts ++ dts ++ TSemi :: rest) (Ok (Decl ss ds), (sc', rest)) /\ Inv none E' sc' /\ tl sc' = tl sc.
Proof.
  intros E ss sts E1 ds dts E' X sc rest HS Ht HD HI HX. destruct (dtail_first _ _ _ _ _ HD rest) as [F1 F2].
  destruct (proj1 (specs_complete X) _ _ _ _ _ HS [] sc (dts ++ TSemi :: rest) eq_refl HI Ht F1 F2) as (sc1 & [n1 H1] & HI1 & T1).
  apply inv_absorb in HI1; [|exact HX]. cbn [app] in H1. destruct HD as [(-> & -> & ->)|HD].
  - exists sc1. split; [|now split]. fuel n1. unfold apply, bind. use H1 m. cbn [app]. go. reflexivity.
  - destruct (inits_reads _ _ _ _ _ _ HD [] sc1 rest (proj2 HI1)) as [n2 H2].
    destruct (inits_declare _ _ _ _ _ _ HD sc1 HI1) as (sc' & D & HI' & T'). exists sc'. split; [|split; [exact HI'|congruence]].
    fuel (n1 + n2). unfold apply, bind. use H1 m. unfold when. apply inits_first in HD. cbn [app] in H2.
    replace (is_semi _) with false by (toks dts). use H2 m. unfold semi. isr. unfold shift. cbn [fst snd tl]. rewrite D. reflexivity.
Qed.
Lemma decl_none : forall sc ts, no_spec (is_typedef sc) false ts = true -> R GDecl (sc, ts) (NoMatch, (sc, ts)).
Proof. intros sc ts H. destruct (specs_none sc ts H) as [n Hn]. fuel n. unfold apply, bind. use Hn m. reflexivity. Qed.

(** * Statements *)
Lemma exp_first : forall c e ts, Eexp c e ts -> exists t ts', ts = t :: ts' /\ starts_expression c t = true.
Proof. intros c e ts H. exact (rd_first _ _ _ Hexp _ _ _ H). Qed.
Definition stmt_first (c : Z -> bool) (t : tok) : bool :=
  match t with
  | TId _ | TSemi | TP PLBrace => true
  | TKw (KIf | KSwitch | KWhile | KDo | KFor | KReturn | KGoto | KBreak | KContinue | KCase | KDefault) => true
  | _ => starts_expression c t
  end.
Lemma stmt_starts : forall E s ts E', g_stmt Eexp Easg Econ E s ts E' -> exists t ts', ts = t :: ts' /\ stmt_first (cls E) t = true.
Proof.
  intros E s ts E' H. inversion H; subst; try (eexists; eexists; split; reflexivity).
  inversion H0; subst; [eexists; eexists; split; reflexivity|].
  destruct (exp_first _ _ _ H1) as (t & ts' & -> & F). exists t. eexists. split; [reflexivity|].
  destruct t as [| [] |[]| | | |]; try discriminate; reflexivity.
Qed.
Lemma stmt_env : forall E s ts E', g_stmt Eexp Easg Econ E s ts E' -> cls E' = cls E /\ here E' = here E.
Proof. intros E s ts E' H. induction H; auto; destruct IHg_stmt1, IHg_stmt2; split; congruence. Qed.

Definition no_else (ts : list tok) : Prop := match ts with TKw KElse :: _ => False | _ => True end.
Definition is_kw (t : tok) : Prop := match t with TKw KCase | TKw KDefault | TKw KSizeof | TKw KAlignof => False | TKw _ => True | _ => False end.
(** a statement that starts with a keyword is left to the last three rules *)
Lemma stmt_kw : forall k sc ts n r, is_kw (TKw k) ->
  (forall m, n <= m -> orelse (apply (selection expression (P m))) (orelse (apply (iteration expression (P m))) (apply (jump expression))) (sc, TKw k :: ts) = r) ->
  R GStmt (sc, TKw k :: ts) r.
Proof.
  intros k sc ts n r Hk Hn. fuel n. specialize (Hn m ltac:(lia)).
  assert (L : apply (labeled constant (P m)) (sc, TKw k :: ts) = (NoMatch, (sc, TKw k :: ts))) by (destruct k; try contradiction; reflexivity).
  unfold orelse at 1. rewrite L.
  assert (C : apply (bind (compound (P m)) (fun its => ret (SBlock its))) (sc, TKw k :: ts) = (NoMatch, (sc, TKw k :: ts))) by reflexivity.
  unfold orelse at 1. rewrite C.
  assert (N : apply (expression_statement expression) (sc, TKw k :: ts) = (NoMatch, (sc, TKw k :: ts))).
  { unfold apply, expression_statement, bind, when. cbn [is_semi snd]. rewrite (erule_none _ _ _ (TKw k) ts sc Hexp); [reflexivity|].
    destruct k; try contradiction; reflexivity. }
  unfold orelse at 1. rewrite N. exact Hn.
Qed.
Lemma compound_reads : forall F its ts E' (sc : scope) rest, Inv none F ([] :: sc) ->
  (forall acc sc rest, Inv none F sc -> exists sc',
     R (GItems acc) (sc, ts ++ TP PRBrace :: rest) (Ok (acc ++ its), (sc', TP PRBrace :: rest)) /\ Inv none E' sc' /\ tl sc' = tl sc) ->
  exists n, forall m, n <= m -> compound (P m) (sc, TP PLBrace :: ts ++ TP PRBrace :: rest) = (Ok its, (sc, rest)).
Proof.
  intros F its ts E' sc rest HI IH. destruct (IH [] ([] :: sc) rest HI) as (sc' & [n Hn] & _ & T).
  exists n. intros m Hm. unfold compound, expect at 1. isr. unfold shift, push, bind. cbn [fst snd tl].
    pose proof (Hn m ltac:(lia)) as Hm'. unfold scope, block in *. rewrite Hm'. unfold expect. isr.
    unfold shift, pop, ret. cbn [fst snd tl app]. cbn [tl] in T. change (@tl block sc') with (@tl (list (Z * bool)) sc'). now rewrite T.
Qed.
Lemma inv_enter : forall (E F : env) (sc : scope), (forall x, is_typedef sc x = cls E x) -> (forall x, cls F x = cls E x) -> Inv none F ([] :: sc).
Proof.
  intros E F sc H Q. split; [|intros x; rewrite Q; exact (H x)]. exists [], sc. split; [reflexivity|]. intros x k D. discriminate D.
Qed.
Lemma opt_reads : forall c e ts sc t rest (stop : st -> bool), g_opt Eexp c e ts -> agree c (is_typedef sc) ts ->
  match t with TSemi => stop = is_semi | TP PRParen => stop = is PRParen | _ => False end ->
  opt_expr expression stop (sc, ts ++ t :: rest) = (Ok e, (sc, t :: rest)).
Proof.
  intros c e ts sc t rest stop H Ag Ht.
  assert (St : stop (sc, t :: rest) = true) by (destruct t as [| |[]| | | |]; try contradiction; subst stop; reflexivity).
  inversion H; subst.
  - cbn [app]. unfold opt_expr, when. rewrite St. reflexivity.
  - unfold opt_expr, when. destruct (exp_first _ _ _ H0) as (t0 & ts0 & -> & F).
    replace (stop (sc, (t0 :: ts0) ++ t :: rest)) with false.
    2:{ destruct t as [| |[]| | | |]; try contradiction; subst stop; cbn [app]; destruct t0 as [| |[]| | | |]; try discriminate; reflexivity. }
    unfold bind, must. rewrite (erule_ok _ _ _ _ _ _ t rest sc Hexp H0 Ag); [reflexivity|].
    destruct t as [| |[]| | | |]; try contradiction; reflexivity.
Qed.
Lemma parens_reads : forall c e ets A (k : ex -> pr A) sc rest, Eexp c e ets -> agree c (is_typedef sc) ets ->
  parens expression k (sc, TP PLParen :: ets ++ TP PRParen :: rest) = k e (sc, rest).
Proof.
  intros c e ets A k sc rest He Ag. unfold parens, expect at 1. isr. unfold shift, bind, must. cbn [fst snd tl].
  rewrite (erule_ok _ _ _ _ _ _ (TP PRParen) rest sc Hexp He Ag eq_refl). go. reflexivity.
Qed.


Lemma inv_leave : forall E E1 E2 sc, Inv none E2 sc -> cls E2 = cls E1 -> here E2 = here E1 -> (forall x, cls E1 x = cls E x) ->
  (forall x, In (x, true) (here E1) -> In (x, true) (here E)) -> Inv none (leave E E2) sc.
Proof.
  intros E E1 E2 sc ((b & up & -> & Hb) & Hc) Q1 Q2 H1 H2. split.
  - exists b, up. split; [reflexivity|]. intros x k F. destruct (Hb x k F) as [Hi|(-> & [Hi|[]])].
    + destruct k.
      * left. apply H2. now rewrite <- Q2.
      * right. split; [reflexivity|]. left. cbn. apply in_or_app. right. apply in_map_iff. now exists (x, false).
    + right. split; [reflexivity|]. left. cbn. apply in_or_app. now left.
  - intros x. cbn [cls leave]. rewrite Hc, Q1. apply H1.
Qed.
Lemma decl_starts : forall E d ts E', g_decl Easg Econ E d ts E' -> exists t ts', ts = t :: ts' /\ spec_first t = true /\ (forall x, t = TId x -> cls E x = true).
Proof.
  intros E d ts E' H. inversion H; subst;
    (destruct (specs_first _ _ _ _ _ H0) as (t & ts' & -> & F); [intros ->; discriminate|]; exists t; eexists; split; [reflexivity|exact F]).
Qed.
Lemma items_rest : forall E its ts E' rest, g_items Eexp Easg Econ E its ts E' -> no_else (ts ++ TP PRBrace :: rest) /\
  (its <> [] -> is PRBrace ([], ts ++ TP PRBrace :: rest) = false).
Proof.
  intros E its ts E' rest H. inversion H; subst.
  - split; [exact I|congruence].
  - destruct (decl_starts _ _ _ _ H0) as (t & ts2 & -> & F & _). split; [destruct t as [|[]| | | | |]; try exact I; discriminate|].
    intros _. destruct t; try discriminate; reflexivity.
  - destruct (stmt_starts _ _ _ _ H0) as (t & ts2 & -> & F). split; [destruct t as [|[]| | | | |]; try exact I; discriminate|].
    intros _. destruct t as [| |[]| | | |]; try discriminate; reflexivity.
Qed.
Lemma is_scope : forall p sc sc' ts, is p (sc, ts) = is p (sc', ts).
Proof. reflexivity. Qed.

Lemma finit_reads : forall E i ts E1, g_finit Eexp Easg Econ E i ts E1 -> forall sc rest, Inv none E sc -> 
     (forall x, cls E1 x = cls E x) /\ (forall x, In (x, true) (here E1) -> In (x, true) (here E)) /\ exists sc',
     (exists n, forall m, n <= m ->
      for_init expression (P m) (sc, ts ++ rest)
      = (Ok i, (sc', rest))) /\ Inv none E1 sc' /\ tl sc' = tl sc.
Proof.
  intros E i ts E1 H. destruct H as [E|E e ts He|E [ss ds] ts E1 HD C1 C2]; intros sc rest HI.
  - (* for ( ; *)
    cbn [app]. split; [reflexivity|split; [auto|]]. exists sc. split; [|now split].
    destruct (decl_none sc (TSemi :: rest) eq_refl) as [n Hn]. exists n. intros m Hm. cbn [app]. unfold for_init, orelse at 1, bind at 1, apply at 1. use Hn m. reflexivity.
  - (* for (e; *)
    split; [reflexivity|split; [auto|]]. exists sc. split; [|now split]. apps.
    destruct (exp_first _ _ _ He) as (t0 & ts0 & Q & F).
    destruct (decl_none sc (ts ++ TSemi :: rest)) as [n Hn].
    { subst ts. cbn. destruct t0 as [|[]|[]| | | |]; try discriminate; try reflexivity. cbn. rewrite (proj2 HI). exact F. }
    exists n. intros m Hm. unfold for_init, orelse at 1, bind at 1, apply at 1. use Hn m. cbn [fst snd]. unfold bind.
    rewrite (opt_reads _ _ _ _ TSemi _ _ (go_some _ _ _ _ He) (inv_agree _ _ _ _ HI) eq_refl). reflexivity.
  - (* for (int x; *)
    split; [exact C1|split; [exact C2|]].
    destruct (decl_parts _ _ _ _ _ HD) as (sts & E2 & dts & HS & Ht & Hd & ->).
    destruct (decl_reads _ _ _ _ _ _ _ _ sc rest HS Ht Hd HI (fun _ f => match f with end)) as (sc' & [n Hn] & HI' & T).
    exists sc'. split; [|now split]. exists n. intros m Hm. apps. unfold for_init, orelse, bind at 1, apply. use Hn m. reflexivity.
Qed.
Lemma stmt_complete :
  (forall E s ts E', g_stmt Eexp Easg Econ E s ts E' -> forall sc rest, Inv none E sc -> (opens s = true -> no_else rest) -> exists sc',
     R GStmt (sc, ts ++ rest) (Ok s, (sc', rest)) /\ Inv none E' sc' /\ tl sc' = tl sc) /\
  (forall E its ts E', g_items Eexp Easg Econ E its ts E' -> forall acc sc rest, Inv none E sc -> exists sc',
     R (GItems acc) (sc, ts ++ TP PRBrace :: rest) (Ok (acc ++ its), (sc', TP PRBrace :: rest)) /\ Inv none E' sc' /\ tl sc' = tl sc).
Proof.
  apply g_stmt_mut.
  - (* label *)
    intros E x s ts E' HS IH sc rest HI Ho. destruct (IH sc rest HI Ho) as (sc' & [n Hn] & HI' & T). exists sc'. split; [|now split].
    cbn [app]. fuel n. unfold orelse at 1, apply at 1, labeled. go. unfold stmt_. go. use Hn m. reflexivity.
  - (* case *)
    intros E e ets s ts E' He HS IH sc rest HI Ho. destruct (IH sc rest HI Ho) as (sc' & [n Hn] & HI' & T). exists sc'. split; [|now split].
    apps. fuel n. unfold orelse at 1, apply at 1, labeled. go.
    rewrite (erule_ok _ _ _ _ _ _ (TP PColon) (ts ++ rest) sc Hcon He (inv_agree _ _ _ _ HI) eq_refl). go. unfold stmt_. go. use Hn m. reflexivity.
  - (* default *)
    intros E s ts E' HS IH sc rest HI Ho. destruct (IH sc rest HI Ho) as (sc' & [n Hn] & HI' & T). exists sc'. split; [|now split].
    cbn [app]. fuel n. unfold orelse at 1, apply at 1, labeled. go. unfold stmt_. go. use Hn m. reflexivity.
  - (* block *)
    intros E its ts E' HS IH sc rest HI _. destruct (compound_reads _ _ _ _ sc rest (inv_enter E (enter E) sc (proj2 HI) (fun _ => eq_refl)) IH) as [n Hn]. exists sc. split; [|now split].
    apps. fuel n. unfold orelse at 1.
    assert (L : apply (labeled constant (P m)) (sc, TP PLBrace :: ts ++ TP PRBrace :: rest) = (NoMatch, (sc, TP PLBrace :: ts ++ TP PRBrace :: rest))) by reflexivity.
    rewrite L. unfold orelse at 1, apply at 1, bind. use Hn m. reflexivity.
  - (* expression *)
    intros E e ts He sc rest HI _. exists sc. split; [|now split]. apps. fuel 0.
    assert (L : apply (labeled constant (P m)) (sc, ts ++ TSemi :: rest) = (NoMatch, (sc, ts ++ TSemi :: rest)) /\
                apply (bind (compound (P m)) (fun its => ret (SBlock its))) (sc, ts ++ TSemi :: rest) = (NoMatch, (sc, ts ++ TSemi :: rest))).
    { inversion He; subst; [split; reflexivity|]. destruct (exp_first _ _ _ H) as (t0 & ts0 & -> & F). cbn [app]. split.
      - destruct t0 as [|[]|[]| | | |]; try discriminate; try reflexivity.
        destruct ts0 as [|[| |[]| | | |] ts0]; try reflexivity. exfalso. exact (rd_label _ _ _ Hexp _ _ _ _ H).
      - destruct t0 as [|[]|[]| | | |]; try discriminate; reflexivity. }
    destruct L as [L1 L2]. unfold orelse at 1. rewrite L1. unfold orelse at 1. rewrite L2.
    unfold orelse at 1, apply at 1, expression_statement.
    inversion He; subst; [reflexivity|]. destruct (exp_first _ _ _ H) as (t0 & ts0 & Q & F). unfold bind, when.
    replace (is_semi _) with false by (subst ts; destruct t0; try discriminate; reflexivity).
    rewrite (erule_ok _ _ _ _ _ _ TSemi rest sc Hexp H (inv_agree _ _ _ _ HI) eq_refl). go. reflexivity.
  - (* if *)
    intros E e ets s ts E' He HS IH sc rest HI Ho. destruct (IH sc rest HI (fun _ => Ho eq_refl)) as (sc' & [n Hn] & HI' & T). exists sc'. split; [|now split].
    apps. apply (stmt_kw _ _ _ n); [exact I|]. intros m Hm. unfold orelse at 1, apply at 1, selection. unfold shift. cbn [fst snd tl].
    rewrite (parens_reads _ _ _ _ _ _ _ He (inv_agree _ _ _ _ HI)). unfold bind, stmt_, must. use Hn m. cbn [snd].
    specialize (Ho eq_refl). destruct rest as [|[|[]| | | | |] r]; try reflexivity. contradiction.
  - (* if else *)
    intros E e ets s ts E1 s' ts' E' He HS IH Hop HS' IH' sc rest HI Ho.
    destruct (IH sc (TKw KElse :: ts' ++ rest) HI) as (sc1 & [n1 H1] & HI1 & T1); [congruence|].
    destruct (IH' sc1 rest HI1 Ho) as (sc' & [n2 H2] & HI' & T2). exists sc'. split; [|split; [exact HI'|congruence]].
    apps. apply (stmt_kw _ _ _ (n1 + n2)); [exact I|]. intros m Hm. unfold orelse at 1, apply at 1, selection. unfold shift at 1. cbn [fst snd tl].
    rewrite (parens_reads _ _ _ _ _ _ _ He (inv_agree _ _ _ _ HI)). unfold bind at 1. unfold stmt_, must. use H1 m. go. use H2 m. reflexivity.
  - (* switch *)
    intros E e ets s ts E' He HS IH sc rest HI Ho. destruct (IH sc rest HI Ho) as (sc' & [n Hn] & HI' & T). exists sc'. split; [|now split].
    apps. apply (stmt_kw _ _ _ n); [exact I|]. intros m Hm. unfold orelse at 1, apply at 1, selection. unfold shift. cbn [fst snd tl].
    rewrite (parens_reads _ _ _ _ _ _ _ He (inv_agree _ _ _ _ HI)). unfold bind, stmt_, must. use Hn m. reflexivity.
  - (* while *)
    intros E e ets s ts E' He HS IH sc rest HI Ho. destruct (IH sc rest HI Ho) as (sc' & [n Hn] & HI' & T). exists sc'. split; [|now split].
    apps. apply (stmt_kw _ _ _ n); [exact I|]. intros m Hm. unfold orelse at 1, apply at 1, selection. cbn [snd].
    unfold orelse at 1, apply at 1, iteration. unfold shift. cbn [fst snd tl].
    rewrite (parens_reads _ _ _ _ _ _ _ He (inv_agree _ _ _ _ HI)). unfold bind, stmt_, must. use Hn m. reflexivity.
  - (* do *)
    intros E e ets s ts E' HS IH He sc rest HI _.
    destruct (IH sc (TKw KWhile :: TP PLParen :: ets ++ TP PRParen :: TSemi :: rest) HI (fun _ => I)) as (sc' & [n Hn] & HI' & T).
    exists sc'. split; [|now split].
    apps. apply (stmt_kw _ _ _ n); [exact I|]. intros m Hm. unfold orelse at 1, apply at 1, selection. cbn [snd].
    unfold orelse at 1, apply at 1, iteration. go. unfold stmt_. go. use Hn m. go.
    assert (Ag : agree (cls E) (is_typedef sc') ets). { rewrite <- (proj1 (stmt_env _ _ _ _ HS)). exact (inv_agree _ _ _ _ HI'). }
    rewrite (parens_reads _ _ _ _ _ _ _ He Ag). go. reflexivity.
  - (* for *)
    intros E i its E1 c cts n nts s ts E2 HF Hc Hn0 HS IH sc rest HI Ho.
    destruct (finit_reads _ _ _ _ HF sc (cts ++ TSemi :: nts ++ TP PRParen :: ts ++ rest) HI) as (C1 & C2 & sc1 & [n1 H1] & HI1 & T1).
    destruct (IH sc1 rest HI1 Ho) as (sc' & [n2 H2] & HI2 & T2). exists sc'. destruct (stmt_env _ _ _ _ HS) as [Q1 Q2].
    split; [|split; [now apply (inv_leave E E1 E2)|congruence]].
    apps. apply (stmt_kw _ _ _ (n1 + n2)); [exact I|]. intros m Hm. unfold orelse at 1, apply at 1, selection. cbn [snd].
    unfold orelse at 1, apply at 1, iteration. go. use H1 m.
    rewrite (opt_reads _ _ _ _ TSemi _ _ Hc (inv_agree _ _ _ _ HI1) eq_refl). go.
    rewrite (opt_reads _ _ _ _ (TP PRParen) _ _ Hn0 (inv_agree _ _ _ _ HI1) eq_refl). go. unfold stmt_. go. use H2 m. reflexivity.
  - (* return *)
    intros E e ts He sc rest HI _. exists sc. split; [|now split]. apps. apply (stmt_kw _ _ _ 0); [exact I|]. intros m Hm.
    unfold orelse at 1, apply at 1, selection. cbn [snd]. unfold orelse at 1, apply at 1, iteration. cbn [snd].
    unfold apply, jump. unfold shift at 1. cbn [fst snd tl]. unfold bind. rewrite (opt_reads _ _ _ _ TSemi _ _ He (inv_agree _ _ _ _ HI) eq_refl). go. reflexivity.
  - intros E x sc rest HI _. exists sc. split; [|now split]. cbn [app]. apply (stmt_kw _ _ _ 0); [exact I|]. intros m Hm. reflexivity.
  - intros E sc rest HI _. exists sc. split; [|now split]. cbn [app]. apply (stmt_kw _ _ _ 0); [exact I|]. intros m Hm. reflexivity.
  - intros E sc rest HI _. exists sc. split; [|now split]. cbn [app]. apply (stmt_kw _ _ _ 0); [exact I|]. intros m Hm. reflexivity.
  - (* end of the block *)
    intros E acc sc rest HI. exists sc. split; [|now split]. cbn [app]. fuel 0. go. now rewrite app_nil_r.
  - (* declaration in a block *)
    intros E [ss ds] ts E1 its ts' E' HD HItems IH acc sc rest HI.
    assert (F : is PRBrace (sc, (ts ++ ts') ++ TP PRBrace :: rest) = false).
    { rewrite (is_scope _ _ []). eapply (proj2 (items_rest _ (IDecl (Decl ss ds) :: its) _ _ rest (gm_decl _ _ _ _ _ _ _ _ _ _ _ HD HItems))). discriminate. }
    destruct (decl_parts _ _ _ _ _ HD) as (sts & E2 & dts & HS & Ht & Hd & ->).
    destruct (decl_reads _ _ _ _ _ _ _ _ sc (ts' ++ TP PRBrace :: rest) HS Ht Hd HI (fun _ f => match f with end)) as (sc1 & [n1 H1] & HI1 & T1).
    destruct (IH (acc ++ [IDecl (Decl ss ds)]) sc1 rest HI1) as (sc' & [n2 H2] & HI' & T2). exists sc'. split; [|split; [exact HI'|congruence]].
    fuel (n1 + n2). unfold when. rewrite F. apps. unfold bind at 1, must, orelse, bind at 1. use H1 m. unfold ret. use H2 m. now rewrite <- app_assoc.
  - (* statement in a block *)
    intros E s ts E1 its ts' E' HS IHS Nt HItems IH acc sc rest HI.
    assert (F : is PRBrace (sc, (ts ++ ts') ++ TP PRBrace :: rest) = false).
    { rewrite (is_scope _ _ []). eapply (proj2 (items_rest _ (IStmt s :: its) _ _ rest (gm_stmt _ _ _ _ _ _ _ _ _ _ _ HS Nt HItems))). discriminate. }
    destruct (IHS sc (ts' ++ TP PRBrace :: rest) HI) as (sc1 & [n1 H1] & HI1 & T1).
    { intros _. exact (proj1 (items_rest _ _ _ _ rest HItems)). }
    destruct (IH (acc ++ [IStmt s]) sc1 rest HI1) as (sc' & [n2 H2] & HI' & T2). exists sc'. split; [|split; [exact HI'|congruence]].
    destruct (decl_none sc (ts ++ ts' ++ TP PRBrace :: rest)) as [n3 H3].
    { destruct (stmt_starts _ _ _ _ HS) as (t0 & ts0 & -> & F0). cbn in Nt |- *.
      destruct t0 as [|[]|[]| | | |]; try discriminate; try reflexivity. cbn. rewrite (proj2 HI). cbn in Nt. now rewrite Nt. }
    fuel (n1 + n2 + n3). unfold when. rewrite F. apps. unfold bind at 1, must, orelse, bind at 1. use H3 m. unfold bind at 1. use H1 m. unfold ret.
    use H2 m. now rewrite <- app_assoc.
Qed.

(** * External definitions *)
(** in file scope the typedef names are those of the only block *)
Definition FS (E : env) : Prop := forall x, cls E x = true -> In (x, true) (here E).
Definition grows (E E1 : env) : Prop :=
  loops E1 = loops E /\ (forall p, In p (here E) -> In p (here E1)) /\
  (forall x k, In (x, k) (here E1) -> In (x, k) (here E) \/ k = false) /\
  (FS E -> FS E1 /\ forall x, cls E1 x = cls E x).
Lemma grows_refl : forall E, grows E E.
Proof. intros E. unfold grows. repeat split; auto. Qed.
Lemma grows_trans : forall E E1 E2, grows E E1 -> grows E1 E2 -> grows E E2.
Proof.
  intros E E1 E2 (L1 & A1 & B1 & C1) (L2 & A2 & B2 & C2). split; [congruence|split; [auto|split]].
  - intros x k H. destruct (B2 x k H) as [H2|H2]; auto.
  - intros F. destruct (C1 F) as [F1 Q1]. destruct (C2 F1) as [F2 Q2]. split; [exact F2|]. intros x. now rewrite Q2.
Qed.
Lemma fs_false : forall E x, FS E -> can_declare E x false -> forall y, cls (add x false E) y = cls E y.
Proof.
  intros E x F (C & _) y. cbn. destruct (Z.eqb_spec y x) as [->|N]; [|reflexivity].
  destruct (cls E x) eqn:Q; [|reflexivity]. specialize (C true (F x Q)). discriminate C.
Qed.
Lemma fs_add : forall E x k, FS E -> FS (add x k E).
Proof.
  intros E x k F y H. cbn in H |- *. destruct (Z.eqb y x) eqn:Q; [left|right; now apply F].
  apply Z.eqb_eq in Q. now subst.
Qed.
Lemma grows_add : forall E x, can_declare E x false -> grows E (add x false E).
Proof.
  intros E x C. split; [reflexivity|split; [intros p H; now right|split]].
  - intros y k [H|H]; [injection H as <- <-; now right|now left].
  - intros F. split; [now apply fs_add|now apply fs_false].
Qed.
Lemma enums_grow : forall E es ts E', g_enums Econ E es ts E' -> grows E E'.
Proof.
  intros E es ts E' H. induction H; [now apply grows_add|]. eapply grows_trans; [apply grows_add; eassumption|assumption].
Qed.
Lemma specs_grow :
  (forall E has ss ts E', g_specs Easg Econ E has ss ts E' -> grows E E') /\
  (forall E fs ts E', g_fields Easg Econ E fs ts E' -> grows E E').
Proof.
  apply g_specs_mut; intros; try apply grows_refl; auto.
  - eapply grows_trans; eassumption.
  - eapply grows_trans; [eapply enums_grow; eassumption|assumption].
  - eapply grows_trans; eassumption.
Qed.
Lemma inits_fs : forall c0 k E ds ts E', g_inits Easg Econ c0 k E ds ts E' -> FS E -> FS E'.
Proof.
  intros c0 k E ds ts E' H. induction H as [E d x i ts E' H|E d x i ts E1 ds ts' E' H HD IH]; intros F;
    destruct (idecl_shape _ _ _ _ _ _ _ _ H) as (_ & _ & -> & _); [now apply fs_add|apply IH; now apply fs_add].
Qed.

Definition ext_rule (m : nat) : pr ext := must (orelse (apply (function_definition (P m))) (bind (P m _ GDecl) (fun d => ret (XDecl d)))).
Lemma decls_none : forall sc ts, no_spec (is_typedef sc) false ts = true -> R (GDecls []) (sc, ts) (Ok [], (sc, ts)).
Proof. intros sc ts H. destruct (decl_none sc ts H) as [n Hn]. fuel n. use Hn m. reflexivity. Qed.
(** a declaration is no function definition *)
Lemma not_function : forall E ss ds dts E' sc rest, dtail E ss ds dts E' -> Inv none E sc ->
  exists n s', forall m, n <= m ->
    bind (P m _ GDeclr) (fun d => bind (P m _ (GDecls [])) (fun kr => bind (apply (compound (P m))) (fun its => ret (XFun ss d kr its))))
      (sc, dts ++ TSemi :: rest) = (NoMatch, (sc, s')).
Proof.
  intros E ss ds dts E' sc rest H HI.
  assert (G : forall d t r dts, R GDeclr (sc, dts ++ t :: r) (Ok d, (sc, t :: r)) ->
    match t with TSemi | TP PComma | TP PAssign => True | _ => False end -> exists n s', forall m, n <= m ->
    bind (P m _ GDeclr) (fun d => bind (P m _ (GDecls [])) (fun kr => bind (apply (compound (P m))) (fun its => ret (XFun ss d kr its))))
      (sc, dts ++ t :: r) = (NoMatch, (sc, s'))).
  { intros d t r dts0 [n1 H1] Ht. destruct (decls_none sc (t :: r)) as [n2 H2]; [destruct t as [| |[]| | | |]; try contradiction; reflexivity|].
    exists (n1 + n2), (t :: r). intros m Hm. unfold bind at 1. use H1 m. unfold bind at 1. use H2 m. unfold bind, apply, compound, expect.
    replace (is PLBrace _) with false by (destruct t as [| |[]| | | |]; try contradiction; reflexivity). reflexivity. }
  destruct H as [(-> & -> & ->)|H].
  - destruct (dn_first sc (TSemi :: rest) I) as [n Hn]. exists n, (TSemi :: rest). intros m Hm. cbn [app]. unfold bind at 1. use Hn m. reflexivity.
  - assert (Q : forall d x i ts E2 t r, g_idecl Easg Econ (cls E) (typedefs ss) E d x i ts E2 -> sep t = true -> exists n s', forall m, n <= m ->
      bind (P m _ GDeclr) (fun d => bind (P m _ (GDecls [])) (fun kr => bind (apply (compound (P m))) (fun its => ret (XFun ss d kr its))))
        (sc, ts ++ t :: r) = (NoMatch, (sc, s'))).
    { intros d x i ts E2 t r H0 Ht. inversion H0; subst.
      - apply (G d). + apply (proj1 (declr_complete _) _ _ H1); [exact (inv_agree _ _ _ _ HI)|]. destruct t as [| |[]| | | |]; try discriminate; exact I.
        + destruct t as [| |[]| | | |]; try discriminate; exact I.
      - apps. apply (G d). + apply (proj1 (declr_complete _) _ _ H1); [exact (inv_agree _ _ _ _ HI)|exact I].
        + exact I. }
    inversion H; subst; [eapply Q; [eassumption|reflexivity]|]. apps. eapply Q; [eassumption|reflexivity].
Qed.

Lemma params_env : forall l E, (forall x, In x l -> cls E x = false) -> forall y, cls (fold_right (fun x E => add x false E) E l) y = cls E y.
Proof.
  induction l as [|x l IH]; intros E H y; [reflexivity|]. cbn. destruct (Z.eqb_spec y x) as [->|N].
  - symmetry. apply H. now left.
  - apply IH. intros z Hz. apply H. now right.
Qed.

Lemma ext_reads : forall E x ts E', g_ext Eexp Easg Econ E x ts E' -> forall sc rest, Inv none E sc -> FS E -> exists sc',
  (exists n, forall m, n <= m -> ext_rule m (sc, ts ++ rest) = (Ok x, (sc', rest))) /\ Inv none E' sc' /\ FS E'.
Proof.
  intros E x ts E' H sc rest HI F. destruct H as [E [ss ds] ts E' HD|E ss sts E1 d dts f ps its ts E' HS Ht HD Nf Cf Hp Np HItems|E ss sts E1 f x d dts E2 its ts E' L]; [| |discriminate L].
  - destruct (decl_parts _ _ _ _ _ HD) as (sts & E1 & dts & HS & Ht & Hd & ->). apps.
    destruct (dtail_first _ _ _ _ _ Hd rest) as [F1 F2].
    destruct (proj1 (specs_complete none) _ _ _ _ _ HS [] sc (dts ++ TSemi :: rest) eq_refl HI Ht F1 F2) as (sc1 & [n1 H1] & HI1 & T1).
    destruct (not_function _ _ _ _ _ sc1 rest Hd HI1) as (n2 & s2 & H2).
    destruct (proj1 specs_grow _ _ _ _ _ HS) as (L & A & B & C). destruct (C F) as [FS1 Q1].
    destruct (decl_reads E ss sts E1 ds dts E' (fun x => In (x, false) (here E1)) sc1 rest HS Ht Hd) as (sc' & [n3 H3] & HI' & T3); [|auto|].
    { destruct HI1 as ((b & up & -> & Hb) & Hc). split; [|intros x; rewrite Hc; apply Q1]. exists b, up. split; [reflexivity|].
      intros x k Fx. destruct (Hb x k Fx) as [Hi|(-> & [Hi|[]])].
      - destruct (B x k Hi) as [Hi2| ->]; auto.
      - right. split; [reflexivity|]. left. congruence. }
    exists sc'. split; [|split; [exact HI'|]].
    + exists (n1 + n2 + n3). intros m Hm. unfold ext_rule, must, orelse, apply at 1, function_definition. unfold bind at 1. use H1 m. cbn [app].
      use H2 m. cbn [fst snd]. unfold bind. use H3 m. reflexivity.
    + destruct Hd as [(_ & _ & ->)|Hd]; [exact FS1|]. exact (inits_fs _ _ _ _ _ _ Hd FS1).
  - destruct (declr_shapes (cls E1)) as (Sd & _). assert (Fd := Sd _ _ HD). apps.
    destruct (proj1 (specs_complete none) _ _ _ _ _ HS [] sc (dts ++ TP PLBrace :: ts ++ TP PRBrace :: rest) eq_refl HI Ht) as (sc1 & [n1 H1] & HI1 & T1).
    { toks dts. }
    { toks dts. }
    destruct (proj1 specs_grow _ _ _ _ _ HS) as (L & A & B & C). destruct (C F) as [FS1 Q1].
    destruct (proj1 (declr_complete _) _ _ HD sc1 (TP PLBrace :: ts ++ TP PRBrace :: rest) (inv_agree _ _ _ _ HI1) I) as [n2 H2].
    destruct (decls_none sc1 (TP PLBrace :: ts ++ TP PRBrace :: rest) eq_refl) as [n3 H3].
    assert (Qf := fs_false _ _ FS1 Cf).
    destruct (compound_reads (fold_right (fun x E => add x false E) (enter (add f false E1)) (param_names ps)) its ts E' sc1 rest) as [n4 H4].
    { apply (inv_enter E1); [exact (proj2 HI1)|]. intros y. rewrite params_env; [exact (Qf y)|].
      intros z Hz. change (cls (add f false E1) z = false). rewrite Qf. now apply Np. }
    { exact (proj2 stmt_complete _ _ _ _ HItems). }
    exists sc1. split; [|split; [|now apply fs_add]].
    + exists (n1 + n2 + n3 + n4). intros m Hm. unfold ext_rule, must, orelse, apply at 1, function_definition. unfold bind at 1. use H1 m. cbn [app].
      unfold bind at 1. use H2 m. unfold bind at 1. use H3 m. unfold bind, apply. use H4 m. reflexivity.
    + destruct HI1 as ((b & up & -> & Hb) & Hc). split; [|intros x; rewrite Hc; symmetry; apply Qf]. exists b, up. split; [reflexivity|].
      intros x k Fx. destruct (Hb x k Fx) as [Hi|Hi]; [left; now right|now right].
Qed.

Lemma ext_starts : forall E x ts E', g_ext Eexp Easg Econ E x ts E' -> ts <> [].
Proof.
  intros E x ts E' H. inversion H; subst.
  - destruct (decl_starts _ _ _ _ H0) as (t & ts' & -> & _). discriminate.
  - destruct (specs_first _ _ _ _ _ H0) as (t & ts' & -> & _); [intros ->; discriminate|]. discriminate.
  - discriminate.
Qed.
Lemma unit_reads : forall E xs ts, g_unit Eexp Easg Econ E xs ts -> forall acc sc, Inv none E sc -> FS E -> exists sc',
  R (GUnit acc) (sc, ts) (Ok (acc ++ xs), (sc', [])).
Proof.
  intros E xs ts H. induction H as [E x ts E' H|E x ts E' xs ts' H HU IH]; intros acc sc HI F.
  - destruct (ext_reads _ _ _ _ H sc [] HI F) as (sc' & [n Hn] & _). rewrite app_nil_r in Hn. exists sc'. fuel n. fold (ext_rule m). unfold bind. use Hn m. reflexivity.
  - destruct (ext_reads _ _ _ _ H sc ts' HI F) as (sc1 & [n1 H1] & HI1 & F1).
    destruct (IH (acc ++ [x]) sc1 HI1 F1) as (sc' & [n2 H2]). exists sc'. fuel (n1 + n2). fold (ext_rule m). unfold bind. use H1 m. cbn [snd].
    assert (N : ts' <> []). { inversion HU; subst; [eapply ext_starts; eassumption|]. intros Q. apply app_eq_nil in Q. destruct Q as [Q _]. revert Q. eapply ext_starts; eassumption. }
    destruct ts' as [|t ts']; [congruence|]. use H2 m. now rewrite <- app_assoc.
Qed.
Theorem unit_complete : forall xs ts, g_unit Eexp Easg Econ start xs ts ->
  exists n, forall m, n <= m -> translation_unit expression assignment constant m ts = Ok xs.
Proof.
  intros xs ts H. destruct (unit_reads _ _ _ H [] [[]]) as (sc' & [n Hn]).
  - split; [|reflexivity]. exists [], []. split; [reflexivity|]. intros x k D. discriminate D.
  - intros x D. discriminate D.
  - exists n. intros m Hm. unfold translation_unit.
    match goal with |- context [P m ?A ?g ?s] => change (P m A g s) with (P m A g ([[]], ts)) end.
    pose proof (Hn m Hm) as Q. unfold scope, block in *. rewrite Q. reflexivity.
Qed.
End Proofs.
