(** The expression parser of [ParseModel] as the rules for expressions of [SynModel]. *)
(* Type names in expressions are specifier keywords and typedef names followed by asterisks, initializer lists a constant in
   braces; everything else about expressions is [ParseModel]. *)
From Coq Require Import ZArith NArith List Bool Lia.
From Verif Require ParseModel ParseSpec ParseProofs ParseComplete PropParse.
From Verif Require Import SynModel SynSpec.
Import ListNotations.
Import ParseModel (punct(..), outcome(..)).
Module PM := ParseModel.

(** * Tokens *)
Definition zn (x : Z) : N := if Z.leb 0 x then Z.to_N (2 * x) else Z.to_N (- (2 * x) - 1).
Definition other (n : N) : PM.tok := PM.TOther (Z.of_N n).
(** Typedef names and the keywords of type names are told apart by number, the tokens of no expression all are -1 *)
Definition classify (c : Z -> bool) (t : tok) : PM.tok :=
  match t with
  | TId x => if c x then other (3 * zn x) else PM.TName x
  | TKw (KType n) => other (3 * zn n + 1)
  | TKw (KQual n) => other (3 * zn n + 2)
  | TKw KSizeof => PM.TSizeof
  | TKw KAlignof => PM.TAlignof
  | TKw _ | TSemi | TEllipsis => PM.TOther (-1)
  | TP p => PM.TP p
  | TConst v => PM.TConst v
  | TStr v => PM.TStr v
  end.

(** * Type names and initializer lists *)
Definition ety := (N * list N * nat)%type.
Definition ety_spell (t : ety) : list PM.tok :=
  let '(a, l, n) := t in other a :: map other l ++ repeat (PM.TP PStar) n.
Fixpoint others (s : list PM.tok) : list N * list PM.tok :=
  match s with
  | PM.TOther z :: s' => if Z.leb 0 z then let (l, r) := others s' in (Z.to_N z :: l, r) else ([], s)
  | _ => ([], s)
  end.
Fixpoint stars (s : list PM.tok) : nat * list PM.tok :=
  match s with PM.TP PStar :: s' => let (n, r) := stars s' in (S n, r) | _ => (0, s) end.
Definition ety_rule : PM.parser ety := fun s =>
  match others s with
  | (a :: l, r) => let (n, r') := stars r in (Ok (a, l, n), r')
  | ([], _) => (NoMatch, s)
  end.
Definition einit_rule : PM.parser Z := fun s =>
  match s with
  | PM.TP PLBrace :: PM.TConst v :: PM.TP PRBrace :: s' => (Ok v, s')
  | PM.TP PLBrace :: s' => (Syntax, s')
  | _ => (NoMatch, s)
  end.
Definition einit_spell (v : Z) : list PM.tok := [PM.TP PLBrace; PM.TConst v; PM.TP PRBrace].

Lemma others_suffix : forall s, ParseProofs.suffix (snd (others s)) s.
Proof.
  induction s as [|[| | | | | |z] s IH]; cbn; try apply ParseProofs.suffix_refl. destruct (Z.leb 0 z); [|apply ParseProofs.suffix_refl].
  destruct (others s) as [l r]. cbn in *. now apply ParseProofs.suffix_cons.
Qed.
Lemma stars_suffix : forall s, ParseProofs.suffix (snd (stars s)) s.
Proof.
  induction s as [|[| | |[]| | |] s IH]; cbn; try apply ParseProofs.suffix_refl.
  destruct (stars s) as [l r]. cbn in *. now apply ParseProofs.suffix_cons.
Qed.
Lemma others_app : forall l s, match s with PM.TOther _ :: _ => False | _ => True end -> others (map other l ++ s) = (l, s).
Proof.
  induction l as [|a l IH]; intros s H; cbn [map app].
  - destruct s as [|[] s]; try reflexivity. contradiction.
  - unfold other at 1. cbn [others]. replace (Z.leb 0 (Z.of_N a)) with true by (symmetry; apply Z.leb_le; lia).
    rewrite IH by exact H. now rewrite N2Z.id.
Qed.
Lemma stars_app : forall n s, match s with PM.TP PStar :: _ => False | _ => True end -> stars (repeat (PM.TP PStar) n ++ s) = (n, s).
Proof.
  induction n as [|n IH]; intros s H; cbn [repeat app].
  - destruct s as [|[| | |[]| | |] s]; try reflexivity. contradiction.
  - cbn [stars]. now rewrite IH.
Qed.
Lemma spelled : PropParse.spelling ety_rule einit_rule ety_spell einit_spell.
Proof.
  split.
  - intros s. unfold ety_rule. pose proof (others_suffix s) as A. destruct (others s) as [[|a l] r]; [split; discriminate|].
    pose proof (stars_suffix r) as B. destruct (stars r) as [n r']. split; [discriminate|]. intros x s' H. injection H as _ <-.
    cbn in *. eapply ParseProofs.suffix_trans; eassumption.
  - intros s. destruct s as [|[| | |[]| | |] s]; cbn; split; try discriminate; destruct s as [|[| |v|[]| | |] s]; try discriminate;
      destruct s as [|[| | |[]| | |] s]; try discriminate.
    intros a s' H. injection H as _ <-. do 3 apply ParseProofs.suffix_cons. apply ParseProofs.suffix_refl.
  - intros [[a l] n]. cbn. eexists. eexists. reflexivity.
  - intros [[a l] n] rest. unfold ety_rule. cbn [ety_spell].
    change (other a :: map other l ++ repeat (PM.TP PStar) n) with (map other (a :: l) ++ repeat (PM.TP PStar) n).
    rewrite <- app_assoc. rewrite others_app.
    + rewrite stars_app by exact I. reflexivity.
    + destruct n; exact I.
  - intros s H. unfold ety_rule. destruct s as [|[] s]; try reflexivity. contradiction.
  - intros i. eexists. reflexivity.
  - reflexivity.
  - intros s H. destruct s as [|[| | |[]| | |] s]; try reflexivity. contradiction.
Qed.

(** * The rules *)
Definition expr := PM.ast ety Z.
Definition cfg := PM.Cfg false false.
(** [g] on the tokens as the typedef names class them; the cursor ends up at the token that many before the end *)
Definition rule (g : PM.goal ety Z) (c : Z -> bool) (ts : list tok) : outcome expr * list tok :=
  let (o, r) := PM.run ety_rule einit_rule cfg g (map (classify c) ts) in (o, skipn (length ts - length r) ts).
Definition e_expression := rule PM.Expression.
Definition e_assignment := rule PM.Assignment.
Definition e_constant := rule PM.Conditional.

(** * The spellings: the grammar of 6.5, [ParseSpec] *)
Definition sp (l : nat) (c : Z -> bool) (e : expr) (ts : list tok) : Prop :=
  exists t, ParseSpec.D ety_spell einit_spell 14 l t (map (classify c) ts) /\ e = ParseSpec.node t.

Lemma classify_agree : forall c c' ts, agree c c' ts -> map (classify c) ts = map (classify c') ts.
Proof.
  intros c c' ts H. apply map_ext_in. intros t Ht. destruct t as [x| | | | | |]; try reflexivity. cbn. now rewrite (H x Ht).
Qed.
Lemma sp_reads : forall l c c' e ts t rest, l <= 2 -> sp l c e ts -> agree c c' ts ->
  ends_expression (Nat.ltb 0 l) t = true -> rule (ParseComplete.rule l) c' (ts ++ t :: rest) = (Ok e, t :: rest).
Proof.
  intros l c c' e ts t rest Hl (tr & HD & ->) Ag Ht. unfold rule. rewrite map_app. cbn [map]. rewrite <- (classify_agree _ _ _ Ag).
  destruct spelled. destruct (ParseComplete.complete ety_rule einit_rule cfg ety_spell einit_spell) as [C _]; auto.
  destruct (C _ _ _ HD) as (Rd & _). rewrite (Rd (classify c' t :: map (classify c') rest)).
  - rewrite app_length. cbn [length]. rewrite map_length.
    replace (length ts + S (length rest) - S (length rest)) with (length ts) by lia.
    rewrite skipn_app, skipn_all, Nat.sub_diag. reflexivity.
  - right. destruct t as [| |p| | | |]; try discriminate; [|exact I]. cbn. destruct l as [|[|[|l]]]; try lia; destruct p; try discriminate; reflexivity.
Qed.
Lemma sp_first : forall l c e ts, sp l c e ts -> exists t ts', ts = t :: ts' /\ starts_expression c t = true.
Proof.
  intros l c e ts (tr & HD & _). destruct spelled. destruct (ParseComplete.shapes ety_spell einit_spell) as [Sh _]; auto.
  destruct (Sh _ _ _ HD) as (B & _). destruct ts as [|t ts]; [destruct B|]. exists t, ts. split; [reflexivity|].
  cbn in B. destruct t as [x|k|p| | | |]; try discriminate; try reflexivity.
  - cbn in B |- *. destruct (c x); [discriminate|reflexivity].
  - destruct k; try discriminate; reflexivity.
  - destruct p; try discriminate; reflexivity.
Qed.
Definition no_label (ts : list PM.tok) : Prop := match ts with PM.TName _ :: PM.TP PColon :: _ => False | _ => True end.
Lemma no_label_app : forall a p b, a <> [] -> no_label a -> p <> PColon -> no_label (a ++ PM.TP p :: b).
Proof.
  intros [|t a] p b N H Hp; [congruence|]. cbn [app]. destruct t; try exact I. destruct a as [|t2 a]; cbn [app].
  - destruct p; try exact I. congruence.
  - exact H.
Qed.
Lemma d_no_label :
  (forall l t ts, ParseSpec.D ety_spell einit_spell 14 l t ts -> ts <> [] /\ no_label ts) /\
  (forall args ts, ParseSpec.DArgs ety_spell einit_spell 14 args ts -> True).
Proof.
  assert (P : forall ts b, no_label (ParseSpec.parens ts ++ b)) by (intros; exact I).
  apply (ParseSpec.D_mutind _ _ _ _ 14 (fun _ _ ts => ts <> [] /\ no_label ts) (fun _ _ => True)); intros; auto;
    try (split; [discriminate|exact I]);
    try (match goal with H : _ /\ no_label ?a |- ?a ++ _ <> [] /\ _ => destruct H; split; [destruct a; [congruence|discriminate]|] end);
    try (unfold ParseSpec.parens; apply no_label_app; auto; discriminate).
  - destruct dot; apply no_label_app; auto; discriminate.
  - destruct inc; apply no_label_app; auto; discriminate.
  - apply no_label_app; auto. destruct o; discriminate.
  - apply no_label_app; auto. destruct o; discriminate.
Qed.
Lemma sp_label : forall l c e x ts, sp l c e (TId x :: TP PColon :: ts) -> False.
Proof.
  intros l c e x ts H. destruct (sp_first _ _ _ _ H) as (t & ts' & Q & F). injection Q as <- _. destruct H as (tr & HD & _).
  destruct (proj1 d_no_label _ _ _ HD) as [_ N]. cbn in N, F. destruct (c x); [discriminate|exact N].
Qed.
Lemma sp_none : forall l c t ts, l <= 2 -> no_expression t = true -> fst (rule (ParseComplete.rule l) c (t :: ts)) = NoMatch.
Proof.
  intros l c t ts Hl H. unfold rule.
  assert (N : fst (PM.run ety_rule einit_rule cfg (ParseComplete.rule l) (map (classify c) (t :: ts))) = NoMatch \/
              (exists n, map (classify c) (t :: ts) = n /\ ParseComplete.dead n)).
  { right. eexists. split; [reflexivity|]. destruct t as [|k|p| | | |]; try discriminate; [destruct k; try discriminate; exact I|destruct p; try discriminate; exact I]. }
  destruct spelled. destruct N as [N|(n & Q & N)].
  - destruct (PM.run _ _ _ _ _) as [o r]. exact N.
  - rewrite Q. assert (M : ParseComplete.nm ety_rule einit_rule cfg (ParseComplete.rule l) n).
    { destruct l as [|[|[|l]]]; try lia.
      - apply ParseComplete.dead_expression; auto.
      - apply ParseComplete.dead_assignment; auto.
      - apply ParseComplete.dead_conditional; auto. }
    unfold ParseComplete.nm in M. destruct (PM.run _ _ _ _ _) as [o r]. exact M.
Qed.
Theorem expression_reads : reads false e_expression (sp 0).
Proof.
  split; [intros; eapply (sp_reads 0); eauto|intros; eapply sp_first; eauto|intros; eapply sp_label; eauto|intros; apply (sp_none 0); auto].
Qed.
Theorem assignment_reads : reads true e_assignment (sp 1).
Proof.
  split; [intros; eapply (sp_reads 1); eauto|intros; eapply sp_first; eauto|intros; eapply sp_label; eauto|intros; apply (sp_none 1); auto].
Qed.
Theorem constant_reads : reads true e_constant (sp 2).
Proof.
  split; [intros; eapply (sp_reads 2); eauto|intros; eapply sp_first; eauto|intros; eapply sp_label; eauto|intros; apply (sp_none 2); auto].
Qed.
