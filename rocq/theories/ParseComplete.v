(** The parser accepts what the grammar derives, and builds the tree of the derivation. *)
From Coq Require Import ZArith List Bool Lia PeanoNat.
From Verif Require Import ParseModel ParseProofs ParseSpec.
Import ListNotations.

Lemma apply_ok : forall A (p : parser A) s a s', p s = (Ok a, s') -> apply p s = (Ok a, s').
Proof. unfold apply. intros A p s a s' ->. reflexivity. Qed.
Lemma apply_nm : forall A (p : parser A) s, fst (p s) = NoMatch -> apply p s = (NoMatch, s).
Proof. unfold apply. intros A p s H. destruct (p s) as [[] ?]; try discriminate. reflexivity. Qed.
Lemma must_ok : forall A (p : parser A) s a s', p s = (Ok a, s') -> must p s = (Ok a, s').
Proof. unfold must. intros A p s a s' ->. reflexivity. Qed.
Lemma bind_ok : forall A B (p : parser A) (f : A -> parser B) s a s', p s = (Ok a, s') -> bind p f s = f a s'.
Proof. unfold bind. intros A B p f s a s' ->. reflexivity. Qed.
Lemma bind_nm : forall A B (p : parser A) (f : A -> parser B) s, fst (p s) = NoMatch -> fst (bind p f s) = NoMatch.
Proof. unfold bind. intros A B p f s H. destruct (p s) as [[] ?]; try discriminate. reflexivity. Qed.
Lemma orelse_ok : forall A (p q : parser A) s a s', p s = (Ok a, s') -> orelse p q s = (Ok a, s').
Proof. unfold orelse. intros A p q s a s' ->. reflexivity. Qed.
Lemma orelse_nm : forall A (p q : parser A) s s', p s = (NoMatch, s') -> orelse p q s = q s'.
Proof. unfold orelse. intros A p q s s' ->. reflexivity. Qed.
Lemma apply_okm : forall A (p : parser A) s a s', p s = (Ok a, s') -> must (apply p) s = (Ok a, s').
Proof. intros. now apply must_ok, apply_ok. Qed.
Lemma punct_eqb_refl : forall p, punct_eqb p p = true.
Proof. intros. now apply punct_eqb_eq. Qed.
Lemma expect_ok : forall A p (o : outcome A) k s, expect p o k (TP p :: s) = k s.
Proof. intros. unfold expect. cbn [is shift tl]. now rewrite punct_eqb_refl. Qed.

Lemma stops_mono : forall l l' rest, l <= l' -> stops l rest -> stops l' rest.
Proof.
  intros l l' [|[| | |p| | |] rest] L; cbn [stops]; auto.
  destruct p; cbn [stop_punct]; auto; rewrite !Nat.ltb_lt; lia.
Qed.
Lemma stops_13 : forall l rest, stops l rest -> stops 13 rest.
Proof.
  intros l [|[| | |p| | |] rest]; cbn [stops]; auto.
  destruct p; cbn [stop_punct]; auto; rewrite !Nat.ltb_lt; lia.
Qed.

(** the tokens an expression begins with *)
Definition starts (t : tok) : bool :=
  match t with
  | TName _ | TConst _ | TStr _ | TSizeof | TAlignof => true
  | TP p => match p with PLParen | PInc | PDec | PAmp | PStar | PPlus | PMinus | PTilde | PNot => true | _ => false end
  | TOther _ => false
  end.
Definition begins (ts : list tok) : Prop := match ts with h :: _ => starts h = true | [] => False end.
Lemma begins_app : forall a b, begins a -> begins (a ++ b).
Proof. intros [|h a] b H; [destruct H|exact H]. Qed.
(** .. and a postfix expression *)
Definition plain (ts : list tok) : Prop :=
  match ts with
  | TP PLParen :: h :: _ => starts h = true
  | TName _ :: _ | TConst _ :: _ | TStr _ :: _ => True
  | _ => False
  end.
Lemma plain_app : forall a b, plain a -> plain (a ++ b).
Proof. intros [|[| | |[]| | |] [|h a]] b; cbn [plain app]; auto; contradiction. Qed.

Definition noassign (s : list tok) : Prop := match s with TP p :: _ => asgop_of p = None | _ => True end.
Lemma stops_noassign : forall rest, stops 1 rest -> noassign rest.
Proof. intros [|[| | |p| | |] rest]; cbn [stops noassign]; auto. destruct p; cbn; auto; discriminate. Qed.

Section Complete.
Context {tyname init : Type} (type_name : parser tyname) (initializer_list : parser init) (cfg : config).
Context (type_spell : tyname -> list tok) (init_spell : init -> list tok).
Notation ast := (ast tyname init). Notation tree := (tree tyname init).
Hypothesis Ht : forward type_name.
Hypothesis Hi : forward initializer_list.
(** type names begin with a keyword or a typedef name, and are recognised before a closing parenthesis *)
Hypothesis type_begins : forall ty, exists z ts, type_spell ty = TOther z :: ts.
Hypothesis type_reads : forall ty rest, type_name (type_spell ty ++ TP PRParen :: rest) = (Ok ty, TP PRParen :: rest).
Hypothesis type_only : forall s, match s with TOther _ :: _ => False | _ => True end -> fst (type_name s) = NoMatch.
(** initializer lists are braced *)
Hypothesis init_begins : forall i, exists ts, init_spell i = TP PLBrace :: ts.
Hypothesis init_reads : forall i rest, initializer_list (init_spell i ++ rest) = (Ok i, rest).
Hypothesis init_only : forall s, match s with TP PLBrace :: _ => False | _ => True end -> fst (initializer_list s) = NoMatch.

Notation R := (run type_name initializer_list cfg).
Notation D := (D type_spell init_spell 14). Notation DArgs := (DArgs type_spell init_spell 14).
Let eqn := run_eq type_name initializer_list cfg Ht Hi.

(** Nothing matches at a token that is neither the start of an expression nor a prefix of one. *)
Definition nm (g : goal tyname init) (s : list tok) : Prop := fst (R g s) = NoMatch.
Definition dead (s : list tok) : Prop := match s with TOther _ :: _ | TP PLBrace :: _ | TP PRBracket :: _ => True | _ => False end.

Lemma nm_apply : forall g s, nm g s -> apply (R g) s = (NoMatch, s).
Proof. intros. now apply apply_nm. Qed.

Lemma dead_primary : forall s, dead s -> nm Primary s.
Proof. intros s; destruct s as [|[| | |[]| | |] s']; try contradiction; intros _; unfold nm; rewrite eqn; reflexivity. Qed.
Lemma dead_compound : forall s, dead s -> nm Compound s.
Proof. intros s; destruct s as [|[| | |[]| | |] s']; try contradiction; intros _; unfold nm; rewrite eqn; reflexivity. Qed.
Lemma dead_postfix : forall s, dead s -> nm Postfix s.
Proof.
  intros s H. unfold nm. rewrite eqn. cbn [step]. rewrite (orelse_nm _ _ _ s s) by now apply nm_apply, dead_compound.
  apply bind_nm. now rewrite (nm_apply _ _ (dead_primary _ H)).
Qed.
Lemma dead_unary : forall s, dead s -> nm Unary s.
Proof.
  intros s H. pose proof (nm_apply _ _ (dead_postfix _ H)) as K. unfold nm. rewrite eqn.
  destruct s as [|[| | |[]| | |] s']; try contradiction; cbn [step prefix_of]; cbn [punct_eqb andb]; now rewrite K.
Qed.
Lemma dead_cast : forall s, dead s -> nm Cast s.
Proof.
  intros s H. unfold nm. rewrite eqn. cbn [step]. rewrite (orelse_nm _ _ _ s s).
  - now rewrite (nm_apply _ _ (dead_unary _ H)).
  - apply nm_apply. unfold nm. rewrite eqn. destruct s as [|[| | |[]| | |] s']; try contradiction; reflexivity.
Qed.
Lemma dead_bin : forall n k s, n + k = 12 -> dead s -> nm (Bin k) s.
Proof.
  induction n as [|n IH]; intros k s L H; unfold nm; rewrite eqn; cbn [step]; apply bind_nm; unfold tighter.
  - replace k with 12 by lia. cbn [Nat.leb]. now rewrite (nm_apply _ _ (dead_cast _ H)).
  - replace (Nat.leb 12 k) with false by (symmetry; apply Nat.leb_gt; lia).
    now rewrite (nm_apply _ _ (IH (S k) s ltac:(lia) H)).
Qed.
Lemma dead_conditional : forall s, dead s -> nm Conditional s.
Proof. intros s H. unfold nm. rewrite eqn. cbn [step]. apply bind_nm. now rewrite (nm_apply _ _ (dead_bin 9 3 s eq_refl H)). Qed.
Lemma dead_assignment : forall s, dead s -> nm Assignment s.
Proof.
  intros s H. unfold nm. rewrite eqn. cbn [step]. rewrite (orelse_nm _ _ _ s s).
  - now rewrite (nm_apply _ _ (dead_conditional _ H)).
  - apply nm_apply. unfold nm. rewrite eqn. cbn [step]. apply bind_nm. now rewrite (nm_apply _ _ (dead_unary _ H)).
Qed.
Lemma dead_expression : forall s, dead s -> nm Expression s.
Proof. intros s H. unfold nm. rewrite eqn. cbn [step]. apply bind_nm. now rewrite (nm_apply _ _ (dead_assignment _ H)). Qed.

Lemma parens_app : forall ts rest, parens ts ++ rest = TP PLParen :: ts ++ TP PRParen :: rest.
Proof. intros. unfold parens. cbn [app]. now rewrite <- app_assoc. Qed.

Lemma type_dead : forall ty rest, dead (type_spell ty ++ rest).
Proof. intros ty rest. destruct (type_begins ty) as (z & ts & ->). exact I. Qed.

(** A parenthesized type name is no postfix expression, unless an initializer list follows. *)
Lemma type_primary : forall ty rest, nm Primary (parens (type_spell ty) ++ rest).
Proof.
  intros ty rest. rewrite parens_app. unfold nm. rewrite eqn. cbn [step]. rewrite expect_ok. apply bind_nm.
  now rewrite (nm_apply _ _ (dead_expression _ (type_dead ty _))).
Qed.
Lemma type_apply : forall ty rest, apply type_name (type_spell ty ++ TP PRParen :: rest) = (Ok ty, TP PRParen :: rest).
Proof. intros. apply apply_ok, type_reads. Qed.
Lemma type_compound : forall ty rest, match rest with TP PLBrace :: _ => False | _ => True end ->
  nm Compound (parens (type_spell ty) ++ rest).
Proof.
  intros ty rest H. rewrite parens_app. unfold nm. rewrite eqn. cbn [step]. rewrite expect_ok.
  erewrite bind_ok by apply type_apply. rewrite expect_ok. apply bind_nm. now apply init_only.
Qed.
Lemma type_unary : forall ty rest, match rest with TP PLBrace :: _ => False | _ => True end ->
  nm Unary (parens (type_spell ty) ++ rest).
Proof.
  intros ty rest H. unfold nm. rewrite eqn. rewrite parens_app at 1. cbn [step prefix_of punct_eqb andb].
  replace (punct_eqb PLParen PAndAnd) with false by reflexivity. cbn [andb]. rewrite <- parens_app.
  rewrite apply_nm; [reflexivity|]. rewrite eqn. cbn [step].
  rewrite (orelse_nm _ _ _ _ (parens (type_spell ty) ++ rest)) by now apply nm_apply, type_compound.
  apply bind_nm. rewrite nm_apply; [reflexivity|]. apply type_primary.
Qed.

(** The shape of derived token lists *)
Lemma bin_level_le : forall o, 3 <= bin_level o <= 12.
Proof. destruct o; cbn; lia. Qed.

Lemma shapes :
  (forall l t ts, D l t ts -> begins ts /\ (15 <= l -> plain ts) /\
     (14 <= l -> plain ts \/ (exists h r, ts = h :: r /\ h <> TP PLParen) \/
                 (exists ty i, ts = parens (type_spell ty) ++ init_spell i))) /\
  (forall args ts, DArgs args ts -> begins ts).
Proof.
  apply (D_mutind _ _ _ _ 14
    (fun l t ts => begins ts /\ (15 <= l -> plain ts) /\
     (14 <= l -> plain ts \/ (exists h r, ts = h :: r /\ h <> TP PLParen) \/
                 (exists ty i, ts = parens (type_spell ty) ++ init_spell i)))
    (fun args ts => begins ts)).
  - intros n. cbn. auto.
  - intros n. cbn. auto.
  - intros n. cbn. auto.
  - intros t ts _ (B & _). assert (P : plain (parens ts)) by (destruct ts as [|h ts]; [destruct B|exact B]).
    split; [reflexivity|]. auto.
  - intros a b ta tb _ (B & P & _) _ _. pose proof (plain_app _ (TP PLBracket :: tb ++ [TP PRBracket]) (P (le_n _))).
    split; [now apply begins_app|]. auto.
  - intros f tf _ (B & P & _). pose proof (plain_app _ (parens []) (P (le_n _))). split; [now apply begins_app|]. auto.
  - intros f tf args ts _ (B & P & _) _ _. pose proof (plain_app _ (parens ts) (P (le_n _))). split; [now apply begins_app|]. auto.
  - intros t ts dot n _ (B & P & _). split; [now apply begins_app|]. split; [|left]; auto using plain_app.
  - intros t ts inc _ (B & P & _). split; [now apply begins_app|]. split; [|left]; auto using plain_app.
  - intros ty i. split; [reflexivity|]. split; [lia|]. intros _. right. right. eauto.
  - intros t ts inc _ _. split; [destruct inc; reflexivity|]. split; [lia|]. intros _. right. left.
    do 2 eexists. split; [reflexivity|]. destruct inc; discriminate.
  - intros o t ts _ _. split; [destruct o; reflexivity|]. split; [lia|]. intros _. right. left.
    do 2 eexists. split; [reflexivity|]. destruct o; discriminate.
  - intros t ts _ _. split; [reflexivity|]. split; [lia|]. intros _. right. left. do 2 eexists. split; [reflexivity|discriminate].
  - intros ty. split; [reflexivity|]. split; [lia|]. intros _. right. left. do 2 eexists. split; [reflexivity|discriminate].
  - intros ty. split; [reflexivity|]. split; [lia|]. intros _. right. left. do 2 eexists. split; [reflexivity|discriminate].
  - intros ty t ts _ _. split; [reflexivity|]. split; lia.
  - intros o a b ta tb _ (B & _) _ _. pose proof (bin_level_le o). split; [now apply begins_app|]. split; lia.
  - intros a b c ta tb tc _ (B & _) _ _ _ _. split; [now apply begins_app|]. split; lia.
  - intros o a b ta tb _ (B & _) _ _. split; [now apply begins_app|]. split; lia.
  - intros a b ta tb _ (B & _) _ _. split; [now apply begins_app|]. split; lia.
  - intros l t ts L _ (B & P & Q). split; [assumption|]. split; intros; [apply P|apply Q]; lia.
  - intros a ts _ (B & _). assumption.
  - intros a ts args ts' _ (B & _) _ _. now apply begins_app.
Qed.

(** plain token lists are neither compound literals nor casts *)
Lemma begins_type : forall s, begins s -> apply type_name s = (NoMatch, s).
Proof. intros s B. apply apply_nm, type_only. destruct s as [|[| | | | | |] s']; try exact I. discriminate. Qed.
Lemma plain_compound : forall s, plain s -> nm Compound s.
Proof.
  intros s P. unfold nm. rewrite eqn. destruct s as [|[| | |p| | |] s']; try contradiction; try reflexivity.
  destruct p; try contradiction. cbn [step]. rewrite expect_ok. apply bind_nm. rewrite begins_type; [reflexivity|].
  destruct s'; [contradiction|exact P].
Qed.
Lemma plain_scan : forall s, plain s -> nm ScanCast s.
Proof.
  intros s P. unfold nm. rewrite eqn. destruct s as [|[| | |p| | |] s']; try contradiction; try reflexivity.
  destruct p; try contradiction. cbn [step]. rewrite expect_ok. apply bind_nm. rewrite begins_type; [reflexivity|].
  destruct s'; [contradiction|exact P].
Qed.
Lemma scan_14 : forall t ts rest, D 14 t ts -> nm ScanCast (ts ++ rest).
Proof.
  intros t ts rest H. destruct shapes as [S _]. destruct (S _ _ _ H) as (_ & _ & Q).
  destruct (Q (le_n _)) as [P | [(h & r & -> & N) | (ty & i & ->)]].
  - now apply plain_scan, plain_app.
  - unfold nm. rewrite eqn. cbn [app step]. unfold expect.
    replace (is PLParen (h :: r ++ rest)) with false; [reflexivity|].
    destruct h; try reflexivity. cbn [is]. destruct (punct_eqb PLParen p) eqn:E; [|reflexivity].
    apply punct_eqb_eq in E. congruence.
  - rewrite <- app_assoc, parens_app. unfold nm. rewrite eqn. cbn [step]. rewrite expect_ok.
    erewrite bind_ok by apply type_apply. rewrite expect_ok. destruct (init_begins i) as (ts & ->). cbn [app].
    rewrite (nm_apply _ _ (dead_cast (TP PLBrace :: ts ++ rest) I)). reflexivity.
Qed.

(** * The rules read what is derived *)
Definition rule (l : nat) : goal tyname init :=
  match l with
  | 0 => Expression | 1 => Assignment | 2 => Conditional
  | 13 => Cast | 14 => Unary | 15 => Postfix | 16 => Primary
  | k => Bin k
  end.
Definition loop (l : nat) (e : ast) : goal tyname init :=
  match l with 0 => CommaLoop e | 15 => Postfixes e | k => BinLoop k e end.
Definition loops (l : nat) : bool := Nat.eqb l 0 || Nat.eqb l 15 || (Nat.leb 3 l && Nat.leb l 12).

Definition reads (l : nat) (t : tree) (ts : list tok) : Prop :=
  forall rest, l = 16 \/ stops l rest -> R (rule l) (ts ++ rest) = (Ok (node t), rest).
Definition continues (l : nat) (t : tree) (ts : list tok) : Prop :=
  loops l = true -> forall rest, (l = 15 \/ stops (S l) rest) -> R (rule l) (ts ++ rest) = R (loop l (node t)) rest.
Definition unary_stops (s : list tok) : Prop :=
  nm Unary s \/ exists e s', R Unary s = (Ok e, s') /\ noassign s'.
Definition no_assignment (l : nat) (ts : list tok) : Prop :=
  2 <= l <= 13 -> forall rest, stops 14 rest -> noassign rest -> unary_stops (ts ++ rest).

Lemma loop_end : forall l e rest, loops l = true -> stops l rest -> R (loop l e) rest = (Ok e, rest).
Proof.
  intros l e rest L S. rewrite eqn.
  assert (C : l = 0 \/ l = 15 \/ (3 <= l <= 12)).
  { unfold loops in L. apply orb_prop in L. destruct L as [L|L]; [apply orb_prop in L; destruct L as [L|L]; apply Nat.eqb_eq in L; auto|].
    apply andb_prop in L. rewrite !Nat.leb_le in L. auto. }
  destruct C as [C | [C | C]].
  - subst l. cbn [loop step]. destruct rest as [|[| | |p| | |] rest]; try reflexivity. destruct p; try reflexivity. discriminate.
  - subst l. cbn [loop step]. destruct rest as [|[| | |p| | |] rest]; try reflexivity. destruct p; try reflexivity; discriminate.
  - replace (loop l e) with (BinLoop l e) by (do 13 (destruct l as [|l]; [reflexivity || lia|]); lia).
    cbn [step]. destruct rest as [|[| | |p| | |] rest]; try reflexivity.
    replace (binop_at l p) with (@None binop); [reflexivity|].
    cbn [stops] in S. do 13 (destruct l as [|l]; [try lia; destruct p; try reflexivity; discriminate|]). lia.
Qed.

Lemma reads_of_continues : forall l t ts, loops l = true -> continues l t ts -> reads l t ts.
Proof.
  intros l t ts L C rest [->|S]; [discriminate|]. rewrite (C L rest); [now apply loop_end|]. right. eapply stops_mono; [|exact S]. lia.
Qed.

Lemma rule_bin : forall k, 3 <= k <= 12 -> rule k = Bin k.
Proof. intros k L. do 13 (destruct k as [|k]; [reflexivity || lia|]). lia. Qed.
Lemma loop_bin : forall k e, 3 <= k <= 12 -> loop k e = BinLoop k e.
Proof. intros k e L. do 13 (destruct k as [|k]; [reflexivity || lia|]). lia. Qed.
Lemma loops_bin : forall k, 3 <= k <= 12 -> loops k = true.
Proof. intros k L. do 13 (destruct k as [|k]; [reflexivity || lia|]). lia. Qed.
Lemma tighter_rule : forall k, 3 <= k <= 12 -> tighter k = rule (S k).
Proof. intros k L. do 13 (destruct k as [|k]; [reflexivity || lia|]). lia. Qed.

(** from one production to the next *)
Lemma up_15 : forall t ts, plain ts -> reads 16 t ts -> continues 15 t ts.
Proof.
  intros t ts P H _ rest _. rewrite eqn. cbn [rule step].
  rewrite (orelse_nm _ _ _ _ (ts ++ rest)) by now apply nm_apply, plain_compound, plain_app.
  erewrite bind_ok by (apply apply_ok, (H rest); now left). reflexivity.
Qed.
Lemma up_14 : forall t ts, plain ts -> reads 15 t ts -> reads 14 t ts.
Proof.
  intros t ts P H rest [|S]; [discriminate|].
  assert (K : apply (R Postfix) (ts ++ rest) = (Ok (node t), rest)).
  { apply apply_ok, (H rest). right. eapply stops_mono; [|exact S]. lia. }
  rewrite eqn. cbn [rule step]. pose proof (plain_app _ rest P) as P'.
  destruct (ts ++ rest) as [|[| | |p| | |] s']; try contradiction; try exact K.
  destruct p; try contradiction. exact K.
Qed.
Lemma up_13 : forall t ts, D 14 t ts -> reads 14 t ts -> reads 13 t ts.
Proof.
  intros t ts HD H rest [|S]; [discriminate|]. rewrite eqn. cbn [rule step].
  rewrite (orelse_nm _ _ _ _ (ts ++ rest)) by (apply nm_apply; eapply scan_14; eassumption).
  apply apply_ok, H. right. eapply stops_mono; [|exact S]. lia.
Qed.
Lemma up_bin : forall k t ts, 3 <= k <= 12 -> reads (S k) t ts -> continues k t ts.
Proof.
  intros k t ts L H _ rest [->|S]; [lia|]. rewrite eqn, rule_bin, loop_bin by assumption. cbn [step].
  erewrite bind_ok; [reflexivity|]. rewrite tighter_rule by assumption. apply apply_ok, H. now right.
Qed.
Lemma up_2 : forall t ts, reads 3 t ts -> reads 2 t ts.
Proof.
  intros t ts H rest [|S]; [discriminate|]. rewrite eqn. cbn [rule step].
  erewrite bind_ok by (apply apply_ok, (H rest); right; eapply stops_mono; [|exact S]; lia).
  replace (is PQuestion rest) with false; [reflexivity|].
  destruct rest as [|[| | |p| | |] rest]; try reflexivity. destruct p; try reflexivity. discriminate.
Qed.
Lemma up_1 : forall t ts, no_assignment 2 ts -> reads 2 t ts -> reads 1 t ts.
Proof.
  intros t ts N H rest [|S]; [discriminate|]. rewrite eqn. cbn [rule step].
  rewrite (orelse_nm _ _ _ _ (ts ++ rest)).
  - apply apply_ok, H. right. eapply stops_mono; [|exact S]. lia.
  - apply nm_apply. unfold nm. rewrite eqn. cbn [step].
    destruct (N ltac:(lia) rest) as [U | (e & s' & U & A)].
    + eapply stops_mono; [|exact S]. lia.
    + now apply stops_noassign.
    + apply bind_nm. now rewrite (nm_apply _ _ U).
    + erewrite bind_ok by (apply apply_ok, U). destruct s' as [|[| | |p| | |] s']; try reflexivity.
      cbn [noassign] in A. now rewrite A.
Qed.
Lemma up_0 : forall t ts, reads 1 t ts -> continues 0 t ts.
Proof.
  intros t ts H _ rest [|S]; [discriminate|]. rewrite eqn. cbn [rule step loop].
  erewrite bind_ok by (apply apply_ok, (H rest); now right). reflexivity.
Qed.

Lemma unary_of_reads : forall t ts, reads 14 t ts -> no_assignment 13 ts.
Proof. intros t ts H _ rest S A. right. exists (node t), rest. split; [|assumption]. apply (H rest). now right. Qed.

Lemma stops_bin : forall o rest, stops (S (bin_level o)) (TP (bin_punct o) :: rest).
Proof. destruct o; reflexivity. Qed.
Lemma binop_at_level : forall o, binop_at (bin_level o) (bin_punct o) = Some o.
Proof. destruct o; reflexivity. Qed.
Lemma asgop_of_punct : forall o, asgop_of (asg_punct o) = Some o.
Proof. destruct o; reflexivity. Qed.
Lemma begins_not : forall p s, begins s -> starts (TP p) = false -> is p s = false.
Proof.
  intros p s B N. destruct s as [|[| | |q| | |] s']; try reflexivity. cbn [is]. destruct (punct_eqb p q) eqn:E; [|reflexivity].
  apply punct_eqb_eq in E. subst q. cbn [begins] in B. congruence.
Qed.
Lemma begins_brace : forall s, begins s -> match s with TP PLBrace :: _ => False | _ => True end.
Proof. intros s B. destruct s as [|[| | |[]| | |] s']; auto. discriminate. Qed.
Lemma stops_brace : forall l s, stops l s -> match s with TP PLBrace :: _ => False | _ => True end.
Proof. intros l s B. destruct s as [|[| | |[]| | |] s']; auto. discriminate. Qed.

Definition good (l : nat) (t : tree) (ts : list tok) : Prop := reads l t ts /\ continues l t ts /\ no_assignment l ts.

Lemma no_loop : forall l t ts, loops l = false -> continues l t ts.
Proof. intros l t ts L L'. congruence. Qed.

Theorem complete :
  (forall l t ts, D l t ts -> good l t ts) /\
  (forall args ts, DArgs args ts -> forall f acc rest,
     R (ArgList (ECall f acc)) (ts ++ TP PRParen :: rest) = (Ok (ECall f (acc ++ map node args)), rest)).
Proof.
  destruct shapes as [Sh ShA].
  apply (D_mutind _ _ _ _ 14 good
    (fun args ts => forall f acc rest,
     R (ArgList (ECall f acc)) (ts ++ TP PRParen :: rest) = (Ok (ECall f (acc ++ map node args)), rest))).
  - intros n. split; [|split; [now apply no_loop|intros L; lia]]. intros rest _. rewrite eqn. reflexivity.
  - intros n. split; [|split; [now apply no_loop|intros L; lia]]. intros rest _. rewrite eqn. reflexivity.
  - intros n. split; [|split; [now apply no_loop|intros L; lia]]. intros rest _. rewrite eqn. reflexivity.
  - (* parentheses *)
    intros t ts _ (H & _). split; [|split; [now apply no_loop|intros L; lia]]. intros rest _. rewrite eqn. rewrite parens_app. cbn [rule step].
    rewrite expect_ok. erewrite bind_ok by (apply apply_ok, (H (TP PRParen :: rest)); now right). now rewrite expect_ok.
  - (* a[b] *)
    intros a b ta tb _ (_ & Ha & _) _ (Hb & _ & _).
    assert (C : continues 15 (TrIndex a b) (ta ++ TP PLBracket :: tb ++ [TP PRBracket])).
    { intros _ rest _. rewrite <- app_assoc. cbn [app]. rewrite (Ha eq_refl) by now left. rewrite <- app_assoc. cbn [app].
      rewrite eqn. cbn [loop step is shift tl]. rewrite punct_eqb_refl.
      erewrite bind_ok by (apply apply_okm, (Hb (TP PRBracket :: rest)); now right). now rewrite expect_ok. }
    split; [now apply reads_of_continues|]. split; [assumption|intros L; lia].
  - (* f() *)
    intros f tf _ (_ & Hf & _).
    assert (C : continues 15 (TrCall f []) (tf ++ parens [])).
    { intros _ rest _. rewrite <- app_assoc. rewrite (Hf eq_refl) by now left. rewrite parens_app.
      rewrite eqn. cbn [loop step is shift tl app]. cbn [punct_eqb]. rewrite punct_eqb_refl.
      replace (punct_eqb PLBracket PLParen) with false by reflexivity. cbv iota.
      erewrite bind_ok; [|rewrite eqn; cbn [step is shift tl]; rewrite punct_eqb_refl; reflexivity]. reflexivity. }
    split; [now apply reads_of_continues|]. split; [assumption|intros L; lia].
  - (* f(..) *)
    intros f tf args ts _ (_ & Hf & _) _ HA.
    assert (C : continues 15 (TrCall f args) (tf ++ parens ts)).
    { intros _ rest _. rewrite <- app_assoc. rewrite (Hf eq_refl) by now left. rewrite parens_app.
      rewrite eqn. cbn [loop step is shift tl app]. rewrite punct_eqb_refl.
      replace (punct_eqb PLBracket PLParen) with false by reflexivity. cbv iota.
      erewrite bind_ok by apply HA. reflexivity. }
    split; [now apply reads_of_continues|]. split; [assumption|intros L; lia].
  - (* member *)
    intros t ts dot n _ (_ & H & _).
    assert (C : continues 15 (TrMember dot t n) (ts ++ [TP (if dot then PDot else PArrow); TName n])).
    { intros _ rest _. rewrite <- app_assoc. rewrite (H eq_refl) by now left. rewrite eqn. destruct dot; reflexivity. }
    split; [now apply reads_of_continues|]. split; [assumption|intros L; lia].
  - (* ++ *)
    intros t ts inc _ (_ & H & _).
    assert (C : continues 15 (TrPost inc t) (ts ++ [TP (if inc then PInc else PDec)])).
    { intros _ rest _. rewrite <- app_assoc. rewrite (H eq_refl) by now left. rewrite eqn. destruct inc; reflexivity. }
    split; [now apply reads_of_continues|]. split; [assumption|intros L; lia].
  - (* compound literal *)
    intros ty i. split; [|split; [now apply no_loop|intros L; lia]]. intros rest _. rewrite eqn. rewrite <- app_assoc.
    rewrite parens_app at 1. cbn [rule step prefix_of]. replace (punct_eqb PLParen PAndAnd) with false by reflexivity. cbn [andb].
    rewrite <- parens_app. apply apply_ok. rewrite eqn. cbn [step]. apply orelse_ok, apply_ok. rewrite eqn. rewrite parens_app.
    cbn [step]. rewrite expect_ok. erewrite bind_ok by apply type_apply. rewrite expect_ok.
    erewrite bind_ok by apply init_reads. reflexivity.
  - (* prefix ++ *)
    intros t ts inc HD (H & _). split; [|split; [now apply no_loop|intros L; lia]]. intros rest [|S]; [discriminate|].
    pose proof (up_13 _ _ HD H rest (or_intror (stops_13 _ _ S))) as K.
    rewrite eqn. cbn [rule app step]. replace (prefix_of (if inc then PInc else PDec)) with (Some (if inc then OPreInc else OPreDec)) by (destruct inc; reflexivity).
    erewrite bind_ok by (apply apply_okm, K). reflexivity.
  - (* unary operators *)
    intros o t ts _ (H & _). split; [|split; [now apply no_loop|intros L; lia]]. intros rest [|S]; [discriminate|].
    pose proof (H rest (or_intror (stops_13 _ _ S))) as K.
    rewrite eqn. cbn [rule app step]. replace (prefix_of (uop_punct o)) with (Some (un_node o)) by (destruct o; reflexivity).
    erewrite bind_ok by (apply apply_okm, K). reflexivity.
  - (* sizeof e *)
    intros t ts _ (H & _). split; [|split; [now apply no_loop|intros L; lia]]. intros rest [|S]; [discriminate|].
    rewrite eqn. cbn [rule app step]. pose proof (H rest (or_intror S)) as K. cbn [rule] in K. rewrite (apply_ok _ _ _ _ _ K). reflexivity.
  - (* sizeof (T) *)
    intros ty. split; [|split; [now apply no_loop|intros L; lia]]. intros rest [|S]; [discriminate|].
    rewrite eqn. cbn [rule app step]. rewrite (nm_apply _ _ (type_unary ty rest (stops_brace _ _ S))).
    rewrite parens_app, expect_ok. erewrite bind_ok by (apply apply_okm, type_reads). now rewrite expect_ok.
  - (* _Alignof (T) *)
    intros ty. split; [|split; [now apply no_loop|intros L; lia]]. intros rest [|S]; [discriminate|].
    rewrite eqn. cbn [rule app step]. rewrite parens_app, expect_ok.
    erewrite bind_ok by (apply orelse_ok; erewrite bind_ok by apply type_apply; reflexivity). now rewrite expect_ok.
  - (* cast *)
    intros ty t ts HD (H & _). split; [|split; [now apply no_loop|]].
    + intros rest [|S]; [discriminate|]. rewrite eqn. cbn [rule step]. apply orelse_ok, apply_ok. rewrite eqn.
      rewrite <- app_assoc, parens_app. cbn [step]. rewrite expect_ok. erewrite bind_ok by apply type_apply. rewrite expect_ok.
      pose proof (H rest (or_intror S)) as K. cbn [rule] in K. rewrite (apply_ok _ _ _ _ _ K). reflexivity.
    + intros _ rest S A. left. rewrite <- app_assoc. apply type_unary, begins_brace, begins_app. now apply (Sh _ _ _ HD).
  - (* binary operators *)
    intros o a b ta tb _ (_ & Ca & Na) _ (Hb & _ & _). pose proof (bin_level_le o) as L.
    assert (C : continues (bin_level o) (TrBin o a b) (ta ++ TP (bin_punct o) :: tb)).
    { intros _ rest [E|S]; [lia|]. rewrite <- app_assoc. cbn [app]. rewrite (Ca (loops_bin _ L)) by (right; apply stops_bin).
      rewrite !loop_bin by assumption. rewrite eqn. cbn [step]. rewrite binop_at_level, tighter_rule by assumption.
      erewrite bind_ok by (apply apply_okm, (Hb rest); now right). reflexivity. }
    split; [apply reads_of_continues; [now apply loops_bin|assumption]|]. split; [assumption|].
    intros _ rest S A. rewrite <- app_assoc. cbn [app]. apply Na; [lia| |]; destruct o; reflexivity.
  - (* a ? b : c *)
    intros a b c ta tb tc _ (Ha & _ & Na) HDb (Hb & _ & _) _ (Hc & _ & _). split; [|split; [now apply no_loop|]].
    + intros rest [|S]; [discriminate|]. rewrite eqn. cbn [rule step]. rewrite <- app_assoc. cbn [app]. rewrite <- app_assoc. cbn [app].
      erewrite bind_ok by (apply apply_ok, (Ha (TP PQuestion :: tb ++ TP PColon :: tc ++ rest)); now right).
      cbn [is shift tl]. rewrite punct_eqb_refl. cbv zeta.
      rewrite (begins_not PColon (tb ++ TP PColon :: tc ++ rest)); [|apply begins_app; now apply (Sh _ _ _ HDb)|reflexivity]. cbn [negb orb].
      erewrite bind_ok by (apply apply_okm, (Hb (TP PColon :: tc ++ rest)); now right). rewrite expect_ok.
      erewrite bind_ok by (apply apply_okm, (Hc rest); now right). reflexivity.
    + intros _ rest S A. rewrite <- app_assoc. cbn [app]. apply Na; [lia|reflexivity|reflexivity].
  - (* assignment *)
    intros o a b ta tb _ (Ha & _ & _) _ (Hb & _ & _). split; [|split; [now apply no_loop|intros L; lia]].
    intros rest [|S]; [discriminate|]. rewrite eqn. cbn [rule step]. apply orelse_ok, apply_ok. rewrite eqn. cbn [step].
    rewrite <- app_assoc. cbn [app]. erewrite bind_ok by (apply apply_ok, (Ha (TP (asg_punct o) :: tb ++ rest)); right; destruct o; reflexivity).
    cbv beta iota. rewrite asgop_of_punct. erewrite bind_ok by (apply apply_okm, (Hb rest); now right). reflexivity.
  - (* comma *)
    intros a b ta tb _ (_ & Ca & _) _ (Hb & _ & _).
    assert (C : continues 0 (TrComma a b) (ta ++ TP PComma :: tb)).
    { intros _ rest [E|S]; [discriminate|]. rewrite <- app_assoc. cbn [app]. rewrite (Ca eq_refl) by (right; reflexivity).
      rewrite eqn. cbn [loop step is shift tl]. rewrite punct_eqb_refl.
      erewrite bind_ok by (apply apply_okm, (Hb rest); now right). reflexivity. }
    split; [now apply reads_of_continues|]. split; [assumption|intros L; lia].
  - (* chain *)
    intros l t ts L HD (H & Cn & Na). destruct (Sh _ _ _ HD) as (_ & P15 & _).
    assert (K : l = 0 \/ l = 1 \/ l = 2 \/ (3 <= l <= 12) \/ l = 13 \/ l = 14 \/ l = 15) by lia.
    destruct K as [-> | [-> | [-> | [K | [-> | [-> | ->]]]]]].
    + pose proof (up_0 _ _ H) as C. split; [now apply reads_of_continues|]. split; [assumption|intros Q; lia].
    + split; [|split; [now apply no_loop|intros Q; lia]]. now apply up_1.
    + split; [now apply up_2|]. split; [now apply no_loop|]. intros _. apply Na. lia.
    + pose proof (up_bin _ _ _ K H) as C. split; [apply reads_of_continues; [now apply loops_bin|assumption]|]. split; [assumption|].
      intros _. apply Na. lia.
    + split; [now apply up_13|]. split; [now apply no_loop|]. now apply (unary_of_reads t).
    + split; [apply up_14; [apply P15; lia|assumption]|]. split; [now apply no_loop|intros Q; lia].
    + pose proof (up_15 _ _ (P15 ltac:(lia)) H) as C. split; [now apply reads_of_continues|]. split; [assumption|intros Q; lia].
  - (* one argument *)
    intros a ts HD (H & _ & _) f acc rest. rewrite eqn. cbn [step].
    rewrite (begins_not PRParen (ts ++ TP PRParen :: rest)); [|apply begins_app; now apply (Sh _ _ _ HD)|reflexivity].
    erewrite bind_ok by (apply apply_okm, (H (TP PRParen :: rest)); now right). cbn [is shift tl map]. rewrite punct_eqb_refl.
    reflexivity.
  - (* more arguments *)
    intros a ts args ts' HD (H & _ & _) _ HA f acc rest. rewrite eqn. cbn [step].
    rewrite <- app_assoc. cbn [app].
    rewrite (begins_not PRParen (ts ++ TP PComma :: ts' ++ TP PRParen :: rest)); [|apply begins_app; now apply (Sh _ _ _ HD)|reflexivity].
    erewrite bind_ok by (apply apply_okm, (H (TP PComma :: ts' ++ TP PRParen :: rest)); now right). cbn [is shift tl map].
    rewrite punct_eqb_refl. unfold call_append. rewrite HA. now rewrite <- app_assoc.
Qed.

Theorem parses : forall t ts rest, D 0 t ts -> stops 0 rest ->
  expression type_name initializer_list cfg (ts ++ rest) = (Ok (node t), rest).
Proof. intros t ts rest H S. apply apply_ok. destruct complete as [C _]. destruct (C _ _ _ H) as (A & _). apply (A rest). now right. Qed.
End Complete.
