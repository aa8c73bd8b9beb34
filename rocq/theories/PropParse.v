(** C14 (expressions parse with the precedence and associativity of C17), C15 (a failed attempt consumes nothing). *)
From Coq Require Import ZArith List Bool Lia PeanoNat.
From Verif Require Import ParseModel ParseProofs ParseSpec ParseComplete.
Import ListNotations.

(** * Printing *)
Section Printing.
Context {tyname init : Type} (type_spell : tyname -> list tok) (init_spell : init -> list tok) (lit : nat).
Hypothesis lit_le : lit <= 16.
Notation tree := (tree tyname init).
Notation D := (D type_spell init_spell lit). Notation DArgs := (DArgs type_spell init_spell lit).
Notation print := (print type_spell init_spell lit).

Definition body (t : tree) : list tok := print (level lit t) t.
Definition wrap (l : nat) (t : tree) (ts : list tok) : list tok := if Nat.leb l (level lit t) then ts else parens ts.
Lemma print_wrap : forall l (t : tree), print l t = wrap l t (body t).
Proof. intros l t. unfold wrap, body. destruct t; cbn [ParseSpec.print level]; rewrite ?Nat.leb_refl; reflexivity. Qed.

Lemma level_le : forall t : tree, level lit t <= 16.
Proof. destruct t; cbn [level]; try lia. pose proof (bin_level_le o). lia. Qed.

Lemma D_down : forall n l t ts, n + l <= 16 -> D (n + l) t ts -> D l t ts.
Proof. induction n as [|n IH]; intros l t ts L H; [assumption|]. apply IH; [lia|]. apply D_up; [lia|]. exact H. Qed.
Lemma D_le : forall k l t ts, l <= k -> k <= 16 -> D k t ts -> D l t ts.
Proof. intros k l t ts L1 L2 H. apply (D_down (k - l)); [lia|]. now replace (k - l + l) with k by lia. Qed.

Lemma D_wrap : forall l t ts, l <= 16 -> D (level lit t) t ts -> D l t (wrap l t ts).
Proof.
  intros l t ts L H. unfold wrap. pose proof (level_le t). destruct (Nat.leb_spec l (level lit t)).
  - now apply (D_le (level lit t)).
  - apply (D_le 16); [assumption|lia|]. apply D_paren. apply (D_le (level lit t)); [lia|assumption|assumption].
Qed.

Lemma D_args : forall args, Forall (fun t => forall l, l <= 16 -> D l t (print l t)) args -> args <> [] ->
  DArgs args (commas (map (print 1) args)).
Proof.
  induction args as [|a args IH]; intros F N; [congruence|]. inversion F as [|? ? Fa Fr]; subst. destruct args as [|b args].
  - cbn [map commas]. apply DA_one, Fa. lia.
  - change (commas (map (print 1) (a :: b :: args))) with (print 1 a ++ TP PComma :: commas (map (print 1) (b :: args))).
    apply DA_cons; [apply Fa; lia|]. apply IH; [assumption|discriminate].
Qed.

Theorem printed_derives : forall t l, l <= 16 -> D l t (print l t).
Proof.
  intros t. induction t using tree_induction; intros l Hl; rewrite print_wrap; apply D_wrap; try assumption;
    unfold body; cbn [ParseSpec.print level]; rewrite ?Nat.leb_refl; try (constructor; auto with arith; fail).
  - pose proof (bin_level_le o). constructor; [apply IHt1|apply IHt2]; lia.
  - destruct args as [|a args].
    + apply D_call0, IHt. lia.
    + apply D_call; [apply IHt; lia|]. apply D_args; [assumption|discriminate].
Qed.

Lemma parens_length : forall ts, length (parens ts) = 2 + length ts.
Proof. intros. unfold parens. cbn [length]. rewrite app_length. cbn [length]. lia. Qed.
Lemma wrap_mono : forall l k t ts, l <= k -> length (wrap l t ts) <= length (wrap k t ts).
Proof.
  intros l k t ts L. unfold wrap. destruct (Nat.leb_spec l (level lit t)); destruct (Nat.leb_spec k (level lit t)); rewrite ?parens_length; lia.
Qed.
Lemma wrap_bound : forall l t ts, length (wrap l t ts) <= 2 + length ts.
Proof. intros. unfold wrap. destruct (Nat.leb l (level lit t)); rewrite ?parens_length; lia. Qed.

(** no derivation is shorter than what is printed *)
Theorem printed_minimal :
  (forall l t ts, D l t ts -> length (print l t) <= length ts) /\
  (forall args ts, DArgs args ts -> length (commas (map (print 1) args)) <= length ts).
Proof.
  apply (D_mutind _ _ _ _ lit (fun l t ts => length (print l t) <= length ts)
    (fun args ts => length (commas (map (print 1) args)) <= length ts));
    intros; rewrite ?parens_length;
    try (cbn [ParseSpec.print level]; rewrite ?Nat.leb_refl;
         cbn [Nat.leb]; repeat (rewrite ?app_length, ?parens_length; cbn [length map commas] in *); lia).
  - (* parentheses *)
    rewrite print_wrap in *. pose proof (wrap_bound 16 t (body t)). unfold wrap in H0 at 1. cbn [Nat.leb] in H0. lia.
  - (* chain *)
    rewrite print_wrap in *. pose proof (wrap_mono l (S l) t (body t)). lia.
  - (* arguments *)
    destruct args as [|b args]; [inversion H1|].
    change (commas (map (print 1) (a :: b :: args))) with (print 1 a ++ TP PComma :: commas (map (print 1) (b :: args))).
    rewrite !app_length. cbn [length]. lia.
Qed.
End Printing.

(** * The tree can be read off the node *)
Section Node.
Context {tyname init : Type}.
Notation tree := (tree tyname init). Notation ast := (ast tyname init).

Definition parts (a : ast) : list ast := match a with EComma l => l | _ => [a] end.
Lemma join_parts : forall a b : ast, join a b = EComma (parts a ++ [b]).
Proof. destruct a; reflexivity. Qed.
Lemma comma_long : forall (t : tree) l, node t = EComma l -> 2 <= length l.
Proof.
  induction t using tree_induction; intros l E; try discriminate. cbn [node] in E. rewrite join_parts in E. injection E as <-.
  rewrite app_length. cbn [length]. enough (1 <= length (parts (node t1))) by lia. destruct (node t1) eqn:N; cbn [parts length]; try lia.
  specialize (IHt1 _ eq_refl). lia.
Qed.
Lemma parts_cases : forall t : tree, (node t = EComma (parts (node t)) /\ 2 <= length (parts (node t))) \/ parts (node t) = [node t].
Proof. intros t. pose proof (comma_long t) as L. destruct (node t); cbn [parts]; auto. Qed.
Lemma parts_inj : forall a b : tree, parts (node a) = parts (node b) -> node a = node b.
Proof.
  intros a b H. destruct (parts_cases a) as [(A & L)|A]; destruct (parts_cases b) as [(B & L')|B].
  - rewrite A, B. now rewrite H.
  - rewrite H, B in L. cbn [length] in L. lia.
  - rewrite <- H, A in L'. cbn [length] in L'. lia.
  - rewrite A, B in H. now injection H.
Qed.
Lemma node_not_type : forall (t : tree) ty, node t <> ETypeName ty.
Proof. destruct t; cbn [node]; try discriminate. intros ty. rewrite join_parts. discriminate. Qed.

Lemma un_inj : forall a b, un_node a = un_node b -> a = b.
Proof. destruct a, b; intros H; try reflexivity; discriminate. Qed.

Theorem node_injective : forall t t' : tree, node t = node t' -> t = t'.
Proof.
  induction t using tree_induction; intros t' E; destruct t'; cbn [node] in E; rewrite ?join_parts in E; try discriminate;
    try (injection E; intros; subst; reflexivity).
  all: try (injection E as E1 E2; repeat match goal with
                                         | o : uop |- _ => destruct o; try discriminate
                                         | i : bool |- _ => destruct i; try discriminate
                                         end; fail).
  - injection E as E1 E2. f_equal; [now apply un_inj|auto].
  - injection E as E1 E2. f_equal; [destruct i, inc; congruence|auto].
  - injection E as E1 E2. f_equal; [destruct i, inc; congruence|auto].
  - injection E as E. f_equal. auto.
  - injection E as E. now apply node_not_type in E.
  - injection E as E. symmetry in E. now apply node_not_type in E.
  - injection E as E1 E2 E3. f_equal; auto.
  - injection E as E1 E2 E3. f_equal; auto.
  - injection E as E1 E2 E3. f_equal; auto.
  - injection E as E. apply app_inj_tail in E. destruct E as (E1 & E2). apply parts_inj in E1. f_equal; auto.
  - injection E as E1 E2. f_equal; auto.
  - injection E as E1 E2. f_equal; [auto|]. clear E1 IHt. revert args0 E2. induction H as [|a args Ha _ IH]; intros [|b args0] E2; try discriminate; [reflexivity|].
    injection E2 as E1 E2. f_equal; auto.
  - injection E as E1 E2. f_equal; auto.
  - injection E as E1 E2 E3. f_equal; auto.
Qed.
End Node.

(** * C14 *)
Section C14.
Context {tyname init : Type} (type_name : parser tyname) (initializer_list : parser init) (cfg : config).
Context (type_spell : tyname -> list tok) (init_spell : init -> list tok).

(** What is assumed of the rules for type names and initializer lists, and of their spelling. *)
Record spelling := {
  sp_type_forward : forward type_name;
  sp_init_forward : forward initializer_list;
  sp_type_begins : forall ty, exists z ts, type_spell ty = TOther z :: ts;
  sp_type_reads : forall ty rest, type_name (type_spell ty ++ TP PRParen :: rest) = (Ok ty, TP PRParen :: rest);
  sp_type_only : forall s, match s with TOther _ :: _ => False | _ => True end -> fst (type_name s) = NoMatch;
  sp_init_begins : forall i, exists ts, init_spell i = TP PLBrace :: ts;
  sp_init_reads : forall i rest, initializer_list (init_spell i ++ rest) = (Ok i, rest);
  sp_init_only : forall s, match s with TP PLBrace :: _ => False | _ => True end -> fst (initializer_list s) = NoMatch
}.
Hypothesis sp : spelling.
Notation D := (D type_spell init_spell). Notation print := (print type_spell init_spell).

(** Every phrase of the grammar is parsed to its tree, up to the first token that does not continue it; the grammar is
    that of 6.5, except that compound literals are unary rather than postfix expressions. *)
Theorem c14_parses_partial : forall t ts rest, D 14 0 t ts -> stops 0 rest ->
  expression type_name initializer_list cfg (ts ++ rest) = (Ok (node t), rest).
Proof. destruct sp. intros t ts rest H S. eapply parses; eassumption. Qed.

(** Printing a tree with the parentheses that are needed, and parsing it. *)
Theorem c14_round_trip_partial : forall t rest, stops 0 rest ->
  expression type_name initializer_list cfg (print 14 0 t ++ rest) = (Ok (node t), rest).
Proof. intros t rest S. apply c14_parses_partial; [|assumption]. apply printed_derives; lia. Qed.

(** With the parentheses of 6.5 proper, if no postfix operator is applied to a compound literal. *)
Definition literal (t : tree tyname init) : bool := match t with TrCompound _ _ => true | _ => false end.
Fixpoint clean (t : tree tyname init) : Prop :=
  match t with
  | TrName _ | TrConst _ | TrStr _ | TrSizeofType _ | TrAlignofType _ | TrCompound _ _ => True
  | TrUn _ t | TrPre _ t | TrSizeof t | TrCast _ t => clean t
  | TrPost _ t | TrMember _ t _ => literal t = false /\ clean t
  | TrBin _ a b | TrAssign _ a b | TrComma a b => clean a /\ clean b
  | TrCond a b c => clean a /\ clean b /\ clean c
  | TrCall f args => (literal f = false /\ clean f) /\ (fix all l := match l with [] => True | x :: r => clean x /\ all r end) args
  | TrIndex a b => (literal a = false /\ clean a) /\ clean b
  end.
Lemma clean_print : forall t, clean t -> forall l, l <= 14 \/ literal t = false -> print 14 l t = print 15 l t.
Proof.
  induction t using tree_induction; intros C l L; cbn [clean] in C; cbn [ParseSpec.print level];
    repeat match goal with H : _ /\ _ |- _ => destruct H end;
    repeat match goal with
           | IH : clean ?t -> _, K : clean ?t |- _ => specialize (IH K)
           end.
  all: try reflexivity.
  all: try (repeat match goal with
                   | IH : forall l, _ -> print 14 l ?t = _ |- _ => rewrite (IH 15) by (right; assumption)
                   | IH : forall l, _ -> print 14 l ?t = _ |- context [print 14 ?k ?t] => rewrite (IH k) by (left; lia)
                   end; reflexivity).
  - rewrite (IHt1 (bin_level o)), (IHt2 (S (bin_level o))) by (left; pose proof (bin_level_le o); lia). reflexivity.
  - rewrite (IHt 15) by (right; assumption). f_equal. replace (map (print 14 1) args) with (map (print 15 1) args); [reflexivity|].
    clear - H H1. induction H as [|a args Ha _ IH]; [reflexivity|]. destruct H1 as (C1 & C2). cbn [map]. rewrite (IH C2). f_equal.
    symmetry. apply Ha; [assumption|left; lia].
  - destruct L as [L|L]; [|discriminate]. replace (Nat.leb l 14) with true by (symmetry; apply Nat.leb_le; lia).
    replace (Nat.leb l 15) with true by (symmetry; apply Nat.leb_le; lia). reflexivity.
Qed.
Theorem c14_round_trip_clean : forall t rest, clean t -> stops 0 rest ->
  expression type_name initializer_list cfg (print 15 0 t ++ rest) = (Ok (node t), rest).
Proof. intros t rest C S. rewrite <- (clean_print t C 0) by (left; lia). now apply c14_round_trip_partial. Qed.

(** The printed form is a phrase of the grammar and no phrase for the tree is shorter: no parentheses are superfluous. *)
Theorem c14_print_minimal : forall lit t, lit <= 16 ->
  D lit 0 t (print lit 0 t) /\ forall ts, D lit 0 t ts -> length (print lit 0 t) <= length ts.
Proof.
  intros lit t L. split; [apply printed_derives; lia|]. intros ts H.
  exact (proj1 (printed_minimal type_spell init_spell lit L) 0 t ts H).
Qed.

(** The node determines the tree, so one token list is not a phrase for two trees. *)
Theorem c14_unambiguous : forall t t' ts, D 14 0 t ts -> D 14 0 t' ts -> t = t'.
Proof.
  intros t t' ts H H'. pose proof (c14_parses_partial t ts [] H I) as E. pose proof (c14_parses_partial t' ts [] H' I) as E'.
  rewrite E in E'. injection E' as E'. now apply node_injective.
Qed.
End C14.

(** * C15 *)
Section C15.
Context {tyname init : Type} (type_name : parser tyname) (initializer_list : parser init) (cfg : config).
Hypothesis Ht : forward type_name.
Hypothesis Hi : forward initializer_list.
Notation R := (run type_name initializer_list cfg).
Let eqn := run_eq type_name initializer_list cfg Ht Hi.

Lemma bind_inv : forall A B (p : parser A) (f : A -> parser B) s b s', bind p f s = (Ok b, s') ->
  exists a s1, p s = (Ok a, s1) /\ f a s1 = (Ok b, s').
Proof. unfold bind. intros A B p f s b s' H. destruct (p s) as [[a| | |] s1]; try discriminate. eauto. Qed.
Lemma apply_inv : forall A (p : parser A) s a s', apply p s = (Ok a, s') -> p s = (Ok a, s').
Proof. unfold apply. intros A p s a s' H. destruct (p s) as [[] ?]; try discriminate. assumption. Qed.
Lemma must_inv : forall A (p : parser A) s a s', must p s = (Ok a, s') -> p s = (Ok a, s').
Proof. unfold must. intros A p s a s' H. destruct (p s) as [[] ?]; try discriminate. assumption. Qed.
Lemma orelse_inv : forall A (p q : parser A) s a s', still p s -> orelse p q s = (Ok a, s') -> p s = (Ok a, s') \/ q s = (Ok a, s').
Proof.
  unfold orelse. intros A p q s a s' St H. destruct (p s) as [[] s1] eqn:E; try discriminate; auto. right.
  now rewrite (St s1 E) in H.
Qed.
Lemma expect_inv : forall A p (o : outcome A) k s a s', o = NoMatch \/ o = Syntax -> expect p o k s = (Ok a, s') ->
  exists t, s = TP p :: t /\ k t = (Ok a, s').
Proof.
  unfold expect. intros A p o k s a s' Ho H. destruct (is p s) eqn:I; [exists (shift s); split; [now apply is_cons|assumption]|].
  destruct Ho as [-> | ->]; discriminate.
Qed.

Lemma run_suffix : forall g s a s', R g s = (Ok a, s') -> suffix s' s.
Proof. intros g s a s' H. destruct (run_E type_name initializer_list cfg Ht Hi g s) as (_ & _ & S). eauto. Qed.
Lemma run_length : forall g s a s', R g s = (Ok a, s') -> length s' <= length s.
Proof. intros. now apply suffix_length, (run_suffix g s a). Qed.

Definition strict (g : goal tyname init) (s : list tok) : Prop := forall a s', R g s = (Ok a, s') -> length s' < length s.
Lemma strict_bind : forall g (f : ast tyname init -> parser (ast tyname init)) s a s', strict g s ->
  (forall e t b t', f e t = (Ok b, t') -> length t' <= length t) -> bind (apply (R g)) f s = (Ok a, s') -> length s' < length s.
Proof.
  intros g f s a s' S F H. apply bind_inv in H. destruct H as (e & s1 & H1 & H2). apply apply_inv in H1. apply S in H1. apply F in H2. lia.
Qed.

Lemma strict_primary : forall s, strict Primary s.
Proof.
  intros s a s' H. rewrite eqn in H. destruct s as [|[| | |p| | |] s]; cbn [step] in H; try discriminate;
    try (injection H as _ <-; cbn [length]; lia).
  apply expect_inv in H; [|auto]. destruct H as (t & Et & H). injection Et as _ ->. apply bind_inv in H. destruct H as (e & s1 & H1 & H2).
  apply apply_inv, run_length in H1. apply expect_inv in H2; [|auto]. destruct H2 as (t2 & -> & H2). injection H2 as _ <-. cbn [length] in *. lia.
Qed.
Lemma strict_compound : forall s, strict Compound s.
Proof.
  intros s a s' H. rewrite eqn in H. cbn [step] in H. apply expect_inv in H; [|auto]. destruct H as (t & -> & H).
  apply bind_inv in H. destruct H as (ty & s1 & H1 & H2). apply apply_inv in H1. apply Ht, suffix_length in H1.
  apply expect_inv in H2; [|auto]. destruct H2 as (t2 & -> & H2). apply bind_inv in H2. destruct H2 as (i & s3 & H3 & H4).
  apply Hi, suffix_length in H3. injection H4 as _ <-. cbn [length] in *. lia.
Qed.
Lemma strict_postfix : forall s, strict Postfix s.
Proof.
  intros s a s' H. rewrite eqn in H. cbn [step] in H. apply orelse_inv in H; [|apply still_apply]. destruct H as [H|H].
  - apply apply_inv in H. eapply strict_compound. exact H.
  - eapply strict_bind; [apply strict_primary| |exact H]. intros e t b t' K. eapply run_length. exact K.
Qed.
Lemma strict_unary : forall s, strict Unary s.
Proof.
  intros s a s' H. rewrite eqn in H.
  assert (P : apply (R Postfix) s = (Ok a, s') -> length s' < length s) by (intros K; apply apply_inv in K; eapply strict_postfix; exact K).
  destruct s as [|[| | |p| | |] s]; cbn [step] in H; try (apply P; exact H).
  - destruct (prefix_of p).
    + apply bind_inv in H. destruct H as (e & s1 & H1 & H2). apply must_inv, apply_inv, run_length in H1. injection H2 as _ <-. cbn [length]. lia.
    + destruct (punct_eqb p PAndAnd && label_addressing cfg); [|apply P; exact H].
      destruct s as [|[| | |q| | |] s]; try discriminate. injection H as _ <-. cbn [length]. lia.
  - destruct (apply (R Unary) s) as [[e| | |] s1] eqn:U; try discriminate.
    + injection H as _ <-. apply apply_inv, run_length in U. cbn [length]. lia.
    + pose proof (still_apply _ _ _ _ U) as ->. apply expect_inv in H; [|auto]. destruct H as (t & -> & H).
      apply bind_inv in H. destruct H as (ty & s2 & H1 & H2). apply must_inv, apply_inv in H1. apply Ht, suffix_length in H1.
      apply expect_inv in H2; [|auto]. destruct H2 as (t2 & -> & H2). injection H2 as _ <-. cbn [length] in *. lia.
  - apply expect_inv in H; [|auto]. destruct H as (t & -> & H). apply bind_inv in H. destruct H as (e & s1 & H1 & H2).
    assert (L : length s1 <= length t).
    { apply orelse_inv in H1.
      - destruct H1 as [H1|H1].
        + apply bind_inv in H1. destruct H1 as (ty & s2 & H1 & H3). apply apply_inv in H1. apply Ht, suffix_length in H1. injection H3 as _ <-. assumption.
        + apply must_inv, apply_inv in H1. eapply run_length. exact H1.
      - intros s2. unfold bind, apply. destruct (type_name t) as [[] ?]; intros K; inversion K; reflexivity. }
    apply expect_inv in H2; [|auto]. destruct H2 as (t2 & -> & H2). injection H2 as _ <-. cbn [length] in *. lia.
Qed.
Lemma strict_scan : forall s, strict ScanCast s.
Proof.
  intros s a s' H. rewrite eqn in H. cbn [step] in H. apply expect_inv in H; [|auto]. destruct H as (t & -> & H).
  apply bind_inv in H. destruct H as (ty & s1 & H1 & H2). apply apply_inv in H1. apply Ht, suffix_length in H1.
  apply expect_inv in H2; [|auto]. destruct H2 as (t2 & -> & H2). destruct (apply (R Cast) t2) as [[e| | |] s3] eqn:C; try discriminate.
  - injection H2 as _ <-. apply apply_inv, run_length in C. cbn [length] in *. lia.
  - destruct (is PLBrace s3); discriminate.
Qed.
Lemma strict_cast : forall s, strict Cast s.
Proof.
  intros s a s' H. rewrite eqn in H. cbn [step] in H. apply orelse_inv in H; [|apply still_apply]. destruct H as [H|H]; apply apply_inv in H.
  - eapply strict_scan. exact H.
  - eapply strict_unary. exact H.
Qed.
Lemma strict_bin : forall n k s, 12 <= n + k -> strict (Bin k) s.
Proof.
  induction n as [|n IH]; intros k s L a s' H; rewrite eqn in H; cbn [step] in H;
    (eapply (strict_bind (tighter k)); [|intros e t b t' K; eapply run_length; exact K|exact H]); unfold tighter;
    destruct (Nat.leb_spec 12 k); try apply strict_cast; try lia.
  apply IH. lia.
Qed.
Lemma strict_conditional : forall s, strict Conditional s.
Proof.
  intros s a s' H. rewrite eqn in H. cbn [step] in H. apply bind_inv in H. destruct H as (e & s1 & H1 & H2). apply apply_inv, (strict_bin 9 3) in H1; [|lia].
  enough (length s' <= length s1) by lia. destruct (is PQuestion s1) eqn:I.
  - pose proof (is_cons _ _ I) as C. rewrite C. cbn [length]. set (t := shift s1) in *. clearbody t.
    destruct (negb (is PColon t) || negb (omitted_operand cfg)) eqn:O.
    + apply bind_inv in H2. destruct H2 as (b & s2 & H2 & H3). apply must_inv, apply_inv, run_length in H2.
      apply expect_inv in H3; [|auto]. destruct H3 as (t2 & -> & H3). apply bind_inv in H3. destruct H3 as (c & s3 & H3 & H4).
      apply must_inv, apply_inv, run_length in H3. injection H4 as _ <-. cbn [length] in *. lia.
    + apply bind_inv in H2. destruct H2 as (c & s3 & H3 & H4). apply must_inv, apply_inv, run_length in H3. injection H4 as _ <-.
      destruct t; cbn [shift tl length] in *; lia.
  - injection H2 as _ <-. lia.
Qed.
Lemma strict_reduce : forall s, strict Reduce s.
Proof.
  intros s a s' H. rewrite eqn in H. cbn [step] in H. eapply strict_bind; [apply strict_unary| |exact H].
  intros e t b t' K. destruct t as [|[| | |p| | |] t]; try discriminate. destruct (asgop_of p); [|discriminate].
  apply bind_inv in K. destruct K as (c & s1 & K1 & K2). apply must_inv, apply_inv, run_length in K1. injection K2 as _ <-. cbn [length]. lia.
Qed.
Lemma strict_assignment : forall s, strict Assignment s.
Proof.
  intros s a s' H. rewrite eqn in H. cbn [step] in H. apply orelse_inv in H; [|apply still_apply]. destruct H as [H|H]; apply apply_inv in H.
  - eapply strict_reduce. exact H.
  - eapply strict_conditional. exact H.
Qed.
Lemma strict_expression : forall s, strict Expression s.
Proof.
  intros s a s' H. rewrite eqn in H. cbn [step] in H. eapply strict_bind; [apply strict_assignment| |exact H].
  intros e t b t' K. eapply run_length. exact K.
Qed.

(** the goals that are rules of their own, not loops inside a rule *)
Definition is_rule (g : goal tyname init) : bool :=
  match g with CommaLoop _ | BinLoop _ _ | Postfixes _ | ArgList _ => false | _ => true end.
Lemma strict_rule : forall g s, is_rule g = true -> strict g s.
Proof.
  destruct g; intros s H; try discriminate; eauto using strict_primary, strict_compound, strict_postfix, strict_unary, strict_scan,
    strict_cast, strict_conditional, strict_reduce, strict_assignment, strict_expression.
  apply (strict_bin 12). lia.
Qed.

(** For each expression rule [g] and each position of the cursor: the attempt stops; if it reports no match the cursor is
    where it was; if it succeeds the cursor has moved forward, over at least one token. *)
Theorem c15_cursor : forall g s, is_rule g = true ->
  exists o s', apply (R g) s = (o, s') /\ o <> NoFuel /\ (o = NoMatch -> s' = s) /\
    (forall e, o = Ok e -> exists p, p <> [] /\ s = p ++ s').
Proof.
  intros g s Hg. destruct (run_E type_name initializer_list cfg Ht Hi g s) as (_ & N & S). pose proof (strict_rule g s Hg) as St.
  unfold apply. destruct (R g s) as [o s'] eqn:E. cbn [fst] in N. destruct o as [a| | |].
  - exists (Ok a), s'. split; [reflexivity|]. split; [discriminate|]. split; [discriminate|]. intros e _. destruct (S _ _ eq_refl) as (p & P).
    exists p. split; [|assumption]. intros ->. specialize (St _ _ E). cbn [app] in P. subst s'. lia.
  - exists NoMatch, s. repeat split; try discriminate.
  - exists Syntax, s'. repeat split; try discriminate.
  - congruence.
Qed.

(** Fuel is no restriction: any larger amount gives the same result, on every input. *)
Theorem c15_terminates : forall g s f, 40 * length s + 31 <= f ->
  parse type_name initializer_list cfg f g s = R g s /\ fst (R g s) <> NoFuel.
Proof.
  intros g s f L. pose proof (rank_le g) as K.
  destruct (fuel_enough type_name initializer_list cfg Ht Hi (S (mu g s)) g s (S (40 * length s + rank g)) f) as (E & N & _);
    try (unfold mu; lia). split; [symmetry; exact E|exact N].
Qed.
End C15.

(** * Concrete cases *)
Definition ty_rule : parser Z := fun s => match s with TOther z :: s' => (Ok z, s') | _ => (NoMatch, s) end.
Definition init_rule : parser unit := fun s =>
  match s with TP PLBrace :: TP PRBrace :: s' => (Ok tt, s') | TP PLBrace :: s' => (Syntax, s') | _ => (NoMatch, s) end.
Definition ty_spell (z : Z) : list tok := [TOther z].
Definition init_spelled (_ : unit) : list tok := [TP PLBrace; TP PRBrace].

Lemma ty_forward : forward ty_rule.
Proof.
  intros s. destruct s as [|[] s]; cbn; split; try discriminate. intros a s' H. injection H as _ <-. apply suffix_cons, suffix_refl.
Qed.
Lemma init_forward : forward init_rule.
Proof.
  intros s. destruct s as [|[| | |[]| | |] s]; cbn; split; try discriminate; destruct s as [|[| | |[]| | |] s]; try discriminate.
  intros a s' H. injection H as _ <-. apply suffix_cons, suffix_cons, suffix_refl.
Qed.
Example c14_hypotheses : spelling ty_rule init_rule ty_spell init_spelled.
Proof.
  split.
  - apply ty_forward.
  - apply init_forward.
  - intros ty. exists ty, []. reflexivity.
  - reflexivity.
  - intros s H. destruct s as [|[] s]; try reflexivity. destruct H.
  - intros i. exists [TP PRBrace]. reflexivity.
  - intros [] rest. reflexivity.
  - intros s H. destruct s as [|[| | |[]| | |] s]; try reflexivity. destruct H.
Qed.

(** a = b ? - c * ( d + e ) , f ( g , ( h , i ) ) : j , then a semicolon *)
Definition sample : tree Z unit :=
  TrAssign ASimple (TrName 1)
    (TrCond (TrName 2)
       (TrComma (TrBin OMul (TrUn UMinus (TrName 3)) (TrBin OAdd (TrName 4) (TrName 5)))
                (TrCall (TrName 6) [TrName 7; TrComma (TrName 8) (TrName 9)]))
       (TrName 10)).
Example c14_sample :
  print ty_spell init_spelled 14 0 sample =
    [TName 1; TP PAssign; TName 2; TP PQuestion; TP PMinus; TName 3; TP PStar; TP PLParen; TName 4; TP PPlus; TName 5; TP PRParen;
     TP PComma; TName 6; TP PLParen; TName 7; TP PComma; TP PLParen; TName 8; TP PComma; TName 9; TP PRParen; TP PRParen;
     TP PColon; TName 10] /\
  stops 0 [TOther 59] /\ clean sample.
Proof. repeat split. Qed.
Example c15_no_match : is_rule (tyname := Z) (init := unit) Reduce = true /\
  apply (run ty_rule init_rule (Cfg true true) Reduce) [TName 1; TP PPlus; TName 2] = (NoMatch, [TName 1; TP PPlus; TName 2]).
Proof. split; [reflexivity|vm_compute; reflexivity]. Qed.

(** In the grammar of 6.5.2 a compound literal is a postfix expression: [(T){}.m] is one expression. The parser takes
    [(T){}] alone and leaves [.m] behind. *)
Theorem c14_compound_literal_refuted : exists t ts,
  D ty_spell init_spelled 15 0 t ts /\
  expression ty_rule init_rule (Cfg false false) ts = (Ok (ECompound 7%Z tt), [TP PDot; TName 1]) /\ node t <> ECompound 7%Z tt.
Proof.
  exists (TrMember true (TrCompound 7%Z tt) 1), [TP PLParen; TOther 7; TP PRParen; TP PLBrace; TP PRBrace; TP PDot; TName 1].
  split; [|split; [vm_compute; reflexivity|discriminate]].
  apply (printed_derives ty_spell init_spelled 15 ltac:(lia) (TrMember true (TrCompound 7%Z tt) 1) 0). lia.
Qed.

Print Assumptions c14_parses_partial.
Print Assumptions c14_round_trip_partial.
Print Assumptions c14_round_trip_clean.
Print Assumptions c14_print_minimal.
Print Assumptions c14_unambiguous.
Print Assumptions c14_compound_literal_refuted.
Print Assumptions c15_cursor.
Print Assumptions c15_terminates.
