(** C40: positional initializers visit the members in declaration order. *)

From Coq Require Import Bool List String Arith Lia.
From Verif Require Import TravModel TravSpec TravProofs.
Import ListNotations.
Open Scope string_scope.
Open Scope list_scope.

(** ** The order of the scalar subobjects *)

(** [n] scalars in a row, without designators: positions (innermost first) and types. *)
Fixpoint visit (fuel n : nat) (s : stack) : res (list (list nat * ty) * stack) :=
  match n with
  | 0 => Done ([], s)
  | S n =>
    bind (next_recursive fuel (fun _ => false) s) (fun x => match x with
    | (Some t, s') => bind (visit fuel n s') (fun r => Done ((map lpos s', t) :: fst r, snd r))
    | (None, _) => Fail
    end)
  end.

Lemma spine_map : forall s, spine s = map lpos s.
Proof. induction s as [|l s IH]; simpl; congruence. Qed.

Lemma finds_flat : forall N w l, flat N w l ->
  match l with [] => w = [] \/ exists p t w', w = (p, t) :: w' /\ aggregate t = true
  | x :: r => exists n w', finds N (fun t => negb (aggregate t)) n w x w' /\ flat N w' r end.
Proof.
  induction 1 as [|p t w l A F IH|p t w l A F IH].
  - left. reflexivity.
  - exists 0, w. split; [apply F_here; rewrite A; reflexivity|exact F].
  - destruct l as [|x r]; [right; eauto|]. destruct IH as (n & w' & H1 & H2). exists (S n), w'. split; [|exact H2].
    apply F_enter; [rewrite A; reflexivity|exact A|exact H1].
Qed.

Lemma visit_flat : forall N anon T l w s, good N anon T s -> pending N s = w -> flat N w l ->
  exists f0, forall f, f0 <= f -> exists s', visit f (List.length l) s = Done (l, s') /\ good N anon T s' /\ flat N (pending N s') [].
Proof.
  intros N anon T. induction l as [|x l IH]; intros w s G P F.
  - exists 0. intros f _. exists s. split; [reflexivity|]. split; [exact G|]. rewrite P. exact F.
  - destruct (finds_flat _ _ _ F) as (n & w' & Fi & F').
    destruct (next_recursive_ok N anon T (fun _ => false) n w x w' Fi s G P) as (f1 & m & below & E & G' & S & C & Sp & P').
    destruct (IH _ _ G' P' F') as (f2 & H). exists (max f1 f2). intros f Hf.
    destruct (H f ltac:(lia)) as (s' & V & Q). exists s'. split; [|exact Q]. simpl List.length. cbn [visit].
    rewrite E by lia. cbn [bind]. rewrite V. cbn [bind fst snd]. rewrite <- spine_map, Sp. destruct x. reflexivity.
Qed.

(** Tidy aggregates have at least one scalar. *)
Fixpoint size (t : ty) : nat :=
  match t with
  | Scalar _ => 1
  | Struct fs | Union fs => S ((fix sum (l : list field) : nat := match l with [] => 0 | Field _ _ u :: r => size u + sum r end) fs)
  | Array n e => S (size e)
  | Qualified t => S (size t)
  end.
Fixpoint sizes (l : list field) : nat := match l with [] => 0 | f :: r => size (ftype f) + sizes r end.
Lemma size_fields : forall fs, size (Struct fs) = S (sizes fs) /\ size (Union fs) = S (sizes fs).
Proof.
  intro fs. simpl. assert (E : (fix sum (l : list field) : nat := match l with [] => 0 | Field _ _ u :: r => size u + sum r end) fs = sizes fs).
  { induction fs as [|[n b u] fs IH]; [reflexivity|]. simpl. rewrite IH. reflexivity. }
  rewrite E. auto.
Qed.
Lemma size_in : forall fs f, In f fs -> size (ftype f) <= sizes fs.
Proof. induction fs as [|g fs IH]; intros f I; [destruct I|]. destruct I as [<-|I]; simpl; [lia|specialize (IH _ I); lia]. Qed.
Lemma takes_part_in : forall fs k i t, In (i, t) (takes_part k fs) -> exists f, In f fs /\ t = ftype f.
Proof.
  induction fs as [|g fs IH]; intros k i t I; [destruct I|]. simpl in I. destruct (unnamed g).
  - destruct (IH _ _ _ I) as (f & J & E). exists f. split; [right; exact J|exact E].
  - destruct I as [E|I]; [injection E as <- <-; exists g; split; [left; reflexivity|reflexivity]|].
    destruct (IH _ _ _ I) as (f & J & E). exists f. split; [right; exact J|exact E].
Qed.
Lemma members_smaller : forall anon N t i u, tidy anon t -> In (i, u) (members N t) -> tidy anon u /\ size u < size t.
Proof.
  intros anon N t i u Ti I. inversion Ti as [n|t' A|fs f U Tf|fs f If U NU Tf|n e Te]; subst.
  - destruct I.
  - simpl in I. assert (E : members N t' = []).
    { clear - A. induction t' as [n|fs|fs|n e|t IH]; simpl in *; try discriminate; [reflexivity|auto]. }
    rewrite E in I. destruct I.
  - simpl members in I. destruct (takes_part_in _ _ _ _ I) as (g & J & ->). split; [exact (tidy_in _ _ Tf _ J)|].
    rewrite (proj1 (size_fields _)). pose proof (size_in _ _ J). lia.
  - simpl members in I.
    assert (I' : In (i, u) (takes_part 0 fs)) by (destruct (takes_part 0 fs) as [|y l]; [destruct I|destruct I as [->|[]]; left; reflexivity]).
    destruct (takes_part_in _ _ _ _ I') as (g & J & ->). split; [exact (tidy_in _ _ Tf _ J)|].
    rewrite (proj2 (size_fields _)). pose proof (size_in _ _ J). lia.
  - simpl members in I. change (In (i, u) (map (fun i => (i, e)) (seq 0 (S n)))) in I. apply in_map_iff in I. destruct I as (j & E & _).
    injection E as <- <-. split; [exact Te|simpl; lia].
Qed.
Lemma members_some : forall anon N t, tidy anon t -> aggregate t = true -> members N t <> [].
Proof.
  intros anon N t Ti A. inversion Ti as [n|t' A'|fs f U Tf|fs f If U NU Tf|n e Te]; subst; simpl in A; try discriminate; try congruence.
  - simpl. eapply takes_part_some; [apply in_app_iff; right; left; reflexivity|exact U].
  - simpl members. pose proof (takes_part_some _ 0 _ If U) as H. destruct (takes_part 0 fs); [congruence|discriminate].
Qed.

Lemma flat_app : forall N a la, flat N a la -> forall b lb, flat N b lb -> flat N (a ++ b) (la ++ lb).
Proof.
  induction 1 as [|p t w l A F IH|p t w l A F IH]; intros b lb B; simpl; [exact B|apply L_scalar; auto|].
  apply L_enter; [exact A|]. rewrite app_assoc. apply IH. exact B.
Qed.
Lemma flat_exists : forall anon N n t p, size t < n -> tidy anon t -> exists x l, flat N [(p, t)] (x :: l).
Proof.
  intros anon N. induction n as [|n IH]; intros t p Hs Ti; [lia|]. destruct (aggregate t) eqn:A.
  2: { exists (p, t), []. apply L_scalar; [exact A|constructor]. }
  assert (G : forall ms, (forall i u, In (i, u) ms -> tidy anon u /\ size u < size t) -> exists l, flat N (under p ms) l /\ (ms <> [] -> l <> [])).
  { induction ms as [|[i u] ms IHm]; intro H; [exists []; split; [constructor|congruence]|].
    destruct (IHm (fun i u I => H i u (or_intror I))) as (l & F & _). destruct (H i u (or_introl eq_refl)) as [Tu Su].
    destruct (IH u (i :: p) ltac:(lia) Tu) as (y & l' & F'). exists ((y :: l') ++ l). split; [|discriminate].
    change (under p ((i, u) :: ms)) with ([(i :: p, u)] ++ under p ms). apply flat_app; assumption. }
  destruct (G (members N t) (fun i u => members_smaller anon N t i u Ti)) as (l & F & NE).
  specialize (NE (members_some _ _ _ Ti A)). destruct l as [|x l]; [congruence|]. exists x, l. apply L_enter; [exact A|]. rewrite app_nil_r. exact F.
Qed.
Lemma flat_end : forall anon N w, (forall p t, In (p, t) w -> tidy anon t) -> flat N w [] -> w = [].
Proof.
  intros anon N [|[p t] w] H F; [reflexivity|]. exfalso.
  assert (Ti : tidy anon t) by (apply (H p); left; reflexivity).
  destruct (flat_exists anon N _ t p (Nat.lt_succ_diag_r _) Ti) as (x & l & F').
  assert (D : forall w1 l1, flat N w1 l1 -> forall l2, flat N w1 l2 -> l1 = l2).
  { induction 1 as [|q u v k A K IHk|q u v k A K IHk]; intros l2 F2; inversion F2; subst; try congruence; try reflexivity; auto.
    f_equal. apply IHk. assumption. }
  assert (P : forall w1 l1, flat N w1 l1 -> forall a b, w1 = a ++ b -> exists la lb, flat N a la /\ flat N b lb /\ l1 = la ++ lb).
  { clear. induction 1 as [|q u v k A K IHk|q u v k A K IHk]; intros a b Q.
    - symmetry in Q. apply app_eq_nil in Q. destruct Q as [-> ->]. exists [], []. repeat split; constructor.
    - destruct a as [|y a]; simpl in Q; [subst b; exists [], ((q, u) :: k); repeat split; [constructor|apply L_scalar; assumption]|].
      injection Q as <- ->. destruct (IHk a b eq_refl) as (la & lb & Fa & Fb & ->). exists ((q, u) :: la), lb.
      repeat split; [apply L_scalar; assumption|exact Fb].
    - destruct a as [|y a]; simpl in Q; [subst b; exists [], k; repeat split; [constructor|apply L_enter; assumption]|].
      injection Q as <- ->. destruct (IHk (under q (members N u) ++ a) b) as (la & lb & Fa & Fb & ->); [rewrite app_assoc; reflexivity|].
      exists la, lb. repeat split; [apply L_enter; assumption|exact Fb]. }
  destruct (P _ _ F [(p, t)] w eq_refl) as (la & lb & Fa & _ & Q). pose proof (D _ _ F' _ Fa) as R. subst la. discriminate Q.
Qed.

Lemma pending_tidy : forall N anon T s, good N anon T s -> forall p t, In (p, t) (pending N s) -> tidy anon t.
Proof.
  intros N anon T. induction s as [|l s IH]; intros G p t I; [destruct I|]. simpl in I. apply in_app_iff in I.
  destruct I as [I|I]; [|eapply IH; [eapply good_below; exact G|exact I]].
  pose proof (good_wf _ _ _ _ _ G) as W. unfold wf_layer in W. unfold remaining in I.
  assert (U : forall q ms, In (p, t) (under q ms) -> exists i, In (i, t) ms).
  { intros q ms J. apply in_map_iff in J. destruct J as ([i u] & E & J). injection E as _ <-. eauto. }
  assert (SK : forall k (fs : list field) f, In f (skipn k fs) -> In f fs).
  { intros k fs f J. rewrite <- (firstn_skipn k fs). apply in_app_iff. right. exact J. }
  destruct (lobj l) as [n|fs|fs|n e|u]; try contradiction.
  - destruct (U _ _ I) as [i J]. destruct (takes_part_in _ _ _ _ J) as (f & K & ->).
    destruct (tidy_struct_inv _ _ W) as (_ & _ & _ & _ & Tf). eapply tidy_in; [exact Tf|]. eapply SK. exact K.
  - destruct (linit l); [|destruct I]. destruct (U _ _ I) as [i J].
    assert (J' : In (i, t) (takes_part (lpos l) (skipn (lpos l) fs))).
    { destruct (takes_part (lpos l) (skipn (lpos l) fs)) as [|y q]; [destruct J|destruct J as [->|[]]; left; reflexivity]. }
    destruct (takes_part_in _ _ _ _ J') as (f & K & ->).
    destruct (tidy_union_inv _ _ (proj1 W)) as (_ & Tf & _). eapply tidy_in; [exact Tf|]. eapply SK. exact K.
  - destruct (U _ _ I) as [i J]. apply in_map_iff in J. destruct J as (j & E & _). injection E as _ <-. exact (proj1 W).
Qed.

Lemma start_ok : forall N anon T, tidy_object anon T -> aggregate T = true ->
  good N anon T (push_layer T []) /\ pending N (push_layer T []) = under [] (members N T).
Proof.
  intros N anon T HT A. inversion HT as [t Ti|e Ti]; subst.
  - assert (E : push_layer T [] = [fresh T]).
    { inversion Ti; subst; try reflexivity; destruct fs; try reflexivity; contradiction. }
    rewrite E. split.
    + apply G_base; [|reflexivity]. unfold wf_layer. simpl. inversion Ti; subst; simpl in A; try congruence; try discriminate.
      * split; [exact Ti|]. exists f. auto.
      * split; [assumption|discriminate].
    + simpl. rewrite app_nil_r. unfold remaining. simpl lobj. inversion Ti; subst; simpl in A; try congruence; try discriminate; try reflexivity.
  - split.
    + apply G_base; [|reflexivity]. unfold wf_layer. simpl. split; [assumption|discriminate].
    + simpl. rewrite app_nil_r. unfold remaining. simpl. rewrite Nat.sub_0_r. reflexivity.
Qed.

(** The scalar subobjects of every type exist and are a unique list. *)
Theorem c40_scalars_exist : forall N T, tidy_object true T -> exists! l, flat N (under [] (members N T)) l.
Proof.
  intros N T HT.
  assert (X : forall ms, (forall i u, In (i, u) ms -> tidy true u) -> exists l, flat N (under [] ms) l).
  { induction ms as [|[i u] ms IH]; intro H; [exists []; constructor|]. destruct IH as [l F]; [intros j v I; apply (H j); right; exact I|].
    destruct (flat_exists true N _ u [i] (Nat.lt_succ_diag_r _) (H i u (or_introl eq_refl))) as (x & l' & F').
    exists ((x :: l') ++ l). change (under [] ((i, u) :: ms)) with ([([i], u)] ++ under [] ms). apply flat_app; assumption. }
  destruct (X (members N T)) as [l F].
  { intros i u I. inversion HT as [t Ti|e Te]; subst; [exact (proj1 (members_smaller _ _ _ _ _ Ti I))|].
    simpl in I. apply in_map_iff in I. destruct I as (j & E & _). injection E as _ <-. exact Te. }
  exists l. split; [exact F|]. clear - F.
  induction F as [|q u v k A K IHk|q u v k A K IHk]; intros l2 F2; inversion F2; subst; try congruence; try reflexivity; auto.
  f_equal. apply IHk. assumption.
Qed.

(** Elements without braces and designators reach the scalar subobjects one after the other
    in the order of declaration; then, if the type is complete, the traversal is at its end.
    [N] is the number of elements that an array of unknown size is looked at with. *)
Theorem c40_order : forall N T l, tidy_object true T -> aggregate T = true -> flat N (under [] (members N T)) l ->
  exists f0, forall fuel, f0 <= fuel -> exists s', visit fuel (List.length l) (push_layer T []) = Done (l, s') /\
    (complete T = true -> next_recursive fuel (fun _ => false) s' = Done (None, []) /\ empty s' = true).
Proof.
  intros N T l HT A F. destruct (start_ok N true T HT A) as [G P].
  destruct (visit_flat N true T l _ _ G P F) as (f0 & H). exists (S f0). intros fuel Hf.
  destruct (H fuel ltac:(lia)) as (s' & V & G' & F'). exists s'. split; [exact V|]. intro C.
  assert (UB : unbounded T = false) by (destruct T as [| | |[|] |]; try reflexivity; discriminate).
  pose proof (flat_end true N _ (pending_tidy _ _ _ _ G') F') as E. destruct fuel; [lia|]. cbn [next_recursive].
  rewrite (next_end N true T s' G' UB E). split; [reflexivity|]. exact (empty_end N true T s' G' UB E).
Qed.

(** ** Initializer lists *)


Lemma found_ok : forall N T, tidy_object false T -> aggregate T = true -> forall w v x w', places N 1 w v x w' ->
  forall s, good N false T s -> pending N s = w -> exists f0 top below, (forall f, f0 <= f -> found f v s = Done (snd x, top :: below)) /\
    good N false T (top :: below) /\ settled N top /\ cur (top :: below) = Some (snd x) /\ spine (top :: below) = fst x /\ pending N (top :: below) = w'.
Proof.
  intros N T HT AT w v x w' H s G P. destruct H as [l [p t] w|k stop w x w' m F|k w x w' m F|k fits w x w' F].
  - destruct (next_ok N false T s p t w G P) as (top & below & E & B). exists 0, top, below. split; [|exact B].
    intros f _. cbn [found]. rewrite E. reflexivity.
  - destruct (next_recursive_ok N false T stop m w x w' F s G P) as (f0 & top & below & E & B). exists f0, top, below. split; [|exact B].
    intros f Hf. cbn [found]. rewrite E by exact Hf. reflexivity.
  - destruct (next_recursive_ok N false T (fun _ => false) m w x w' F s G P) as (f0 & top & below & E & B). exists f0, top, below. split; [|exact B].
    intros f Hf. cbn [found]. rewrite E by exact Hf. reflexivity.
  - remember 1 as n eqn:En. destruct F as [n p t w K|n p t w x w' K A F].
    + destruct (next_ok N false T s p t w G P) as (top & below & E & B). exists 0, top, below. split; [|exact B].
      intros f _. cbn [found]. rewrite E. cbn [bind]. rewrite K. reflexivity.
    + injection En as ->. destruct (next_ok N false T s p t w G P) as (l & b & E & G1 & S1 & C1 & Sp1 & P1).
      assert (Ti : tidy false t) by (eapply cur_tidy; eassumption).
      destruct (push_ok N false T t l b Ti A G1 S1 C1) as [G2 P2]. rewrite P1, Sp1 in P2.
      inversion F as [n' p' t' w'' K'|]; subst.
      destruct (next_ok N false T _ p' t' w' G2) as (top & below & E2 & B). { rewrite P2. symmetry. assumption. }
      exists 0, top, below. split; [|exact B]. intros f _. cbn [found]. rewrite E. cbn [bind]. rewrite K.
      assert (St : step (l :: b) = Done (push_layer t (l :: b))).
      { unfold step. cbn [cur] in C1. destruct S1 as [_ S1]. destruct (lobj l) as [k0|fs|fs|k0 e|u]; try discriminate.
        - destruct (nth_error fs (lpos l)); [|discriminate]. simpl in C1. congruence.
        - destruct (nth_error fs (lpos l)); [|discriminate]. simpl in C1. congruence.
        - congruence. }
      rewrite St. cbn [bind]. rewrite E2. cbn [bind snd]. rewrite K'. reflexivity.
Qed.

Lemma not_anonymous : forall N T v top below, good N false T (top :: below) -> settled N top -> anonymous_list v (top :: below) = None.
Proof.
  intros N T v top below G [_ S]. pose proof (good_wf _ _ _ _ _ G) as W. unfold wf_layer in W. unfold anonymous_list. destruct v; try reflexivity.
  destruct (lobj top) as [n|fs|fs|n e|u]; try reflexivity.
  - destruct S as (f & Nf & U). rewrite Nf. destruct (tidy_struct_inv _ _ W) as (_ & _ & _ & _ & Tf).
    destruct (tidy_named _ Tf f (nth_error_In _ _ Nf) U) as (nm & ->). destruct (unqualified (ftype f)); reflexivity.
  - destruct S as (f & Nf & U). rewrite Nf. destruct (tidy_union_inv _ _ (proj1 W)) as (_ & Tf & _).
    destruct (tidy_named _ Tf f (nth_error_In _ _ Nf) U) as (nm & ->). destruct (unqualified (ftype f)); reflexivity.
Qed.

Lemma traverse_ok : forall N T, tidy_object false T -> aggregate T = true -> forall w l o, initializes N 1 T w l o ->
  direct N 1 T l -> forall s, good N false T s -> pending N s = w -> exists f0 s', forall f, f0 <= f -> traverse f T s l = Done (s', o).
Proof.
  intros N T HT AT. induction 1 as [w|v l o C _ IH|v w p d t w' l o Pl A _ IH|d v p u w q e t w' l o Nd A R Pl Ae _ IH w0]; intros Di s G P;
    try specialize (IH (fun d0 v0 p0 u0 w0 x0 w0' I => Di d0 v0 p0 u0 w0 x0 w0' (or_intror I))).
  - exists 1, s. intros f Hf. destruct f; [lia|]. reflexivity.
  - destruct (IH s G P) as (f0 & s' & H). exists (S f0), s'. intros f Hf. destruct f; [lia|]. cbn [traverse].
    rewrite (empty_end N false T s G) by (try exact P; destruct T as [| | |[|] |]; try reflexivity; discriminate). apply H. lia.
  - destruct (found_ok N T HT AT _ _ _ _ Pl s G P) as (f1 & top & below & E & G1 & S1 & C1 & Sp1 & P1).
    destruct (IH _ G1 P1) as (f2 & s' & H). exists (S (max f1 f2)), s'. intros f Hf. destruct f; [lia|]. cbn [traverse].
    assert (NE : pending N s <> []).
    { rewrite P. intro Q. rewrite Q in Pl. inversion Pl; subst; match goal with F : finds _ _ _ [] _ _ |- _ => inversion F end. }
    rewrite (empty_ok N false T s G NE), E by lia. cbn [bind snd]. rewrite (not_anonymous N T) by assumption.
    pose proof (designator_ok N T HT below top t G1 S1 C1) as D. simpl fst in Sp1. rewrite Sp1 in D.
    destruct (at_path_fun N T _ _ _ A _ _ D) as [-> _]. cbn [entry_designator].
    destruct (layer_designator (top :: below)) as [|y d']; [inversion D; subst; discriminate|]. cbn [bind].
    rewrite H by lia. reflexivity.
  - pose proof (Di d v p u w (q, t) w' (or_introl eq_refl) A Pl) as Q. simpl in Q. subst q.
    destruct (at_path_fun N T _ _ _ A _ _ Ae) as [<- _].
    destruct (navigate_ok N T HT p d u A Nd AT w R) as (s1 & E0 & G0 & P0).
    destruct (found_ok N T HT AT _ _ _ _ Pl s1 G0 P0) as (f1 & top & below & E & G1 & S1 & C1 & Sp1 & P1).
    destruct (IH _ G1 P1) as (f2 & s' & H). exists (S (S (max f1 f2))), s'. intros f Hf. destruct f as [|f]; try lia.
    assert (E0' : navigate f T d = Done s1) by (destruct f; [lia|apply E0]). cbn [traverse]. rewrite E0'. cbn [bind]. rewrite E by lia. cbn [bind]. rewrite (not_anonymous N T) by assumption. cbn [entry_designator bind].
    rewrite H by lia. reflexivity.
Qed.

(** Lists with designators, nested lists, string literals and expressions of structure type:
    every element is given to the subobject that the standard names. *)
Theorem c40_lists_partial : forall N T l o, tidy_object false T -> aggregate T = true -> direct N 1 T l ->
  initializes N 1 T (under [] (members N T)) l o -> exists f0, forall fuel, f0 <= fuel -> traverse_list fuel T l = Done o.
Proof.
  intros N T l o HT A Di I. destruct (start_ok N false T HT A) as [G P].
  destruct (traverse_ok N T HT A _ _ _ I Di _ G P) as (f0 & s' & H). exists f0. intros fuel Hf. unfold traverse_list. rewrite H by exact Hf. reflexivity.
Qed.

(** ** Where it differs from the standard *)

Definition int := Scalar 0.
Definition named (s : string) (t : ty) : field := Field (Some s) false t.
Definition scalar (n : nat) : entry := Entry None (VScalar n).

(** [struct { struct { int a; int : 3; } x; int b; } = { 1, 2 }]: the NULL iterator is
    dereferenced. *)
Definition trailing := Struct [named "x" (Struct [named "a" int; Field None true int]); named "b" int].
Theorem c40_trailing_bitfield_refuted : forall fuel, 4 <= fuel -> traverse_list fuel trailing [scalar 1; scalar 2] = Crash.
Proof. intros fuel H. do 4 (destruct fuel as [|fuel]; [lia|]). reflexivity. Qed.

(** [struct { const struct { int a, b; } x; int c; } = { 1, 2, 3 }]: [x] is taken for a
    scalar, 2 goes to [c] and 3 is dropped. *)
Definition qualified := Struct [named "x" (Qualified (Struct [named "a" int; named "b" int])); named "c" int].
Theorem c40_qualified_refuted : forall fuel, 5 <= fuel -> traverse_list fuel qualified [scalar 1; scalar 2; scalar 3] =
  Done [([DMember "x"], Qualified (Struct [named "a" int; named "b" int]), VScalar 1); ([DMember "c"], int, VScalar 2)].
Proof. intros fuel H. do 5 (destruct fuel as [|fuel]; [lia|]). reflexivity. Qed.
(** ... and designators that go on into it are rejected. *)
Theorem c40_qualified_designator_refuted : forall fuel, 5 <= fuel ->
  traverse_list fuel qualified [Entry (Some [DMember "a"; DMember "x"]) (VScalar 1)] = Fail.
Proof. intros fuel H. do 5 (destruct fuel as [|fuel]; [lia|]). reflexivity. Qed.

(** [struct { int x; struct { int a, b; }; int c; } = { .b = 1, 2 }]: 2 goes to [x], not [c]. *)
Definition unnamed_member := Struct [named "x" int; Field None false (Struct [named "a" int; named "b" int]); named "c" int].
Theorem c40_unnamed_designator_refuted : forall fuel, 6 <= fuel ->
  traverse_list fuel unnamed_member [Entry (Some [DMember "b"]) (VScalar 1); scalar 2] =
  Done [([DMember "b"], int, VScalar 1); ([DMember "x"], int, VScalar 2)].
Proof. intros fuel H. do 6 (destruct fuel as [|fuel]; [lia|]). reflexivity. Qed.
(** The same type, [{ 1, { 2 }, 3 }]: 3 goes to [b], not [c]. *)
Theorem c40_unnamed_braces_refuted : forall fuel, 7 <= fuel ->
  traverse_list fuel unnamed_member [scalar 1; Entry None (VList [scalar 2]); scalar 3] =
  Done [([DMember "x"], int, VScalar 1); ([DMember "a"], int, VScalar 2); ([DMember "b"], int, VScalar 3)].
Proof. intros fuel H. do 7 (destruct fuel as [|fuel]; [lia|]). reflexivity. Qed.

(** [struct { struct { struct { int a; }; } x; int a; } = { 1 }]: the designator for [x.a] is
    [.a], which is another member. *)
Definition unnamed_inside := Struct [named "x" (Struct [Field None false (Struct [named "a" int])]); named "a" int].
Theorem c40_unnamed_inside_refuted : forall fuel, 6 <= fuel ->
  traverse_list fuel unnamed_inside [scalar 1] = Done [([DMember "a"], int, VScalar 1)].
Proof. intros fuel H. do 6 (destruct fuel as [|fuel]; [lia|]). reflexivity. Qed.

(** [union { int : 3; int a; } = { .a = 1 }] is rejected. *)
Theorem c40_union_bitfield_refuted : forall fuel, 4 <= fuel ->
  traverse_list fuel (Union [Field None true int; named "a" int]) [Entry (Some [DMember "a"]) (VScalar 1)] = Fail.
Proof. intros fuel H. do 4 (destruct fuel as [|fuel]; [lia|]). reflexivity. Qed.

(** An expression of type [struct s] for [struct { struct { struct { struct s v; } y; } x; }]
    is rejected, though [finds] leads to [x.y.v]. *)
Definition pair_ := Struct [named "l" int; named "r" int].
Definition is_pair (t : ty) : bool := match t with Struct [Field (Some "l") _ _; Field (Some "r") _ _] => true | _ => false end.
Definition deep := Struct [named "x" (Struct [named "y" (Struct [named "v" pair_])])].
Theorem c40_deep_expression_refuted : forall N,
  (forall fuel, 4 <= fuel -> traverse_list fuel deep [Entry None (VAggregate 1 is_pair)] = Fail) /\
  initializes N 2 deep (under [] (members N deep)) [Entry None (VAggregate 1 is_pair)]
    [([DMember "v"; DMember "y"; DMember "x"], pair_, VAggregate 1 is_pair)].
Proof.
  intro N. split.
  - intros fuel H. do 4 (destruct fuel as [|fuel]; [lia|]). reflexivity.
  - eapply I_entry; [|eapply At_struct with (i := 0); [eapply At_struct with (i := 0); [eapply At_struct with (i := 0); [apply At_root|]|]|]|constructor];
      try reflexivity.
    apply P_aggregate. apply F_enter; [reflexivity|reflexivity|]. apply F_enter; [reflexivity|reflexivity|]. apply F_here. reflexivity.
Qed.

(** [struct { struct { int a, b; } x; } = { .x = 1 }]: the value is reported for [x], not for
    [x.a]. *)
Definition outer := Struct [named "x" (Struct [named "a" int; named "b" int])].
Theorem c40_inside_designated_refuted : forall N,
  (forall fuel, 5 <= fuel -> traverse_list fuel outer [Entry (Some [DMember "x"]) (VScalar 1)] = Done [([DMember "x"], int, VScalar 1)]) /\
  initializes N 1 outer (under [] (members N outer)) [Entry (Some [DMember "x"]) (VScalar 1)] [([DMember "a"; DMember "x"], int, VScalar 1)].
Proof.
  intro N. split.
  - intros fuel H. do 5 (destruct fuel as [|fuel]; [lia|]). reflexivity.
  - eapply I_designated with (p := [0]) (q := [0; 0]).
    + discriminate.
    + eapply At_struct; [apply At_root|reflexivity].
    + eapply Ra_member; [apply At_root|apply Ra_root].
    + apply P_scalar with (m := 1). apply F_enter; [reflexivity|reflexivity|]. apply F_here. reflexivity.
    + eapply At_struct; [eapply At_struct; [apply At_root|reflexivity]|reflexivity].
    + constructor.
Qed.

(** ** A case that meets the hypotheses *)

(** [struct { int a; int : 3; union { int u; float v; } w; struct { int l, r; } p[2]; } [] =
    { 1, 2, 3, 4, { 5 }, 6, [3].p[1].r = 7, 8 }]. *)
Definition elem := Struct [named "a" int; Field None true int; named "w" (Union [named "u" int; named "v" (Scalar 1)]); named "p" (Array (Some 2) pair_)].
Definition sample := Array None elem.
Definition sample_list : list entry :=
  [scalar 1; scalar 2; scalar 3; scalar 4; Entry None (VList [scalar 5]); scalar 6;
   Entry (Some [DMember "r"; DIndex 1; DMember "p"; DIndex 3]) (VScalar 7); scalar 8].
Definition sample_result : list (list designator * ty * value) :=
  [([DMember "a"; DIndex 0], int, VScalar 1); ([DMember "u"; DMember "w"; DIndex 0], int, VScalar 2);
   ([DMember "l"; DIndex 0; DMember "p"; DIndex 0], int, VScalar 3); ([DMember "r"; DIndex 0; DMember "p"; DIndex 0], int, VScalar 4);
   ([DIndex 1; DMember "p"; DIndex 0], pair_, VList [scalar 5]); ([DMember "a"; DIndex 1], int, VScalar 6);
   ([DMember "r"; DIndex 1; DMember "p"; DIndex 3], int, VScalar 7); ([DMember "a"; DIndex 4], int, VScalar 8)].
Ltac other := intros; simpl in *; intuition (subst; discriminate).
Ltac one_field := apply T_cons; [|try reflexivity; discriminate|first [intros _ U; discriminate U|intros _ _; eexists; split; [reflexivity|other]]|].
Lemma pair_tidy : tidy false pair_.
Proof.
  apply (T_struct false [named "l" int] (named "r" int)); [reflexivity|].
  one_field; [constructor|]. one_field; [constructor|]. constructor.
Qed.
Lemma elem_tidy : tidy false elem.
Proof.
  apply (T_struct false [named "a" int; Field None true int; named "w" (Union [named "u" int; named "v" (Scalar 1)])] (named "p" (Array (Some 2) pair_)));
    [reflexivity|].
  one_field; [constructor|]. one_field; [constructor|]. one_field.
  - apply (T_union false _ (named "u" int)); [left; reflexivity|reflexivity| |].
    + intros _ g [<-|[<-|[]]]; reflexivity.
    + one_field; [constructor|]. one_field; [constructor|]. constructor.
  - one_field; [apply T_array; apply pair_tidy|constructor].
Qed.
Ltac path := first [apply At_root | eapply At_struct; [path|reflexivity] | eapply At_union; [path|reflexivity] | eapply At_index; [path|simpl; lia]].
Ltac find := first [apply F_here; reflexivity | apply F_enter; [reflexivity|reflexivity|]; simpl; find].
Example c40_example : tidy_object false sample /\ aggregate sample = true /\ direct 5 1 sample sample_list /\
  initializes 5 1 sample (under [] (members 5 sample)) sample_list sample_result.
Proof.
  split; [apply T_unknown; apply elem_tidy|]. split; [reflexivity|]. split.
  { intros d v p u w x w' I A Pl. simpl in I. repeat (destruct I as [I|I]; [try discriminate I|]); [injection I as <- <-|destruct I].
    assert (U : u = int).
    { repeat match goal with H : at_path _ _ _ (_ :: _) _ |- _ => inversion H; subst; clear H | H : at_path _ _ _ [] _ |- _ => inversion H; subst; clear H end;
      repeat match goal with
        | H : nth_error (_ :: _) ?i = Some _ |- _ => destruct i; simpl in H; try discriminate H; try (injection H; intros; subst; clear H)
        | H : nth_error [] ?i = Some _ |- _ => destruct i; discriminate H
        end; reflexivity. }
    subst u. inversion Pl; subst. match goal with F : finds _ _ _ _ _ _ |- _ => inversion F; subst; [reflexivity|discriminate] end. }
  cbn [under members sample map bound seq fst snd].
  eapply I_entry; [eapply P_scalar with (m := 1); find|path|].
  eapply I_entry; [eapply P_scalar with (m := 1); find|path|].
  eapply I_entry; [eapply P_scalar with (m := 2); find|path|].
  eapply I_entry; [eapply P_scalar with (m := 2); find|path|].
  eapply I_entry; [eapply P_list|path|].
  eapply I_entry; [eapply P_scalar with (m := 1); find|path|].
  eapply I_designated with (p := [1; 1; 3; 3]) (q := [1; 1; 3; 3]).
  - discriminate.
  - path.
  - do 4 (eapply Ra_member; [path|]). apply Ra_root.
  - simpl. eapply P_scalar with (m := 0); find.
  - path.
  - eapply I_entry; [eapply P_scalar with (m := 1); find|path|]. constructor.
Qed.

Print Assumptions c40_scalars_exist.
Print Assumptions c40_order.
Print Assumptions c40_lists_partial.
Print Assumptions c40_deep_expression_refuted.
