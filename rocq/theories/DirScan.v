(** Proofs about the directive scanner: operands of directives. *)

From Coq Require Import ZArith Bool List String Lia.
From Verif Require Import LexModel StrModel PropPunct TokModel TokSpec TokProofs TokDivide TokComplete DirModel DirSpec DirProofs.
From Verif Require CondModel.
Import ListNotations.
Open Scope Z_scope.
Local Notation length := List.length.

Lemma reads_punct : forall t w, reads t KPunct w -> exists p, t = TkPunct p /\ spelling p = w.
Proof. intros t w R. inversion R; subst. eauto. Qed.
Ltac which_punct R := let p := fresh in let E := fresh in
  apply reads_punct in R as (p & -> & E); destruct p; try discriminate E; clear E.
Lemma reads_name : forall t w, reads t KName w -> fine KName w -> t = TkName w.
Proof. intros t w R F. inversion R; subst. inversion F; subst. f_equal. auto. Qed.

(** ** Replacement lists *)

Definition trimmed (ts : list ptok) : Prop := (forall b l, ts <> TkSpace b :: l) /\ (forall b l, ts <> l ++ [TkSpace b]).

Lemma replacement_loop_line : forall fuel t s l r, line s l r -> good s -> (S (length s) < fuel)%nat -> t <> TkEnd -> t <> TkSpace true ->
  exists ts s', replacement_loop fuel t s = Ok (t :: ts, s') /\ same_from (is_space_token t) ts l /\ ahead r s' /\ good s' /\ (length s' < length s)%nat.
Proof.
  induction fuel as [|fuel IH]; intros t s l r L G Lt T1 T2; [lia|].
  assert (Q : replacement_loop (S fuel) t s = bind (next_token s) (fun p =>
           bind (replacement_loop fuel (fst p) (snd p)) (fun q => Ok (t :: fst q, snd q)))).
  { cbn [replacement_loop]. destruct t as [[]| | | | | |]; try reflexivity; contradiction. }
  rewrite Q. clear Q.
  destruct (next_in_line _ _ _ L G) as [(k & w & u & l' & s' & -> & -> & N & R & L' & G' & Ls & _)|[(bs & l' & s' & B & B' & -> & N & L' & G' & Ls)|(s' & W & N & A & G' & Ls)]];
    rewrite N; cbn [bind fst snd].
  - pose proof (reads_not_end _ _ _ R) as K.
    destruct (IH u s' l' r L' G' ltac:(lia)) as (ts & s'' & E & S & A & G'' & Ls'); [destruct u; try contradiction; discriminate..|].
    rewrite E. cbn [bind fst snd]. exists (u :: ts), s''. split; [reflexivity|]. split; [|repeat split; auto; lia].
    apply same_token; [exact R|]. destruct u; try contradiction; exact S.
  - destruct (IH (TkSpace false) s' l' r L' G' ltac:(lia)) as (ts & s'' & E & S & A & G'' & Ls'); [discriminate..|].
    rewrite E. cbn [bind fst snd]. exists (TkSpace false :: ts), s''. split; [reflexivity|]. split; [|repeat split; auto; lia].
    unfold same_from. rewrite spaced_whites by exact B. exact S.
  - destruct fuel as [|fuel]; [lia|]. cbn [replacement_loop bind fst snd]. exists [], s'. split; [reflexivity|]. split; [|auto].
    unfold same_from. rewrite spaced_white_end by exact W. constructor.
Qed.

Lemma drop_split : forall l, exists sp, l = sp ++ drop_spaces l /\ Forall (fun t => is_space_token t = true) sp.
Proof.
  induction l as [|t l (sp & E & F)]; [exists []; split; [reflexivity|constructor]|]. cbn. destruct (is_space_token t) eqn:K.
  - exists (t :: sp). split; [cbn; congruence|now constructor].
  - exists []. split; [reflexivity|constructor].
Qed.
Lemma drop_head : forall l b r, drop_spaces l <> TkSpace b :: r.
Proof. induction l as [|t l IH]; intros b r; cbn; [discriminate|]. destruct (is_space_token t) eqn:K; [apply IH|]. intro E. injection E as -> _. discriminate K. Qed.
Lemma spaced_app_spaces : forall sp, Forall (fun t => is_space_token t = true) sp -> forall x b,
  spaced b (map otok (x ++ sp)) = spaced b (map otok x).
Proof.
  intros sp F. assert (K : forall b, spaced b (map otok sp) = []).
  { induction F as [|t sp H F IH]; intro b; [reflexivity|]. destruct t; try discriminate H. cbn. apply IH. }
  induction x as [|t x IH]; intro b; [apply K|]. cbn [app map]. destruct (otok t) as [[d u]|]; cbn [spaced]; rewrite IH; reflexivity.
Qed.
Lemma trim_spec : forall b ts, spaced b (map otok (rev (drop_spaces (rev ts)))) = spaced b (map otok ts) /\
  (forall b' l, rev (drop_spaces (rev ts)) <> l ++ [TkSpace b']) /\ exists sp, ts = rev (drop_spaces (rev ts)) ++ sp /\ Forall (fun t => is_space_token t = true) sp.
Proof.
  intros b ts. destruct (drop_split (rev ts)) as (sp & E & F).
  assert (Q : ts = rev (drop_spaces (rev ts)) ++ rev sp). { rewrite <- rev_app_distr, <- E, rev_involutive. reflexivity. }
  assert (F' : Forall (fun t => is_space_token t = true) (rev sp)) by (apply Forall_rev; exact F).
  split; [|split].
  - rewrite Q at 2. now rewrite spaced_app_spaces.
  - intros b' l K. apply (f_equal (@rev _)) in K. rewrite rev_involutive, rev_app_distr in K. cbn in K. exact (drop_head _ _ _ K).
  - eauto.
Qed.
Lemma trim_first : forall t ts, is_space_token t = false -> forall b l, rev (drop_spaces (rev (t :: ts))) <> TkSpace b :: l.
Proof.
  intros t ts T b l K. destruct (trim_spec true (t :: ts)) as (_ & _ & sp & E & _). rewrite K in E. injection E as -> _. discriminate T.
Qed.

Lemma replacement_hand : forall t s k w l r fuel, reads t k w -> line s l r -> good s -> (S (length s) < fuel)%nat ->
  exists ts s', bind (replacement_loop fuel t s) (fun q => Ok (rev (drop_spaces (rev (fst q))), snd q)) = Ok (ts, s') /\
  same_from true ts (IToken k w :: l) /\ trimmed ts /\ ahead r s' /\ good s' /\ (length s' < length s)%nat.
Proof.
  intros t s k w l r fuel R L G Lt. pose proof (reads_not_end _ _ _ R) as K.
  destruct (replacement_loop_line fuel t s l r L G Lt) as (ts & s' & E & S & A & G' & Ls); [destruct t; try contradiction; discriminate..|].
  rewrite E. cbn [bind fst snd]. eexists _, s'. split; [reflexivity|]. destruct (trim_spec true (t :: ts)) as (Q & T & _).
  split; [|split; [split; [|exact T]|auto]].
  - unfold same_from. rewrite Q. change (same_from true (t :: ts) (IToken k w :: l)). apply same_token; [exact R|].
    destruct t; try contradiction; exact S.
  - intros b l' H. apply trim_first in H; [exact H|]. now destruct t.
Qed.

Lemma line_first : forall s l r, line s l r -> whites l \/ exists a k w l', l = a ++ IToken k w :: l' /\ whites a.
Proof.
  intros s l r H. induction H as [s r W|s t l r W H IH|k w t l r O L H IH].
  - left. constructor.
  - destruct IH as [IH|(a & k & w & l' & -> & A)]; [left; now constructor|]. right. exists (IWhite false :: a), k, w, l'. split; [reflexivity|now constructor].
  - right. exists [], k, w, l. split; [reflexivity|constructor].
Qed.
Lemma same_skip : forall ts a l, whites a -> same_from true ts l -> same_from true ts (a ++ l).
Proof. intros ts a l W S. induction W as [|i a -> W IH]; [exact S|]. unfold same_from in *. cbn. exact IH. Qed.
Lemma same_white : forall b l, whites l -> same_from b [] l.
Proof. intros b l W. unfold same_from. rewrite spaced_white_end by exact W. constructor. Qed.
Lemma trimmed_nil : trimmed [].
Proof. split; [discriminate|]. intros b l E. destruct l; discriminate. Qed.

(** The token in hand is the first after the white space of the rest [l] of a line. *)
Definition in_hand (t : ptok) (s : list Z) (l : list item) (r : list Z) : Prop :=
  (whites l /\ t = TkSpace true /\ ahead r s) \/ exists a k w l', l = a ++ IToken k w :: l' /\ whites a /\ reads t k w /\ line s l' r.
Lemma skip_in_hand : forall s l r, line s l r -> good s ->
  exists t s', skip_whitespaces s = Ok (t, s') /\ in_hand t s' l r /\ good s' /\ (length s' < length s)%nat.
Proof.
  intros s l r L G. destruct (line_first _ _ _ L) as [W|(a & k & w & l' & -> & W)].
  - destruct (skip_white_end (S (length s)) s l r L W G ltac:(lia)) as (s' & E & A & G' & Ls). exists (TkSpace true), s'.
    split; [exact E|]. split; [left; auto|auto].
  - destruct (skip_token _ _ _ _ _ _ L W G) as (t & s' & E & R & L' & G' & Ls & _). exists t, s'. split; [exact E|].
    split; [right; exists a, k, w, l'; auto|auto].
Qed.
Lemma replacement_in_hand : forall t s l r, in_hand t s l r -> good s ->
  exists ts s', next_replacement t s = Ok (ts, s') /\ same_from true ts l /\ trimmed ts /\ ahead r s' /\ good s' /\ (length s' <= length s)%nat.
Proof.
  intros t s l r [(W & -> & A)|(a & k & w & l' & -> & W & R & L)] G.
  - exists [], s. split; [reflexivity|]. split; [now apply same_white|]. split; [apply trimmed_nil|auto].
  - destruct (replacement_hand t s k w l' r (S (S (length s))) R L G ltac:(lia)) as (ts & s' & E & S & T & A & G' & Ls).
    exists ts, s'. split.
    + unfold next_replacement. pose proof (reads_not_end _ _ _ R) as K. destruct t; try contradiction; exact E.
    + split; [now apply same_skip|]. repeat split; try apply T; auto. lia.
Qed.
Lemma replacement_white : forall s l r, line s l r -> good s ->
  exists ts s', next_replacement (TkSpace false) s = Ok (ts, s') /\ same_from true ts l /\ trimmed ts /\ ahead r s' /\ good s' /\ (length s' <= length s)%nat.
Proof.
  intros s l r L G. unfold next_replacement. destruct (skip_in_hand _ _ _ L G) as (t & s' & E & H & G' & Ls). rewrite E. cbn [bind fst snd].
  destruct H as [(W & -> & A)|(a & k & w & l' & -> & W & R & L')].
  - exists [], s'. split; [reflexivity|]. split; [now apply same_white|]. split; [apply trimmed_nil|auto]. repeat split; auto. lia.
  - destruct (replacement_hand t s' k w l' r (S (S (length s))) R L' G' ltac:(lia)) as (ts & s'' & E' & S & T & A & G'' & Ls'').
    exists ts, s''. split; [exact E'|]. split; [now apply same_skip|]. repeat split; try apply T; auto. lia.
Qed.

(** ** Parameters *)

Lemma loop_one : forall fuel acc s a n b q r, line s (a ++ IToken KName n :: b ++ q) r -> whites a -> whites b -> good s ->
  (forall l, q = sign ")" :: l -> exists s', parameter_loop (S fuel) acc s = Ok (acc ++ [n], false, TkPunct P_RIGHT_PARENTHESE, s') /\ line s' l r /\ good s' /\ (length s' < length s)%nat) /\
  (forall l, q = sign "," :: l -> exists s', parameter_loop (S fuel) acc s = parameter_loop fuel (acc ++ [n]) s' /\ line s' l r /\ good s' /\ (length s' < length s)%nat).
Proof.
  intros fuel acc s a n b q r L Wa Wb G. destruct (skip_token _ _ _ _ _ _ L Wa G) as (t & s1 & E1 & R1 & L1 & G1 & Ls1 & F1).
  rewrite (reads_name _ _ R1 F1) in E1. split; intros l ->; unfold sign in L1;
    destruct (skip_token _ _ _ _ _ _ L1 Wb G1) as (u & s2 & E2 & R2 & L2 & G2 & Ls2 & _); which_punct R2;
    cbn [parameter_loop]; rewrite E1; cbn [bind fst snd]; rewrite E2; cbn [bind fst snd]; exists s2; repeat split; auto; lia.
Qed.
Lemma loop_list : forall p ns, identifier_list p ns -> forall fuel acc s q r, line s (p ++ q) r -> good s -> (length s < fuel)%nat ->
  (forall l, q = sign ")" :: l -> exists s', parameter_loop fuel acc s = Ok (acc ++ ns, false, TkPunct P_RIGHT_PARENTHESE, s') /\ line s' l r /\ good s' /\ (length s' < length s)%nat) /\
  (forall l, q = sign "," :: l -> exists s' fuel', parameter_loop fuel acc s = parameter_loop fuel' (acc ++ ns) s' /\ line s' l r /\ good s' /\ (length s' < length s)%nat /\ (length s' < fuel')%nat).
Proof.
  intros p ns H. induction H as [a n b Wa Wb|p ns a n b H IH Wa Wb]; intros fuel acc s q r L G Lt.
  - destruct fuel as [|fuel]; [lia|]. rewrite <- app_assoc in L. destruct (loop_one fuel acc s a n b q r L Wa Wb G) as [A B]. split; [exact A|].
    intros l E. destruct (B l E) as (s' & E' & L' & G' & Ls). exists s', fuel. repeat split; auto. lia.
  - rewrite <- app_assoc in L. cbn [app] in L. rewrite <- app_assoc in L.
    destruct (IH fuel acc s _ r L G Lt) as [_ B]. destruct (B _ eq_refl) as (s1 & f1 & E1 & L1 & G1 & Ls1 & Lf1).
    destruct f1 as [|f1]; [lia|]. rewrite E1. destruct (loop_one f1 (acc ++ ns) s1 a n b q r L1 Wa Wb G1) as [A B']. split.
    + intros l E. destruct (A l E) as (s' & E' & L' & G' & Ls). exists s'. rewrite E', <- app_assoc. repeat split; auto. lia.
    + intros l E. destruct (B' l E) as (s' & E' & L' & G' & Ls). exists s', f1. rewrite E', <- app_assoc. repeat split; auto; lia.
Qed.

Lemma scan_parameters_line : forall p ns v s l r, parameters p ns v -> line s (p ++ sign ")" :: l) r -> good s ->
  exists t s', scan_parameters s = Ok (ns, v, t, s') /\ in_hand t s' l r /\ good s' /\ (length s' < length s)%nat.
Proof.
  intros p ns v s l r P L G.
  assert (C : (v = false /\ exists s1, parameter_loop (S (length s)) [] s = Ok (ns, false, TkPunct P_RIGHT_PARENTHESE, s1) /\ line s1 l r /\ good s1 /\ (length s1 < length s)%nat) \/
              (v = true /\ exists s1 b, parameter_loop (S (length s)) [] s = Ok (ns, true, TkPunct P_ELLIPSIS, s1) /\ whites b /\ line s1 (b ++ sign ")" :: l) r /\ good s1 /\ (length s1 < length s)%nat)).
  { assert (EL : forall fuel acc a b s, line s (a ++ sign "..." :: b ++ sign ")" :: l) r -> whites a -> whites b -> good s ->
      exists s1, parameter_loop (S fuel) acc s = Ok (acc, true, TkPunct P_ELLIPSIS, s1) /\ line s1 (b ++ sign ")" :: l) r /\ good s1 /\ (length s1 < length s)%nat).
    { clear. intros fuel acc a b s L Wa Wb G. destruct (skip_token _ _ _ _ _ _ L Wa G) as (t & s1 & E & R & L' & G' & Ls & _). which_punct R.
      exists s1. split; [cbn [parameter_loop]; rewrite E; reflexivity|auto]. }
    destruct P as [a W|p ns I|a b Wa Wb|p ns a b I Wa Wb].
    - left. split; [reflexivity|]. destruct (skip_token _ _ _ _ _ _ L W G) as (t & s1 & E & R & L' & G' & Ls & _). which_punct R.
      exists s1. split; [cbn [parameter_loop]; rewrite E; reflexivity|auto].
    - left. split; [reflexivity|]. destruct (loop_list _ _ I (S (length s)) [] s _ r L G ltac:(lia)) as [A _]. exact (A l eq_refl).
    - right. split; [reflexivity|]. rewrite <- app_assoc in L. cbn [app] in L. destruct (EL (length s) [] a b s L Wa Wb G) as (s1 & E & L' & G' & Ls).
      exists s1, b. auto.
    - right. split; [reflexivity|]. rewrite <- app_assoc in L. cbn [app] in L. rewrite <- app_assoc in L. cbn [app] in L.
      destruct (loop_list _ _ I (S (length s)) [] s _ r L G ltac:(lia)) as [_ A]. destruct (A _ eq_refl) as (s1 & f1 & E1 & L1 & G1 & Ls1 & Lf1).
      destruct f1 as [|f1]; [lia|]. destruct (EL f1 ([] ++ ns) a b s1 L1 Wa Wb G1) as (s2 & E2 & L2 & G2 & Ls2). exists s2, b. rewrite E1, E2.
      repeat split; auto. lia. }
  unfold scan_parameters. destruct C as [(-> & s1 & E & L1 & G1 & Ls1)|(-> & s1 & b & E & Wb & L1 & G1 & Ls1)]; rewrite E; cbn [bind fst snd].
  - destruct (skip_in_hand _ _ _ L1 G1) as (t & s' & E' & H & G' & Ls'). rewrite E'. cbn [bind fst snd]. exists t, s'. repeat split; auto. lia.
  - destruct (skip_token _ _ _ _ _ _ L1 Wb G1) as (u & s2 & E2 & R2 & L2 & G2 & Ls2 & _). which_punct R2. rewrite E2. cbn [bind fst snd].
    destruct (skip_in_hand _ _ _ L2 G2) as (t & s' & E' & H & G' & Ls'). rewrite E'. cbn [bind fst snd]. exists t, s'. repeat split; auto. lia.
Qed.

(** ** Definitions *)

Lemma define_object : forall s b n l r, line s (b ++ IToken KName n :: l) r -> whites b -> (l = [] \/ exists l', l = IWhite false :: l') -> good s ->
  exists ts s', next_define s = Ok (DvDefine n None ts, s') /\ same_from true ts l /\ trimmed ts /\ ahead r s' /\ good s' /\ (length s' < length s)%nat.
Proof.
  intros s b n l r L W H G. destruct (skip_token _ _ _ _ _ _ L W G) as (t & s1 & E1 & R1 & L1 & G1 & Ls1 & F1).
  rewrite (reads_name _ _ R1 F1) in E1. unfold next_define. rewrite E1. cbn [bind fst snd].
  destruct (next_in_line _ _ _ L1 G1) as [(k & w & u & l' & s2 & -> & _)|[(bs & l' & s2 & B & B' & -> & N & L' & G' & Ls)|(s2 & W2 & N & A & G' & Ls)]].
  - exfalso. destruct H as [H|(l2 & H)]; discriminate.
  - rewrite N. cbn [bind fst snd]. destruct (replacement_white _ _ _ L' G') as (ts & s3 & E & S & T & A & G3 & L3). rewrite E. cbn [bind fst snd].
    exists ts, s3. split; [reflexivity|]. split; [apply same_skip; [now apply map_whites|exact S]|]. repeat split; try apply T; auto. lia.
  - rewrite N. cbn [bind fst snd]. exists [], s2. split; [reflexivity|]. split; [now apply same_white|]. split; [apply trimmed_nil|]. repeat split; auto. lia.
Qed.
Lemma define_function : forall s b n p ns v l r, line s (b ++ IToken KName n :: sign "(" :: p ++ sign ")" :: l) r -> whites b -> parameters p ns v -> good s ->
  exists ts s', next_define s = Ok (DvDefine n (Some (ns, v)) ts, s') /\ same_from true ts l /\ trimmed ts /\ ahead r s' /\ good s' /\ (length s' < length s)%nat.
Proof.
  intros s b n p ns v l r L W P G. destruct (skip_token _ _ _ _ _ _ L W G) as (t & s1 & E1 & R1 & L1 & G1 & Ls1 & F1).
  rewrite (reads_name _ _ R1 F1) in E1. unfold next_define. rewrite E1. cbn [bind fst snd].
  destruct (next_in_line _ _ _ L1 G1) as [(k & w & u & l' & s2 & E & -> & N & R & L' & G' & Ls & _)|[(bs & l' & s2 & B & B' & E & _)|(s2 & W2 & _)]].
  - injection E as <- <- <-. which_punct R. rewrite N. cbn [bind fst snd].
    destruct (scan_parameters_line _ _ _ _ _ _ P L' G') as (u & s3 & E3 & H3 & G3 & L3). rewrite E3. cbn [bind fst snd].
    destruct (replacement_in_hand _ _ _ _ H3 G3) as (ts & s4 & E4 & S4 & T4 & A4 & G4 & L4). rewrite E4. cbn [bind fst snd].
    exists ts, s4. repeat split; try apply T4; auto. lia.
  - exfalso. destruct bs; [contradiction|discriminate].
  - exfalso. inversion W2; discriminate.
Qed.
