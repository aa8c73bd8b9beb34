(** Proofs about the directive scanner: lines. *)

From Coq Require Import ZArith Bool List String Lia.
From Verif Require Import LexModel StrModel PropPunct TokModel TokSpec TokProofs TokDivide TokComplete DirModel DirSpec.
From Verif Require CondModel.
Import ListNotations.
Open Scope Z_scope.
Local Notation length := List.length.

(** ** Lines and divisions *)

Lemma line_division : forall s l r, line s l r -> forall items, division s items ->
  exists items', items = l ++ IWhite true :: items' /\ division r items'.
Proof.
  intros s l r H. induction H as [s r W|s t l r W H IH|k w t l r O L H IH]; intros items D.
  - destruct (division_white _ _ D _ _ W) as (l' & -> & D'). exists l'. auto.
  - destruct (division_white _ _ D _ _ W) as (l' & -> & D'). destruct (IH _ D') as (i & -> & D''). exists i. auto.
  - destruct (division_token _ _ D _ _ _ eq_refl O L) as (l' & -> & D'). destruct (IH _ D') as (i & -> & D''). exists i. auto.
Qed.

Lemma line_shorter : forall s l r, line s l r -> (length r < length s)%nat.
Proof.
  intros s l r H. induction H as [s r W|s t l r W H IH|k w t l r O L H IH].
  - now apply white_shorter in W.
  - apply white_shorter in W. lia.
  - rewrite app_length. lia.
Qed.

Lemma line_white : forall s l r, line s l r -> forall n t, white n s t ->
  (n = true /\ l = [] /\ t = r) \/ (n = false /\ exists l', l = IWhite false :: l' /\ line t l' r).
Proof.
  intros s l r H n t W. destruct H as [s r W'|s t' l r W' H|k w t' l r O L H].
  - destruct (white_unique _ _ _ W _ _ W') as [-> ->]. auto.
  - destruct (white_unique _ _ _ W _ _ W') as [-> ->]. right. eauto.
  - destruct (O (white_opens _ _ _ W)).
Qed.
Lemma line_token_inv : forall s l r, line s l r -> ~ opens_white s ->
  exists k w t l', s = w ++ t /\ l = IToken k w :: l' /\ longest k w s /\ line t l' r.
Proof.
  intros s l r H O. destruct H as [s r W'|s t' l r W' H|k w t' l r O' L H].
  - destruct (O (white_opens _ _ _ W')).
  - destruct (O (white_opens _ _ _ W')).
  - exists k, w, t', l. auto.
Qed.
Lemma line_whites_chain : forall bs s t, chain bs s t -> forall l r, line s l r -> ~ In true bs ->
  exists l', l = map IWhite bs ++ l' /\ line t l' r.
Proof.
  intros bs s t H. induction H as [s|n bs s t u W C IH]; intros l r L N; [exists l; auto|].
  destruct (line_white _ _ _ L _ _ W) as [(-> & _)|(-> & l' & -> & L')]; [cbn in N; tauto|].
  destruct (IH _ _ L') as (l2 & -> & L2); [cbn in N; tauto|]. exists l2. auto.
Qed.
Lemma map_whites : forall bs, ~ In true bs -> whites (map IWhite bs).
Proof.
  intros bs N. apply Forall_forall. intros i H. apply in_map_iff in H as (b & <- & I). destruct b; [contradiction|reflexivity].
Qed.

(** ** White space at the end of a line *)

(** What may be consumed with the new-line before [r]: comments, with the end of their
    line *)
Definition ahead (r t : list Z) : Prop :=
  r = t \/ (char_at r 0 = 47 /\ exists bs, chain bs r t /\ (~ In true bs \/ exists bs', bs = bs' ++ [true] /\ ~ In true bs')).

Lemma no_true : forall bs, existsb (fun b => b) bs = false -> ~ In true bs.
Proof.
  intros bs E I. assert (K : existsb (fun b => b) bs = true); [|rewrite E in K; discriminate K]. apply existsb_exists. eauto.
Qed.
Lemma block_false : forall s m r, skip_block s = Ok (m, r) -> (r = s /\ m = WNone) \/ (m = WSome /\ white false s r /\ char_at s 0 = 47).
Proof.
  intros s m r H. unfold skip_block in H. destruct (_ && _) eqn:E in H.
  - apply two in E as (t & ->); [|lia|lia]. cbn [skipn] in H. destruct (block_loop t) as [u|] eqn:B; [|discriminate].
    injection H as <- <-. right. split; [reflexivity|]. split; [|reflexivity]. destruct (block_sound _ _ B) as (x & -> & M).
    exact (wh_block x u M).
  - injection H as <- <-. auto.
Qed.
Lemma line_false : forall s, (skip_line s = (WNone, s)) \/
  (char_at s 0 = 47 /\ exists t, white false s t /\ ((skip_line s = (WSome, t)) \/ exists u, skip_line s = (WLine, u) /\ white true t u)).
Proof.
  intros s. unfold skip_line. destruct (_ && _) eqn:E; [|auto].
  right. apply two in E as (t & ->); [|lia|lia]. cbn [skipn]. split; [reflexivity|]. destruct (line_split t) as (x & X & N & L).
  destruct L as [L|(u & L)]; rewrite L in *.
  - exists []. split; [|auto]. rewrite X. apply (wh_line x []); auto.
  - exists (10 :: u). split; [rewrite X; apply (wh_line x (10 :: u)); eauto|]. right. exists u. split; [reflexivity|].
    apply (wh_char 10). cbn. tauto.
Qed.

Lemma newline_round : forall s t l r, match_whitespace s = Ok (true, t) -> line s l r -> whites l /\ ahead r t.
Proof.
  intros s t l r H L. unfold match_whitespace in H.
  assert (SP : skip_space s = (WNone, s) \/ exists b u, white b s u /\ skip_space s = ((if b then WLine else WSome), u)).
  { destruct s as [|c s0]; cbn [skip_space]; [auto|]. destruct (is_space c) eqn:E; [|auto]. right. exists (c =? 10), s0.
    split; [apply wh_char, white_iff, E|reflexivity]. }
  destruct SP as [SP|(b & u & W & SP)]; rewrite SP in H; cbn [fst snd] in H.
  - destruct (skip_block s) as [[m v]| | |] eqn:B; try discriminate H. cbn [bind fst snd] in H.
    destruct (block_false _ _ _ B) as [[-> ->]|(-> & W1 & _)].
    + destruct (line_false s) as [E|(_ & x & W2 & [E|(y & E & W3)])]; rewrite E in H; cbn in H; try discriminate H.
      injection H as <-. destruct (line_white _ _ _ L _ _ W2) as [(K & _)|(_ & l2 & -> & L2)]; [discriminate K|].
      destruct (line_white _ _ _ L2 _ _ W3) as [(_ & -> & ->)|(K & _)]; [|discriminate K]. split; [repeat constructor|left; reflexivity].
    + destruct (line_white _ _ _ L _ _ W1) as [(K & _)|(_ & l1 & -> & L1)]; [discriminate K|].
      destruct (line_false v) as [E|(_ & x & W2 & [E|(y & E & W3)])]; rewrite E in H; cbn in H; try discriminate H.
      injection H as <-. destruct (line_white _ _ _ L1 _ _ W2) as [(K & _)|(_ & l2 & -> & L2)]; [discriminate K|].
      destruct (line_white _ _ _ L2 _ _ W3) as [(_ & -> & ->)|(K & _)]; [|discriminate K]. split; [repeat constructor|left; reflexivity].
  - destruct (skip_block u) as [[m v]| | |] eqn:B; try discriminate H. cbn [bind fst snd] in H.
    destruct b.
    + destruct (line_white _ _ _ L _ _ W) as [(_ & -> & ->)|(K & _)]; [|discriminate K]. split; [constructor|].
      destruct (block_false _ _ _ B) as [[-> ->]|(-> & W1 & C1)].
      * destruct (line_false r) as [E|(C2 & x & W2 & [E|(y & E & W3)])]; rewrite E in H; cbn in H; injection H as <-; [left; reflexivity| |]; right; split; try exact C2.
        -- exists [false]. split; [now apply chain_one|]. left. cbn. intros [K|[]]; discriminate K.
        -- exists [false; true]. split; [econstructor; [exact W2|now apply chain_one]|]. right. exists [false]. split; [reflexivity|]. cbn. intros [K|[]]; discriminate K.
      * right. split; [exact C1|]. destruct (line_false v) as [E|(C2 & x & W2 & [E|(y & E & W3)])]; rewrite E in H; cbn in H; injection H as <-.
        -- exists [false]. split; [now apply chain_one|]. left. cbn. intros [K|[]]; discriminate K.
        -- exists [false; false]. split; [econstructor; [exact W1|now apply chain_one]|]. left. cbn. intros [K|[K|[]]]; discriminate K.
        -- exists [false; false; true]. split; [econstructor; [exact W1|econstructor; [exact W2|now apply chain_one]]|].
           right. exists [false; false]. split; [reflexivity|]. cbn. intros [K|[K|[]]]; discriminate K.
    + destruct (line_white _ _ _ L _ _ W) as [(K & _)|(_ & l0 & -> & L0)]; [discriminate K|].
      destruct (block_false _ _ _ B) as [[-> ->]|(-> & W1 & _)].
      * destruct (line_false u) as [E|(_ & x & W2 & [E|(y & E & W3)])]; rewrite E in H; cbn in H; try discriminate H.
        injection H as <-. destruct (line_white _ _ _ L0 _ _ W2) as [(K & _)|(_ & l2 & -> & L2)]; [discriminate K|].
        destruct (line_white _ _ _ L2 _ _ W3) as [(_ & -> & ->)|(K & _)]; [|discriminate K]. split; [repeat constructor|left; reflexivity].
      * destruct (line_white _ _ _ L0 _ _ W1) as [(K & _)|(_ & l1 & -> & L1)]; [discriminate K|].
        destruct (line_false v) as [E|(_ & x & W2 & [E|(y & E & W3)])]; rewrite E in H; cbn in H; try discriminate H.
        injection H as <-. destruct (line_white _ _ _ L1 _ _ W2) as [(K & _)|(_ & l2 & -> & L2)]; [discriminate K|].
        destruct (line_white _ _ _ L2 _ _ W3) as [(_ & -> & ->)|(K & _)]; [|discriminate K]. split; [repeat constructor|left; reflexivity].
Qed.

(** ** One token of a line *)

Definition good (s : list Z) : Prop := exists items, division s items /\ all_fine items.

Lemma fine_tail : forall l i, all_fine (l ++ i) -> all_fine i.
Proof. induction l as [|[b|k w] l IH]; intros i F; [exact F|exact (IH i F)|exact (IH i (proj2 (proj2 F)))]. Qed.
Lemma good_line : forall s l r, line s l r -> good s -> good r.
Proof.
  intros s l r L (items & D & F). destruct (line_division _ _ _ L _ D) as (i & -> & D'). exists i. split; [exact D'|].
  apply fine_tail in F. exact F.
Qed.
Lemma good_chain : forall bs s t, chain bs s t -> good s -> good t.
Proof.
  intros bs s t C (items & D & F). destruct (division_chain _ _ _ C _ D) as (i & -> & D'). exists i. split; [exact D'|].
  now apply fine_tail in F.
Qed.
Lemma good_token : forall k w t, ~ opens_white (w ++ t) -> longest k w (w ++ t) -> good (w ++ t) -> good t.
Proof.
  intros k w t O L (items & D & F). destruct (division_token _ _ D _ _ _ eq_refl O L) as (i & -> & D'). exists i.
  split; [exact D'|exact (proj2 (proj2 F))].
Qed.

Lemma next_in_line : forall s l r, line s l r -> good s ->
  (exists k w t l' s', l = IToken k w :: l' /\ s = w ++ s' /\ next_token s = Ok (t, s') /\ reads t k w /\ line s' l' r /\ good s' /\
     (length s' < length s)%nat /\ fine k w)
  \/ (exists bs l' s', bs <> [] /\ ~ In true bs /\ l = map IWhite bs ++ l' /\ next_token s = Ok (TkSpace false, s') /\ line s' l' r /\ good s' /\
     (length s' < length s)%nat)
  \/ (exists s', whites l /\ next_token s = Ok (TkSpace true, s') /\ ahead r s' /\ good s' /\ (length s' < length s)%nat).
Proof.
  intros s l r L G. assert (W : (exists n t, white n s t) \/ exists k w t l', l = IToken k w :: l' /\ s = w ++ t /\ ~ opens_white (w ++ t) /\ longest k w (w ++ t) /\ line t l' r).
  { destruct L; eauto. right. do 4 eexists. eauto. }
  destruct W as [(n & t & W)|(k & w & t & l' & -> & -> & O & Lo & L')].
  - right. destruct G as (items & D & F). destruct (whitespace_ok _ _ D (white_opens _ _ _ W)) as (b & u & E).
    assert (N : next_token s = Ok (TkSpace b, u)). { unfold next_token. rewrite E. reflexivity. }
    destruct (whitespace_sound _ _ _ E) as (bs & B & C & Eb).
    assert (Lu : (length u < length s)%nat).
    { clear - B C. destruct C as [|m bs s t u W' C]; [contradiction|]. apply white_shorter in W'. apply chain_shorter in C. lia. }
    assert (Gu : good u). { eapply good_chain; [exact C|]. exists items. auto. }
    destruct b.
    + right. destruct (newline_round _ _ _ _ E L) as [Wl A]. exists u. auto.
    + left. symmetry in Eb. apply no_true in Eb. destruct (line_whites_chain _ _ _ C _ _ L Eb) as (l' & -> & L'). exists bs, l', u. auto 8.
  - left. destruct G as (items & D & F). destruct (division_token _ _ D _ _ _ eq_refl O Lo) as (i & -> & D').
    destruct F as (F1 & F2 & F3). destruct (next_token_fine _ _ _ _ O Lo D' F1 F2 F3) as (x & N & R).
    exists k, w, x, l', t. repeat split; auto.
    + exists i. auto.
    + destruct Lo as (_ & T & _). apply token_nonempty in T. rewrite app_length. destruct w; [contradiction|cbn; lia].
Qed.

(** ** Comparison of tokens *)

Definition otok (t : ptok) : option (bool * ptok) := match t with TkSpace _ => None | _ => Some (false, t) end.
Definition oitem (i : item) : option (bool * (kind * list Z)) := match i with IWhite _ => None | IToken k w => Some (false, (k, w)) end.
Definition same_tok (x : bool * ptok) (y : bool * (kind * list Z)) : Prop := fst x = fst y /\ reads (snd x) (fst (snd y)) (snd (snd y)).
Definition same_from (b : bool) (ts : list ptok) (l : list item) : Prop :=
  Forall2 same_tok (spaced b (map otok ts)) (spaced b (map oitem l)).

Lemma reads_otok : forall t k w, reads t k w -> otok t = Some (false, t).
Proof. intros t k w R. destruct R; reflexivity. Qed.
Lemma spaced_whites : forall bs b l, bs <> [] -> spaced b (map oitem (map IWhite bs ++ l)) = spaced true (map oitem l).
Proof.
  induction bs as [|x bs IH]; intros b l N; [contradiction|]. cbn [map app oitem spaced]. destruct bs as [|y bs]; [reflexivity|].
  apply (IH true l). discriminate.
Qed.
Lemma spaced_white_end : forall l b, whites l -> spaced b (map oitem l) = [].
Proof. induction l as [|i l IH]; intros b W; [reflexivity|]. inversion W; subst. cbn. now apply IH. Qed.
Lemma same_token : forall b t k w ts l, reads t k w -> same_from false ts l -> same_from b (t :: ts) (IToken k w :: l).
Proof.
  intros b t k w ts l R S. unfold same_from. cbn [map]. rewrite (reads_otok _ _ _ R). cbn [oitem spaced]. constructor; [|exact S].
  split; [reflexivity|exact R].
Qed.

Lemma reads_not_end : forall t k w, reads t k w -> match t with TkEnd | TkSpace _ => False | _ => True end.
Proof. intros t k w R. now destruct R. Qed.

Lemma scan_tokens_line : forall fuel s l r b, line s l r -> good s -> (length s < fuel)%nat ->
  exists ts s', scan_tokens fuel s = Ok (ts, s') /\ same_from b ts l /\ ahead r s' /\ good s' /\ (length s' < length s)%nat.
Proof.
  induction fuel as [|fuel IH]; intros s l r b L G Lt; [lia|]. cbn [scan_tokens].
  destruct (next_in_line _ _ _ L G) as [(k & w & t & l' & s' & -> & -> & N & R & L' & G' & Ls & _)|[(bs & l' & s' & B & B' & -> & N & L' & G' & Ls)|(s' & W & N & A & G' & Ls)]];
    rewrite N; cbn [bind fst snd].
  - destruct (IH s' l' r false L' G' ltac:(lia)) as (ts & s'' & E & S & A & G'' & Ls'). exists (t :: ts), s''.
    split; [pose proof (reads_not_end _ _ _ R) as K; destruct t; try contradiction; rewrite E; reflexivity|].
    split; [now apply same_token|]. split; [exact A|]. split; [exact G''|lia].
  - destruct (IH s' l' r true L' G' ltac:(lia)) as (ts & s'' & E & S & A & G'' & Ls'). exists (TkSpace false :: ts), s''.
    rewrite E. split; [reflexivity|]. split; [|split; [exact A|split; [exact G''|lia]]].
    unfold same_from. rewrite spaced_whites by exact B. exact S.
  - exists [], s'. split; [reflexivity|]. split; [|auto]. unfold same_from. rewrite spaced_white_end by exact W. constructor.
Qed.
Lemma scan_pp_line : forall s l r b, line s l r -> good s ->
  exists ts s', scan_pp_tokens s = Ok (ts, s') /\ same_from b ts l /\ ahead r s' /\ good s' /\ (length s' < length s)%nat.
Proof. intros. eapply scan_tokens_line; eauto. Qed.

Lemma whites_tail : forall bs l a x l', map IWhite bs ++ l = a ++ x :: l' -> whites a -> is_token x ->
  exists a', l = a' ++ x :: l' /\ whites a'.
Proof.
  induction bs as [|b bs IH]; intros l a x l' E W T; [exists a; auto|]. destruct a as [|i a].
  - cbn in E. injection E as <- _. destruct T.
  - cbn in E. injection E as <- E. inversion W; subst. eauto.
Qed.
Lemma skip_white_token : forall fuel s a k w l r, line s (a ++ IToken k w :: l) r -> whites a -> good s -> (length s < fuel)%nat ->
  exists t s', skip_white fuel s = Ok (t, s') /\ reads t k w /\ line s' l r /\ good s' /\ (length s' < length s)%nat /\ fine k w.
Proof.
  induction fuel as [|fuel IH]; intros s a k w l r L W G Lt; [lia|]. cbn [skip_white].
  destruct (next_in_line _ _ _ L G) as [(k' & w' & t & l' & s' & E & -> & N & R & L' & G' & Ls & F)|[(bs & l' & s' & B & B' & E & N & L' & G' & Ls)|(s' & W' & N & A & G' & Ls)]].
  - destruct a as [|i a]; [|inversion W; subst; discriminate E]. injection E as <- <- <-. rewrite N. cbn [bind fst snd].
    exists t, s'. split; [|auto]. pose proof (reads_not_end _ _ _ R) as K. destruct t; try contradiction; reflexivity.
  - rewrite N. cbn [bind fst snd]. symmetry in E. destruct (whites_tail _ _ _ _ _ E W I) as (a' & -> & W2).
    destruct (IH s' a' k w l r L' W2 G' ltac:(lia)) as (t & s'' & E2 & R & L2 & G2 & Ls2 & F). exists t, s''. split; [exact E2|].
    repeat split; auto. lia.
  - exfalso. apply Forall_app in W' as [_ W']. inversion W'; discriminate.
Qed.
Lemma skip_token : forall s a k w l r, line s (a ++ IToken k w :: l) r -> whites a -> good s ->
  exists t s', skip_whitespaces s = Ok (t, s') /\ reads t k w /\ line s' l r /\ good s' /\ (length s' < length s)%nat /\ fine k w.
Proof. intros. eapply skip_white_token; eauto. Qed.
Lemma skip_white_end : forall fuel s l r, line s l r -> whites l -> good s -> (length s < fuel)%nat ->
  exists s', skip_white fuel s = Ok (TkSpace true, s') /\ ahead r s' /\ good s' /\ (length s' < length s)%nat.
Proof.
  induction fuel as [|fuel IH]; intros s l r L W G Lt; [lia|]. cbn [skip_white].
  destruct (next_in_line _ _ _ L G) as [(k' & w' & t & l' & s' & -> & _)|[(bs & l' & s' & B & B' & -> & N & L' & G' & Ls)|(s' & W' & N & A & G' & Ls)]].
  - inversion W; discriminate.
  - rewrite N. cbn [bind fst snd]. apply Forall_app in W as [_ W].
    destruct (IH s' l' r L' W G' ltac:(lia)) as (s'' & E2 & A & G2 & Ls2). exists s''. repeat split; auto. lia.
  - rewrite N. cbn [bind fst snd]. exists s'. auto.
Qed.
