(** White space, and the division of a text into preprocessing tokens. *)

From Coq Require Import ZArith Bool List String Lia.
From Verif Require Import CTypes LexModel StrModel StrProofs PropPunct TokModel TokSpec TokProofs TokLit.
Import ListNotations.
Open Scope Z_scope.
Local Notation length := List.length.

(** ** White space *)

Lemma block_sound : forall s r, block_loop s = Some r ->
  exists x, s = x ++ text "*/" ++ r /\ forall y z, x ++ text "*" <> y ++ text "*/" ++ z.
Proof.
  induction s as [|c s IH]; intros r H; [discriminate|]. cbn [block_loop] in H. destruct (_ && _) eqn:E in H.
  - injection H as <-. apply andb_true_iff in E as [E1 E2]. apply Z.eqb_eq in E1, E2.
    destruct s as [|d s]; [cbn in E2; lia|]. cbn in E2. subst. exists []. split; [reflexivity|].
    intros y z K. apply (f_equal (@length Z)) in K. rewrite !app_length in K. cbn in K. lia.
  - destruct (IH _ H) as (x & -> & M). exists (c :: x). split; [reflexivity|]. intros [|d y] z K; cbn in K.
    + injection K as -> K. destruct x as [|d x]; cbn in K; [discriminate|]. injection K as -> K. cbn in E. discriminate.
    + injection K as -> K. apply (M y z). exact K.
Qed.
Lemma block_complete : forall x r, (forall y z, x ++ text "*" <> y ++ text "*/" ++ z) -> block_loop (x ++ text "*/" ++ r) = Some r.
Proof.
  induction x as [|c x IH]; intros r M; [reflexivity|].
  change ((c :: x) ++ text "*/" ++ r) with (c :: (x ++ text "*/" ++ r)). cbn [block_loop].
  destruct (_ && _) eqn:E.
  - exfalso. apply andb_true_iff in E as [E1 E2]. apply Z.eqb_eq in E1, E2. destruct x as [|d x]; [cbn in E2; lia|].
    cbn in E2. subst. apply (M [] (x ++ text "*")). reflexivity.
  - apply IH. intros y z K. apply (M (c :: y) z). cbn [app]. now rewrite <- K.
Qed.
Lemma line_split : forall s, exists x, s = x ++ line_loop s /\ ~ In 10 x /\ (line_loop s = [] \/ exists t, line_loop s = 10 :: t).
Proof.
  induction s as [|c s IH]; [exists []; auto|]. cbn [line_loop]. unfold newline. destruct (c =? 10) eqn:E.
  - apply Z.eqb_eq in E. subst. exists []. split; [reflexivity|]. split; [auto|]. right. eauto.
  - destruct IH as (x & H1 & H2 & H3). exists (c :: x). split; [cbn; now rewrite <- H1|]. split; [|exact H3].
    intros [K|K]; [lia|contradiction].
Qed.
Lemma line_unique : forall x r, ~ In 10 x -> (r = [] \/ exists t, r = 10 :: t) -> line_loop (x ++ r) = r.
Proof.
  induction x as [|c x IH]; intros r N H; cbn [app].
  - destruct H as [->|(t & ->)]; reflexivity.
  - cbn [line_loop]. unfold newline. cbn [In] in N. replace (c =? 10) with false by lia. apply IH; tauto.
Qed.

Inductive chain : list bool -> list Z -> list Z -> Prop :=
  | ch_nil : forall s, chain [] s s
  | ch_cons : forall n l s t r, white n s t -> chain l t r -> chain (n :: l) s r.
Lemma chain_app : forall l l' s t r, chain l s t -> chain l' t r -> chain (l ++ l') s r.
Proof. intros l l' s t r H. induction H; intro K; [exact K|]. cbn. econstructor; eauto. Qed.
Lemma chain_one : forall n s r, white n s r -> chain [n] s r.
Proof. intros. econstructor; [eassumption|constructor]. Qed.

Definition matched (l : list bool) : wsm := match l with [] => WNone | _ => if existsb (fun n => n) l then WLine else WSome end.
Lemma matched_app : forall l l', matched (l ++ l') = wmax (matched l) (matched l').
Proof.
  intros [|a l] l'; [cbn; destruct (matched l'); reflexivity|]. destruct l' as [|b l']; [rewrite app_nil_r; cbn [matched wmax]; now destruct (existsb _ _)|].
  cbn [matched app]. change (a :: l ++ b :: l') with ((a :: l) ++ (b :: l')). rewrite existsb_app.
  destruct (existsb _ (a :: l)), (existsb _ (b :: l')); reflexivity.
Qed.
Lemma space_chain : forall s, exists l, chain l s (snd (skip_space s)) /\ fst (skip_space s) = matched l.
Proof.
  intros [|c s]; cbn [skip_space]; [exists []; split; [constructor|reflexivity]|]. destruct (is_space c) eqn:E; cbn [fst snd].
  - exists [c =? 10]. split; [apply chain_one, wh_char, white_iff, E|]. unfold newline. cbn. now destruct (c =? 10).
  - exists []. split; [constructor|reflexivity].
Qed.
Lemma two : forall s a b, a <> 0 -> b <> 0 -> ((char_at s 0 =? a) && (char_at s 1 =? b)) = true <-> exists t, s = a :: b :: t.
Proof.
  intros [|x [|y s]] a b A B; unfold char_at; cbn [nth]; rewrite andb_true_iff, !Z.eqb_eq; split; try lia.
  - intros (t & K); discriminate.
  - intros (t & K); discriminate.
  - intros [-> ->]. eauto.
  - intros (t & K). injection K as -> -> _. auto.
Qed.
Lemma block_chain : forall s m r, skip_block s = Ok (m, r) -> exists l, chain l s r /\ m = matched l.
Proof.
  intros s m r H. unfold skip_block in H. destruct (_ && _) eqn:E in H.
  - apply two in E as (t & ->); [|lia|lia]. cbn [skipn] in H. destruct (block_loop t) as [u|] eqn:B; [|discriminate].
    injection H as <- <-. exists [false]. split; [|reflexivity]. destruct (block_sound _ _ B) as (x & -> & M).
    apply chain_one. exact (wh_block x u M).
  - injection H as <- <-. exists []. split; [constructor|reflexivity].
Qed.
Lemma line_chain : forall s, exists l, chain l s (snd (skip_line s)) /\ fst (skip_line s) = matched l.
Proof.
  intros s. unfold skip_line. destruct (_ && _) eqn:E.
  - apply two in E as (t & ->); [|lia|lia]. cbn [skipn]. destruct (line_split t) as (x & X & N & L).
    destruct L as [L|(u & L)].
    + exists [false]. rewrite L in *. split; [|reflexivity]. rewrite X. apply chain_one. apply (wh_line x []); auto.
    + exists [false; true]. rewrite L in *. split; [|reflexivity]. rewrite X. econstructor.
      * apply (wh_line x (10 :: u)); eauto.
      * apply chain_one. apply (wh_char 10). cbn. tauto.
  - exists []. split; [constructor|reflexivity].
Qed.

Lemma whitespace_sound : forall s n r, match_whitespace s = Ok (n, r) ->
  exists l, l <> [] /\ chain l s r /\ n = existsb (fun b => b) l.
Proof.
  intros s n r H. unfold match_whitespace in H. destruct (space_chain s) as (l1 & C1 & M1).
  destruct (skip_block (snd (skip_space s))) as [[m u]| | |] eqn:B; try discriminate. cbn [bind fst snd] in H.
  destruct (block_chain _ _ _ B) as (l2 & C2 & M2). destruct (line_chain u) as (l3 & C3 & M3).
  rewrite M1, M2, M3, <- !matched_app in H.
  pose proof (chain_app _ _ _ _ _ (chain_app _ _ _ _ _ C1 C2) C3) as C. exists ((l1 ++ l2) ++ l3).
  destruct ((l1 ++ l2) ++ l3) as [|x l]; [discriminate|]. split; [discriminate|]. cbn [matched] in H.
  destruct (existsb _ (x :: l)); injection H as <- <-; auto.
Qed.

Lemma white_opens : forall n s r, white n s r -> opens_white s.
Proof.
  intros n s r [c r' H|x r' _|x r' _ _]; [left; eauto|right; left; eexists; reflexivity|right; right; eexists; reflexivity].
Qed.
Lemma white_shorter : forall n s r, white n s r -> (length r < length s)%nat.
Proof. intros n s r [c r' H|x r' _|x r' _ _]; rewrite ?app_length; cbn; lia. Qed.
Lemma white_unique : forall n s r, white n s r -> forall n' r', white n' s r' -> n = n' /\ r = r'.
Proof.
  intros n s r H n' r' H'.
  destruct H as [c r W|x r M|x r N E];
    match type of H' with white _ ?s _ => remember s as s0 eqn:Q end; destruct H' as [c' r' W'|x' r' M'|x' r' N' E'].
  - injection Q as -> ->. auto.
  - exfalso. injection Q as <- Q. cbn in W. lia.
  - exfalso. injection Q as <- Q. cbn in W. lia.
  - exfalso. injection Q as -> Q. cbn in W'. lia.
  - split; [reflexivity|]. pose proof (block_complete _ r M) as K. pose proof (block_complete _ r' M') as K'.
    apply app_inv_head in Q. congruence.
  - exfalso. cbn in Q. discriminate.
  - exfalso. injection Q as -> Q. cbn in W'. lia.
  - exfalso. cbn in Q. discriminate.
  - split; [reflexivity|]. apply app_inv_head in Q. rewrite <- (line_unique x r N E), <- (line_unique x' r' N' E'). congruence.
Qed.

Lemma opens_skip : forall s, opens_white s -> fst (skip_space s) = WNone -> skip_block s = Ok (WNone, s) -> fst (skip_line s) <> WNone.
Proof.
  intros s [(c & r & -> & W)|[(r & ->)|(r & ->)]] H1 H2.
  - apply white_iff in W. cbn [skip_space] in H1. rewrite W in H1. destruct (c =? newline); discriminate.
  - change (match block_loop r with Some r' => Ok (WSome, r') | None => Error end = Ok (WNone, text "/*" ++ r)) in H2.
    destruct (block_loop r); discriminate H2.
  - change (fst (match line_loop r with c :: r' => (WLine, r') | [] => (WSome, []) end) <> WNone). destruct (line_loop r); discriminate.
Qed.
Lemma whitespace_none : forall s, match_whitespace s = NoMatch -> ~ opens_white s.
Proof.
  intros s H O. unfold match_whitespace in H.
  destruct (skip_block (snd (skip_space s))) as [[m u]| | |] eqn:B; try discriminate.
  2: { unfold skip_block in B. destruct (_ && _) in B; [destruct (block_loop _)|]; discriminate. }
  cbn [bind fst snd] in H. destruct (fst (skip_space s)) eqn:E1; [|destruct m, (fst (skip_line u)); discriminate..].
  destruct m; [|destruct (fst (skip_line u)); discriminate..]. destruct (fst (skip_line u)) eqn:E3; try discriminate.
  assert (Q : snd (skip_space s) = s).
  { destruct s as [|c s]; [reflexivity|]. cbn [skip_space] in *. destruct (is_space c); [destruct (c =? newline); discriminate|reflexivity]. }
  rewrite Q in B. assert (Q2 : u = s).
  { unfold skip_block in B. destruct (_ && _) in B; [destruct (block_loop _); discriminate|]. congruence. }
  subst u. exact (opens_skip _ O E1 B E3).
Qed.
Lemma skip_space_opens : forall s, ~ opens_white s -> match_whitespace s = NoMatch.
Proof.
  intros s N. unfold match_whitespace. assert (E : skip_space s = (WNone, s)).
  { destruct s as [|c s]; [reflexivity|]. cbn. destruct (is_space c) eqn:E; [|reflexivity]. exfalso. apply N. left.
    exists c, s. split; [reflexivity|]. now apply white_iff. }
  rewrite E. cbn [fst snd]. assert (B : skip_block s = Ok (WNone, s)).
  { unfold skip_block. destruct (_ && _) eqn:K; [|reflexivity]. exfalso. apply two in K as (t & ->); [|lia|lia].
    apply N. right; left. exists t. reflexivity. }
  rewrite B. cbn [bind fst snd]. assert (L : skip_line s = (WNone, s)).
  { unfold skip_line. destruct (_ && _) eqn:K; [|reflexivity]. exfalso. apply two in K as (t & ->); [|lia|lia].
    apply N. right; right. exists t. reflexivity. }
  rewrite L. reflexivity.
Qed.

(** ** The first characters of the tokens *)

Lemma ucn_chars : forall w, ucn w -> forall c, In c w -> c <> 34 /\ c <> 39.
Proof.
  assert (D : forall d c, Forall hexadecimal_digit d -> In c d -> c <> 34 /\ c <> 39).
  { intros d c F I. rewrite Forall_forall in F. apply F in I. apply hex_iff in I. unfold is_hex, is_digit in I. lia. }
  intros w [d _ F|d _ F] c I; cbn in I; (destruct I as [<-|[<-|I]]; [lia|lia|eauto]).
Qed.
Lemma nondigit_chars : forall w, identifier_nondigit w -> forall c, In c w -> c <> 34 /\ c <> 39.
Proof.
  intros w [d D|u U] c I; [|eapply ucn_chars; eassumption]. destruct I as [<-|[]]. apply nondigit_iff in D.
  unfold is_nondigit in D. lia.
Qed.
Lemma identifier_chars : forall w, identifier w -> forall c, In c w -> c <> 34 /\ c <> 39.
Proof.
  intros w H. induction H as [n N|i n _ IH N|i d _ IH D]; intros c I; [eapply nondigit_chars; eassumption| |];
    apply in_app_iff in I as [I|I]; eauto using nondigit_chars.
  destruct I as [<-|[]]. apply digit_iff in D. unfold is_digit in D. lia.
Qed.
Lemma prefix_bound : forall p q t w, starts_with (p ++ q :: t) w -> ~ In q w -> (length w <= length p)%nat.
Proof.
  induction p as [|c p IH]; intros q t [|d w] (r & E) N; cbn in *; try lia.
  - injection E as <- E. tauto.
  - injection E as <- E. assert (length w <= length p)%nat; [|lia]. apply (IH q t); [exists r; exact E|tauto].
Qed.

Lemma name_first : forall w, identifier w -> exists c t, w = c :: t /\ (is_nondigit c = true \/ c = 92).
Proof.
  intros w H. destruct (identifier_split _ H) as (a & x & -> & A & _). destruct A as [c C|u U].
  - exists c, x. split; [reflexivity|]. left. now apply nondigit_iff.
  - destruct (ucn_head _ U) as (t & ->). exists 92, (t ++ x). auto.
Qed.
Lemma number_first : forall w, pp_number w -> exists c t, w = c :: t /\ (is_digit c = true \/ (c = 46 /\ exists d u, t = d :: u /\ is_digit d = true)).
Proof.
  intros w H. destruct (number_split _ H) as (a & x & -> & (c & C & [->| ->]) & _); apply digit_iff in C.
  - exists c, x. auto.
  - exists 46, (c :: x). split; [reflexivity|]. right. eauto.
Qed.
Lemma char_first : forall w, character_constant w -> exists p t, In p (map text [""; "L"; "u"; "U"]%string) /\ w = p ++ 39 :: t.
Proof. intros w [p u P _ _]. exists p, (u ++ [39]). auto. Qed.
Lemma string_first : forall w, string_literal w -> exists p t, In p (map text [""; "u8"; "u"; "U"; "L"]%string) /\ w = p ++ 34 :: t.
Proof. intros w [p u P _]. exists p, (u ++ [34]). auto. Qed.
Lemma punct_first : forall w, In w c17_punctuators -> exists c t, w = c :: t /\
  is_nondigit c = false /\ c <> 92 /\ is_digit c = false /\ c <> 34 /\ c <> 39 /\ (c = 46 -> t = [] \/ exists u, t = 46 :: u).
Proof.
  assert (K : forallb (fun w => match w with
    | [] => false
    | c :: t => negb (is_nondigit c) && negb (c =? 92) && negb (is_digit c) && negb (c =? 34) && negb (c =? 39) &&
                (negb (c =? 46) || match t with [] => true | d :: _ => d =? 46 end) end) c17_punctuators = true) by (vm_compute; reflexivity).
  intros w H. rewrite forallb_forall in K. specialize (K w H). destruct w as [|c t]; [discriminate|]. exists c, t.
  split; [reflexivity|]. rewrite !andb_true_iff, !negb_true_iff in K. destruct K as (((((K1 & K2) & K3) & K4) & K5) & K6).
  split; [exact K1|]. split; [lia|]. split; [exact K3|]. split; [lia|]. split; [lia|]. intros ->. cbn in K6.
  destruct t as [|d u]; [auto|]. right. apply Z.eqb_eq in K6. subst. eauto.
Qed.
Lemma standard_nonempty : forall k w, standard k w -> w <> [].
Proof.
  intros k w [v H|v H|v H|v H|v H] ->.
  - destruct (name_first _ H) as (c & t & E & _). discriminate.
  - destruct (number_first _ H) as (c & t & E & _). discriminate.
  - destruct (char_first _ H) as (p & t & _ & E). destruct p; discriminate.
  - destruct (string_first _ H) as (p & t & _ & E). destruct p; discriminate.
  - destruct (punct_first _ H) as (c & t & E & _). discriminate.
Qed.
Lemma token_nonempty : forall k w, pp_token k w -> w <> [].
Proof. intros k w [k' v H|c _ _]; [eapply standard_nonempty; eassumption|discriminate]. Qed.

Lemma longest_intro : forall k w s, standard k w -> starts_with s w ->
  longest_of KName s w -> longest_of KNumber s w -> longest_of KChar s w -> longest_of KString s w -> longest_of KPunct s w ->
  longest k w s.
Proof.
  intros k w s S P L1 L2 L3 L4 L5. split; [exact P|]. split; [now apply pt_standard|].
  intros k' w' T P'. destruct T as [k' w' S'|c _ _].
  - destruct S' as [v H|v H|v H|v H|v H]; [apply L1|apply L2|apply L3|apply L4|apply L5]; auto; now constructor.
  - apply standard_nonempty in S. destruct w; [contradiction|cbn; lia].
Qed.
Lemma none_longest : forall k s w, none_of k s -> longest_of k s w.
Proof. intros k s w H w' S P. destruct (H _ S P). Qed.

(** Which kinds a text cannot start with. *)
Lemma quote_none : forall q p t, quote q -> In p (map text [""; "u8"; "u"; "U"; "L"]%string) ->
  none_of KNumber (p ++ q :: t) /\ none_of KPunct (p ++ q :: t) /\
  forall w, longest_of KName (p ++ q :: t) (p ++ [q] ++ w).
Proof.
  intros q p t Q P. split; [|split].
  - intros w S (r & E). inversion S as [|? I| | |]; subst. destruct (number_first _ I) as (c & u & -> & F).
    cbn in P. destruct P as [<-|[<-|[<-|[<-|[<-|[]]]]]]; cbn in E; injection E as <- E; unfold is_digit in F; destruct Q; subst;
      destruct F as [F|(F & _)]; lia.
  - intros w S (r & E). inversion S as [| | | |? I]; subst. destruct (punct_first _ I) as (c & u & -> & F1 & _ & _ & F2 & F3 & _).
    cbn in P. destruct P as [<-|[<-|[<-|[<-|[<-|[]]]]]]; cbn in E; injection E as <- E; unfold is_nondigit in F1; destruct Q; subst; lia.
  - intros w w' S B. inversion S as [? I| | | |]; subst. rewrite app_length.
    assert (length w' <= length p)%nat; [|lia]. apply (prefix_bound p q t); [exact B|]. intro K.
    destruct (identifier_chars _ I _ K). destruct Q; contradiction.
Qed.
Lemma quotes_none : forall m m' t, none_of KString (encoding_prefix m ++ 39 :: t) /\ none_of KChar (encoding_prefix m' ++ 34 :: t).
Proof.
  intros m m' t. split; intros w S (r & E); [inversion S as [| | |? I|]|inversion S as [| |? I| |]]; subst.
  - destruct I as [p u P _]. destruct (encoding_onto _ P) as (m2 & ->). rewrite <- !app_assoc in E. destruct m, m2; cbn in E; discriminate.
  - destruct I as [p u P _ _]. destruct (char_modes_onto _ P) as (m2 & _ & ->). rewrite <- !app_assoc in E. destruct m', m2; cbn in E; discriminate.
Qed.
Lemma number_others : forall w r, pp_number w -> none_of KName (w ++ r) /\ none_of KChar (w ++ r) /\ none_of KString (w ++ r) /\ longest_of KPunct (w ++ r) w.
Proof.
  intros w r H. destruct (number_first _ H) as (c & t & -> & F). assert (C : is_digit c = true \/ c = 46) by tauto.
  split; [|split; [|split]].
  - intros v S (q & E). inversion S as [? I| | | |]; subst. destruct (name_first _ I) as (d & u & -> & G). injection E as <- E.
    unfold is_digit, is_nondigit in *. lia.
  - intros v S (q & E). inversion S as [| |? I| |]; subst. destruct (char_first _ I) as (p & u & P & ->).
    cbn in P. destruct P as [<-|[<-|[<-|[<-|[]]]]]; cbn in E; injection E as -> E; unfold is_digit in C; lia.
  - intros v S (q & E). inversion S as [| | |? I|]; subst. destruct (string_first _ I) as (p & u & P & ->).
    cbn in P. destruct P as [<-|[<-|[<-|[<-|[<-|[]]]]]]; cbn in E; injection E as -> E; unfold is_digit in C; lia.
  - intros v S (q & E). inversion S as [| | | |? I]; subst. destruct (punct_first _ I) as (d & u & -> & _ & _ & G & _ & _ & G2).
    injection E as <- E. destruct F as [F|(-> & d & x & -> & F)]; [congruence|]. destruct (G2 eq_refl) as [->|(u' & ->)]; [cbn; lia|].
    cbn in E. injection E as -> E. discriminate.
Qed.
Lemma name_others : forall w r, identifier w -> none_of KNumber (w ++ r) /\ none_of KPunct (w ++ r).
Proof.
  intros w r H. destruct (name_first _ H) as (c & t & -> & F). split.
  - intros v S (q & E). inversion S as [|? I| | |]; subst. destruct (number_first _ I) as (d & u & -> & G). injection E as <- E.
    unfold is_digit, is_nondigit in *. lia.
  - intros v S (q & E). inversion S as [| | | |? I]; subst. destruct (punct_first _ I) as (d & u & -> & G1 & G2 & _). injection E as <- E.
    destruct F; [congruence|contradiction].
Qed.

(** ** One token *)

Inductive reads : ptok -> kind -> list Z -> Prop :=
  | rd_name : forall e w, (~ In 92 w -> e = w) -> reads (TkName e) KName w
  | rd_number : forall e w, (~ In 92 w -> e = w) -> reads (TkNumber e) KNumber w
  | rd_char : forall c w, reads (TkChar c) KChar w
  | rd_string : forall l w, reads (TkString l) KString w
  | rd_punct : forall p, reads (TkPunct p) KPunct (spelling p).
Definition broken (t : ptok) (w : list Z) : Prop := match t with TkChar _ => In 10 w | _ => False end.

Inductive step : list Z -> ptok -> list Z -> Prop :=
  | step_end : step [] TkEnd []
  | step_white : forall l s r, l <> [] -> chain l s r -> step s (TkSpace (existsb (fun b => b) l)) r
  | step_token : forall t w r, ~ opens_white (w ++ r) -> w <> [] -> (~ broken t w -> exists k, reads t k w /\ longest k w (w ++ r)) ->
                 step (w ++ r) t r.

Lemma next_token_sound : forall s t r, next_token s = Ok (t, r) -> step s t r.
Proof.
  intros s t r H. unfold next_token, or_else, map_res in H. remember (match_punctuator s) as mp eqn:A5. symmetry in A5.
  destruct (match_whitespace s) as [[n u]| | |] eqn:A0; try discriminate H; cbn [bind fst snd] in H.
  { injection H as <- <-. destruct (whitespace_sound _ _ _ A0) as (l & L & C & ->). now constructor. }
  apply whitespace_none in A0.
  destruct s as [|c0 s0]; [injection H as <- <-; constructor|]. remember (c0 :: s0) as s eqn:Q. clear c0 s0 Q.
  destruct (match_char_constant s) as [[c u]| | |] eqn:A1; try discriminate H; cbn [bind fst snd] in H.
  { injection H as <- <-. destruct (char_sound _ _ _ A1) as (m & w & M & -> & K). constructor; [exact A0|intro Q0; apply (f_equal (@length Z)) in Q0; rewrite !app_length in Q0; cbn in Q0; lia|].
    intro B. exists KChar. split; [constructor|]. cbn [broken] in B.
    destruct K as [K1 K2]. { intro I. apply B. rewrite !in_app_iff. auto. }
    assert (P : In (encoding_prefix m) (map text [""; "u8"; "u"; "U"; "L"]%string)) by apply encoding_in.
    destruct (quote_none 39 (encoding_prefix m) (w ++ 39 :: u) (or_intror eq_refl) P) as (N1 & N2 & N3).
    pose proof (proj1 (quotes_none m m (w ++ 39 :: u))) as N4.
    replace ((encoding_prefix m ++ [39] ++ w ++ [39]) ++ u) with (encoding_prefix m ++ 39 :: w ++ 39 :: u) in * by (rewrite <- !app_assoc; reflexivity).
    apply longest_intro; [now constructor| | | | | |]; auto using none_longest.
    exists u. rewrite <- !app_assoc. reflexivity. }
  apply char_none in A1.
  destruct (match_number s) as [[e u]| | |] eqn:A2; try discriminate H; cbn [bind fst snd] in H.
  { injection H as <- <-. destruct (number_sound _ _ _ A2) as (w & W & -> & L & B). constructor; [exact A0| |].
    - apply (standard_nonempty KNumber). now constructor.
    - intros _. exists KNumber. split; [now constructor|]. destruct (number_others w u W) as (N1 & N2 & N3 & N4).
      apply longest_intro; [now constructor|exists u; reflexivity| | | | |]; auto using none_longest. }
  apply number_none in A2.
  destruct (match_literal s) as [[l u]| | |] eqn:A3; try discriminate H; cbn [bind fst snd] in H.
  { injection H as <- <-. destruct (string_sound _ _ _ A3) as (w & W & -> & L). constructor; [exact A0| |].
    - apply (standard_nonempty KString). now constructor.
    - intros _. exists KString. split; [constructor|]. destruct W as [p v P V].
      destruct (quote_none 34 p (v ++ 34 :: u) (or_introl eq_refl) P) as (N1 & N2 & N3).
      replace ((p ++ [34] ++ v ++ [34]) ++ u) with (p ++ 34 :: v ++ 34 :: u) in * by (rewrite <- !app_assoc; reflexivity).
      apply longest_intro; [constructor; now constructor| | | | | |]; auto using none_longest.
      exists u. rewrite <- !app_assoc. reflexivity. }
  apply string_none in A3.
  destruct (match_name s) as [[e u]| | |] eqn:A4; try discriminate H; cbn [bind fst snd] in H.
  { injection H as <- <-. destruct (name_sound _ _ _ A4) as (w & W & -> & L & B). constructor; [exact A0| |].
    - apply (standard_nonempty KName). now constructor.
    - intros _. exists KName. split; [now constructor|]. destruct (name_others w u W) as (N1 & N2).
      apply longest_intro; [now constructor|exists u; reflexivity| | | | |]; auto using none_longest. }
  apply name_none in A4.
  destruct mp as [[p u]|]; cbn [of_option bind fst snd] in H; [|discriminate H].
  injection H as <- <-. destruct (c07_maximal_munch _ _ _ A5) as (-> & I & B & L). constructor; [exact A0| |].
  - apply (standard_nonempty KPunct). now constructor.
  - intros _. exists KPunct. split; [constructor|].
    apply longest_intro; [now constructor|exists u; reflexivity| | | | |]; auto using none_longest.
    intros w' S' P'. inversion S'; subst. now apply L.
Qed.

(** ** The whole text *)

Inductive tokens_of : list ptok -> list item -> Prop :=
  | to_nil : tokens_of [] []
  | to_white : forall bs ts is, bs <> [] -> tokens_of ts is ->
               tokens_of (TkSpace (existsb (fun b => b) bs) :: ts) (map IWhite bs ++ is)
  | to_token : forall t k w ts is, reads t k w -> tokens_of ts is -> tokens_of (t :: ts) (IToken k w :: is).
(** No character constant of the text holds a new-line. *)
Fixpoint intact (s : list Z) (l : list (ptok * list Z)) : Prop :=
  match l with
  | [] => True
  | (t, r) :: l' => (forall w, s = w ++ r -> ~ broken t w) /\ intact r l'
  end.

Lemma chain_division : forall bs s r l, chain bs s r -> division r l -> division s (map IWhite bs ++ l).
Proof. intros bs s r l H. induction H; intro D; [exact D|]. cbn. econstructor; eauto. Qed.

Lemma tokenize_sound : forall fuel s l, tokenize fuel s = Ok l -> intact s l ->
  exists items, division s items /\ tokens_of (map fst l) items.
Proof.
  induction fuel as [|fuel IH]; intros s l H I; [discriminate|]. cbn [tokenize] in H.
  destruct (next_token s) as [[t r]| | |] eqn:N; try discriminate H. cbn [bind fst snd] in H.
  assert (S : step s t r) by (apply next_token_sound; exact N). clear N.
  assert (C : (t = TkEnd /\ l = []) \/ exists l', t <> TkEnd /\ tokenize fuel r = Ok l' /\ l = (t, r) :: l').
  { destruct t; try (right; destruct (tokenize fuel r) as [l'| | |]; try discriminate H; injection H as <-; eexists; split; [discriminate|split; reflexivity]).
    left. injection H as <-. auto. }
  clear H. destruct C as [[-> ->]|(l' & T0 & T & ->)].
  - inversion S as [| |? ? ? _ _ K]; subst; [exists []; split; constructor|]. destruct K as (k & K & _); [cbn; tauto|]. inversion K.
  - destruct S as [|bs s r B C|t w r O W K]; [contradiction| |].
    + destruct I as [_ I]. destruct (IH _ _ T I) as (items & D & G). exists (map IWhite bs ++ items).
      split; [eapply chain_division; eassumption|]. cbn. now constructor.
    + destruct I as [I1 I]. destruct (IH _ _ T I) as (items & D & G). destruct (K (I1 _ eq_refl)) as (k & R & L).
      exists (IToken k w :: items). split; [now constructor|]. cbn. now constructor.
Qed.

(** ** The division is unique *)

Lemma kind_unique : forall w k k', standard k w -> standard k' w -> k = k'.
Proof.
  assert (M : forall w k, standard k w -> none_of k (w ++ []) -> False).
  { intros w k S N. apply (N w S). exists []. reflexivity. }
  assert (C : forall w, character_constant w -> none_of KNumber (w ++ []) /\ none_of KPunct (w ++ []) /\ none_of KString (w ++ []) /\ ~ identifier w).
  { intros w H. assert (I : In 39 w) by (destruct H; rewrite !in_app_iff; cbn; tauto).
    split; [|split; [|split]].
    - destruct H as [p u P _ _]. destruct (char_modes_onto _ P) as (m & _ & ->). rewrite <- !app_assoc.
      destruct (quote_none 39 (encoding_prefix m) (u ++ [39] ++ []) (or_intror eq_refl) (encoding_in m)) as (N1 & _). exact N1.
    - destruct H as [p u P _ _]. destruct (char_modes_onto _ P) as (m & _ & ->). rewrite <- !app_assoc.
      destruct (quote_none 39 (encoding_prefix m) (u ++ [39] ++ []) (or_intror eq_refl) (encoding_in m)) as (_ & N1 & _). exact N1.
    - destruct H as [p u P _ _]. destruct (char_modes_onto _ P) as (m & _ & ->). rewrite <- !app_assoc.
      exact (proj1 (quotes_none m m (u ++ [39] ++ []))).
    - intro K. destruct (identifier_chars _ K _ I). contradiction. }
  assert (T : forall w, string_literal w -> none_of KNumber (w ++ []) /\ none_of KPunct (w ++ []) /\ ~ identifier w).
  { intros w H. assert (I : In 34 w) by (destruct H; rewrite !in_app_iff; cbn; tauto).
    split; [|split].
    - destruct H as [p u P _]. rewrite <- !app_assoc. destruct (quote_none 34 p (u ++ [34] ++ []) (or_introl eq_refl) P) as (N1 & _). exact N1.
    - destruct H as [p u P _]. rewrite <- !app_assoc. destruct (quote_none 34 p (u ++ [34] ++ []) (or_introl eq_refl) P) as (_ & N1 & _). exact N1.
    - intro K. destruct (identifier_chars _ K _ I). contradiction. }
  assert (P : forall w, pp_number w -> In w c17_punctuators -> False).
  { intros w H I. destruct (number_first _ H) as (c & t & -> & F). destruct (punct_first _ I) as (d & u & E & _ & _ & G & _ & _ & G2).
    injection E as <- <-. destruct F as [F|(-> & d & x & -> & F)]; [congruence|]. destruct (G2 eq_refl) as [K|(u' & K)]; [discriminate|].
    injection K as -> K. discriminate. }
  assert (D : forall w k k', standard k w -> standard k' w -> k <> k' ->
    (k = KName /\ (k' = KNumber \/ k' = KPunct)) \/ (k = KChar /\ k' <> KChar) \/ (k = KString /\ k' <> KString /\ k' <> KChar) \/ (k = KNumber /\ k' = KPunct) -> False).
  { intros w k k' A B NE [(-> & K)|[(-> & K)|[(-> & K & K2)|(-> & ->)]]].
    - inversion A as [? A'| | | |]; subst. destruct (name_others _ [] A') as (N1 & N2). destruct K as [-> | ->]; eapply M; eassumption.
    - inversion A as [| |? A'| |]; subst. destruct (C _ A') as (N1 & N2 & N3 & N4).
      inversion B as [? B'|? B'|? B'|? B'|? B']; subst; try contradiction; eapply M; eassumption.
    - inversion A as [| | |? A'|]; subst. destruct (T _ A') as (N1 & N2 & N3).
      inversion B as [? B'|? B'|? B'|? B'|? B']; subst; try contradiction; eapply M; eassumption.
    - inversion A as [|? A'| | |]; subst. inversion B; subst. eauto. }
  intros w k k' A B. destruct k, k'; try reflexivity; try (inversion A; fail); try (inversion B; fail); exfalso;
    first [apply (D _ _ _ A B); [discriminate|intuition discriminate]|apply (D _ _ _ B A); [discriminate|intuition discriminate]].
Qed.
Lemma same_prefix : forall (w w' : list Z) s, starts_with s w -> starts_with s w' -> length w = length w' -> w = w'.
Proof.
  induction w as [|c w IH]; intros [|d w'] s (r & ->) (r' & E) L; cbn in *; try lia; [reflexivity|].
  injection E as <- E. f_equal. apply (IH w' (w ++ r)); [exists r; reflexivity|exists r'; exact E|lia].
Qed.
Lemma longest_unique : forall k k' w w' s, longest k w s -> longest k' w' s -> w = w' /\ k = k'.
Proof.
  intros k k' w w' s (P & T & L) (P' & T' & L'). pose proof (L _ _ T' P') as L1. pose proof (L' _ _ T P) as L2.
  assert (w = w') by (apply (same_prefix w w' s); auto; lia). subst w'. split; [reflexivity|].
  destruct T as [k w S|c N1 N2]; inversion T' as [? ? S'|? N1' N2']; subst; try reflexivity.
  - eapply kind_unique; eassumption.
  - destruct (N2' _ S).
  - destruct (N2 _ S').
Qed.
Lemma division_white : forall s l, division s l -> forall n t, white n s t -> exists l', l = IWhite n :: l' /\ division t l'.
Proof.
  intros s l D n t W. destruct D as [|n' s r l W' D|k w r l O L D].
  - apply white_shorter in W. cbn in W. lia.
  - destruct (white_unique _ _ _ W _ _ W') as [-> ->]. eauto.
  - destruct (O (white_opens _ _ _ W)).
Qed.
Lemma division_token : forall s l, division s l -> forall k w r, s = w ++ r -> ~ opens_white s -> longest k w s ->
  exists l', l = IToken k w :: l' /\ division r l'.
Proof.
  intros s l D k w r E O L. destruct D as [|n' s r' l W' D|k' w' r' l O' L' D].
  - destruct L as (_ & T & _). apply token_nonempty in T. destruct w; [contradiction|discriminate].
  - destruct (O (white_opens _ _ _ W')).
  - destruct (longest_unique _ _ _ _ _ L L') as [-> ->]. apply app_inv_head in E. subst. eauto.
Qed.
Lemma division_unique : forall s l, division s l -> forall l', division s l' -> l = l'.
Proof.
  intros s l D. induction D as [|n s r l W D IH|k w r l O L D IH]; intros l' D'.
  - inversion D' as [|? ? ? ? W|? ? ? ? O L]; subst; [reflexivity|apply white_shorter in W; cbn in W; lia|].
    exfalso. destruct L as (_ & T & _). apply token_nonempty in T. destruct w; [contradiction|discriminate].
  - destruct (division_white _ _ D' _ _ W) as (l1 & -> & D1). f_equal. auto.
  - destruct (division_token _ _ D' _ _ _ eq_refl O L) as (l1 & -> & D1). f_equal. auto.
Qed.
