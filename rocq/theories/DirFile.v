(** Proofs about the directive scanner: one directive, and whole files. *)

From Coq Require Import ZArith Bool List String Lia.
From Verif Require Import LexModel StrModel PropPunct TokModel TokSpec TokProofs TokDivide TokComplete PropTok DirModel DirSpec DirProofs DirScan DirMain.
From Verif Require CondModel.
Import ListNotations.
Open Scope Z_scope.
Local Notation length := List.length.

Definition same_tokens (ts : list ptok) (l : list item) : Prop := same_from true ts l.

(** What the scanner gives for a directive.  Pragmas are read as lines that are no
    directive; both are skipped (preprocessor.c:563-565, 571-574). *)
Inductive agree : directive -> sdir -> Prop :=
  | ag_if : forall ts l, same_tokens ts l -> agree (DvIf ts) (SIf l)
  | ag_elif : forall ts l, same_tokens ts l -> agree (DvElif ts) (SElif l)
  | ag_ifdef : forall n, agree (DvIfdef false n) (SIfdef n)
  | ag_ifndef : forall n, agree (DvIfdef true n) (SIfndef n)
  | ag_else : agree DvElse SElse
  | ag_endif : agree DvEndif SEndif
  | ag_header : forall system n, agree (DvHeader system n) (SHeader system n)
  | ag_include : forall ts l, same_tokens ts l -> agree (DvInclude ts) (SInclude l)
  | ag_define : forall n p ts l, same_tokens ts l -> trimmed ts -> agree (DvDefine n p ts) (SDefine n p l)
  | ag_undef : forall n, agree (DvUndef n) (SUndef n)
  | ag_line : forall ts l, same_tokens ts l -> agree (DvLine ts) (SLine l)
  | ag_error : forall ts l, same_tokens ts l -> agree (DvError ts) (SError l)
  | ag_empty : agree DvEmpty SEmpty
  | ag_pragma : forall ts l, agree (DvNon ts) (SPragma l)
  | ag_non : forall ts l, same_tokens ts (sign "#" :: l) -> agree (DvNon ts) (SNon l).

Lemma name_of : forall (y : list Z) a0 k v rest l' z r, map IWhite (map (fun _ => false) y) ++ l' = a0 ++ IToken k v :: rest -> whites a0 ->
  line z l' r -> good z -> ~ opens_white z ->
  exists u, z = v ++ u /\ longest k v z /\ line u rest r /\ good u /\ standard k v /\ fine k v.
Proof.
  intros y a0 k v rest l' z r E W L G O. destruct (whites_tail _ _ _ _ _ E W I) as (a1 & -> & W1).
  destruct (start_token _ _ _ L G O) as (k' & v' & u & l2 & E2 & Ez & Lo & S & F & Lu & Gu).
  destruct a1 as [|i a1]; [|inversion W1; subst; discriminate E2]. injection E2 as <- <- <-. exists u. auto 8.
Qed.

Lemma operands_line : forall mk s l r, line s l r -> good s ->
  exists ts s', at_newline (operands mk s) = Ok (mk ts, true, s') /\ same_tokens ts l /\ ahead r s' /\ good s' /\ (length s' < length s)%nat.
Proof.
  intros mk s l r L G. destruct (scan_pp_line s l r true L G) as (ts & s' & E & S & A & G' & Ls). exists ts, s'.
  unfold at_newline, operands. rewrite E. cbn [bind fst snd]. auto.
Qed.
(** The same after blanks are skipped *)
Lemma skip_ws_line : forall s l r, line s l r -> good s ->
  exists a l' x, s = x ++ CondModel.skip_ws s /\ blanks x /\ l = a ++ l' /\ whites a /\ line (CondModel.skip_ws s) l' r /\ good (CondModel.skip_ws s).
Proof.
  intros s l r L G. destruct (blank_split s) as (x & t & E & B & H). assert (K : CondModel.skip_ws s = t) by (rewrite E; now apply skip_ws_blanks). rewrite K. rewrite E in L, G.
  destruct (line_whites_chain _ _ _ (blank_chain x t B) _ _ L (falses x)) as (l' & -> & L'). exists (map IWhite (map (fun _ => false) x)), l', x.
  split; [exact E|]. split; [exact B|]. split; [reflexivity|]. split; [apply map_whites, falses|]. split; [exact L'|].
  exact (good_chain _ _ _ (blank_chain x t B) G).
Qed.
Lemma operands_skip_line : forall mk s l r, line s l r -> good s ->
  exists ts s', at_newline (operands mk (CondModel.skip_ws s)) = Ok (mk ts, true, s') /\ same_tokens ts l /\ ahead r s' /\ good s' /\ (length s' < length s)%nat.
Proof.
  intros mk s l r L G. destruct (skip_ws_line _ _ _ L G) as (a & l' & x & E & _ & -> & W & L' & G').
  destruct (operands_line mk _ _ _ L' G') as (ts & s' & E' & S & A & G'' & Ls). exists ts, s'. split; [exact E'|]. split; [now apply same_skip|].
  repeat split; auto. rewrite E, app_length. lia.
Qed.

Lemma name_skip_line : forall s u b n c r, line u (b ++ IToken KName n :: c) r -> whites b -> good u -> suffix u s -> one_line s r ->
  name_then_skip u = Ok (n, r).
Proof.
  intros s u b n c r L W G Su O. destruct (skip_token _ _ _ _ _ _ L W G) as (t & s' & E & R & L' & G' & Ls & F).
  rewrite (reads_name _ _ R F) in E. unfold name_then_skip. rewrite E. cbn [bind fst snd]. unfold skip_whitespaces in E. apply skip_suffix in E.
  rewrite (skip_line_rest s r s' O); [reflexivity|eapply suffix_trans; eassumption|eapply line_shorter, L'].
Qed.

Lemma line_tokens : forall h, Forall is_token h -> forall s c r, line s (h ++ c) r -> exists t, s = List.concat (map spelling_of h) ++ t /\ line t c r.
Proof.
  induction 1 as [|i h T H IH]; intros s c r L; [exists s; auto|]. destruct i as [b|k w]; [destruct T|]. cbn [app] in L.
  inversion L as [| |k' w' t l r' O Lo L']; subst. destruct (IH _ _ _ L') as (t' & -> & Lt). exists t'. split; [|exact Lt].
  cbn [map spelling_of List.concat]. now rewrite app_assoc.
Qed.

Lemma header_no_match : forall c t, c <> 60 -> c <> 34 -> match_header (c :: t) = NoMatch.
Proof. intros c t N1 N2. unfold match_header. replace (c =? 60) with false by lia. replace (c =? 34) with false by lia. reflexivity. Qed.

Lemma directive_step : forall s a w l d r, line s (a ++ IToken KPunct w :: l) r -> whites a -> introducer w -> directive_line l d ->
  plain_directive s d r -> good s ->
  exists dv s', scan_next true s = Ok (dv, true, s') /\ agree dv d /\ (ahead r s' \/ s' = 10 :: r) /\ good s' /\ (length s' < length s)%nat.
Proof.
  intros s a w l d r L Wa Iw D (x & y & z & Es & Bx & By & Hz & NG & Hd) G.
  destruct (behind_hash s a w l r x y z L Wa Iw G Es Bx By) as (l' & El & Lz & Gz & Lh & Gh).
  assert (Gr : good r) by (eapply good_line; eassumption).
  assert (Lr : (length r < length s)%nat) by (eapply line_shorter, L).
  assert (Lzs : (length z < length s)%nat). { rewrite Es, app_length. cbn. rewrite app_length. lia. }
  assert (Sz : suffix z s). { exists (x ++ 35 :: y). rewrite Es, <- app_assoc. reflexivity. }
  (* the operands of a known directive *)
  assert (KN : forall (nm : string) dt a0 rest, l = a0 ++ name nm :: rest -> whites a0 -> ~ opens_white z -> In (text nm) c17_directives ->
    CondModel.find_known CondModel.known (text nm) = Some dt ->
    exists u, z = text nm ++ u /\ CondModel.match_directive s = (dt, u) /\ line u rest r /\ good u /\ suffix u s /\ (length u < length s)%nat).
  { intros nm dt a0 rest E W O I K. rewrite E in El. symmetry in El. destruct (name_of y _ _ _ _ _ _ _ El W Lz Gz O) as (u & Ez & Lo & Lu & Gu & _).
    exists u. split; [exact Ez|]. rewrite Es. rewrite Ez in *. split; [now apply known_match|]. split; [exact Lu|]. split; [exact Gu|].
    split; [|rewrite !app_length; cbn; rewrite !app_length; lia].
    exists (x ++ 35 :: y ++ text nm). rewrite <- app_assoc. cbn. rewrite <- !app_assoc. reflexivity. }
  destruct D as [a0 l0 W|a0 l0 W|a0 b n c W Wb Wc|a0 b n c W Wb Wc|a0 b W Wb|a0 b W Wb|a0 b h c system n W Wb Wc Th Hn|a0 b k c0 w0 l0 W Wb N60 N34|a0 b n l0 W Wb Hl
    |a0 b n p ns v l0 W Wb P ND|a0 b n c W Wb Wc|a0 l0 W|a0 l0 W|a0 l0 W|a0 W|a0 k w0 l0 W NK].
  - destruct (KN "if"%string _ _ _ eq_refl W Hz ltac:(cbn; tauto) eq_refl) as (u & Ez & M & Lu & Gu & Su & Ls). unfold scan_next. rewrite M.
    destruct (operands_line DvIf _ _ _ Lu Gu) as (ts & s' & E & S & A & G' & Ls'). exists (DvIf ts), s'. split; [exact E|]. split; [now constructor|].
    repeat split; auto. lia.
  - destruct (KN "elif"%string _ _ _ eq_refl W Hz ltac:(cbn; tauto) eq_refl) as (u & Ez & M & Lu & Gu & Su & Ls). unfold scan_next. rewrite M.
    destruct (operands_line DvElif _ _ _ Lu Gu) as (ts & s' & E & S & A & G' & Ls'). exists (DvElif ts), s'. split; [exact E|]. split; [now constructor|].
    repeat split; auto. lia.
  - destruct (KN "ifdef"%string _ _ _ eq_refl W Hz ltac:(cbn; tauto) eq_refl) as (u & Ez & M & Lu & Gu & Su & Ls). unfold scan_next. rewrite M.
    rewrite (name_skip_line _ _ _ _ _ _ Lu Wb Gu Su Hd). exists (DvIfdef false n), r. split; [reflexivity|]. split; [constructor|].
    split; [left; left; reflexivity|]. auto.
  - destruct (KN "ifndef"%string _ _ _ eq_refl W Hz ltac:(cbn; tauto) eq_refl) as (u & Ez & M & Lu & Gu & Su & Ls). unfold scan_next. rewrite M.
    rewrite (name_skip_line _ _ _ _ _ _ Lu Wb Gu Su Hd). exists (DvIfdef true n), r. split; [reflexivity|]. split; [constructor|].
    split; [left; left; reflexivity|]. auto.
  - destruct (KN "else"%string _ _ _ eq_refl W Hz ltac:(cbn; tauto) eq_refl) as (u & Ez & M & Lu & Gu & Su & Ls). unfold scan_next. rewrite M.
    rewrite (skip_line_rest s r u Hd Su) by (eapply line_shorter, Lu). exists DvElse, r. split; [reflexivity|]. split; [constructor|].
    split; [left; left; reflexivity|]. auto.
  - destruct (KN "endif"%string _ _ _ eq_refl W Hz ltac:(cbn; tauto) eq_refl) as (u & Ez & M & Lu & Gu & Su & Ls). unfold scan_next. rewrite M.
    rewrite (skip_line_rest s r u Hd Su) by (eapply line_shorter, Lu). exists DvEndif, r. split; [reflexivity|]. split; [constructor|].
    split; [left; left; reflexivity|]. auto.
  - destruct (KN "include"%string _ _ _ eq_refl W Hz ltac:(cbn; tauto) eq_refl) as (u & Ez & M & Lu & Gu & Su & Ls). unfold scan_next. rewrite M.
    destruct Hd as (O1 & An & u0 & v0 & Ez' & Bu & Ov). rewrite Ez in Ez'. apply app_inv_head in Ez'. subst u.
    unfold next_include. rewrite skip_ws_blanks; [|exact Bu|now apply blank_not_open].
    destruct (line_whites_chain _ _ _ (blank_chain u0 v0 Bu) _ _ Lu (falses u0)) as (l2 & E2 & L2).
    assert (L3 : line v0 (h ++ c) r).
    { destruct h as [|i h]; [exfalso; cbn in Hn; inversion Hn as [m N0 N1 N2 Em|m N0 N1 N2 Em]; subst; discriminate|].
      assert (Ti : is_token i) by (inversion Th; assumption). cbn [app] in E2 |- *. symmetry in E2. destruct (whites_tail _ _ _ _ _ E2 Wb Ti) as (b' & -> & Wb').
      destruct b' as [|j b']; [exact L2|]. exfalso. inversion Wb'; subst. inversion L2 as [|? ? ? ? W' _|]; subst. exact (Ov (white_opens _ _ _ W')). }
    destruct (line_tokens h Th _ _ _ L3) as (t & -> & Lt). rewrite (c58_header _ _ _ t Hn An).
    rewrite (skip_line_rest s r t O1); [|eapply suffix_trans; [|exact Su]; eexists; rewrite app_assoc; reflexivity|eapply line_shorter, Lt].
    exists (DvHeader system n), r. split; [reflexivity|]. split; [constructor|]. split; [left; left; reflexivity|]. auto.
  - destruct (KN "include"%string _ _ _ eq_refl W Hz ltac:(cbn; tauto) eq_refl) as (u & Ez & M & Lu & Gu & Su & Ls). unfold scan_next. rewrite M.
    unfold next_include. destruct (skip_ws_line _ _ _ Lu Gu) as (b1 & l1 & x1 & E1 & _ & E2 & Wb1 & L1 & G1).
    assert (NM : match_header (CondModel.skip_ws u) = NoMatch).
    { destruct (CondModel.skip_ws u) as [|c1 t1]; [reflexivity|]. inversion L1 as [s1 r1 W1|s1 t2 l2 r1 W1 L2|k1 w1 t2 l2 r1 O1 Lo1 L2]; subst.
      - apply header_no_match; intros ->; apply white_opens, opens_head in W1; destruct W1 as [W1|W1]; cbn in W1; lia.
      - apply header_no_match; intros ->; apply white_opens, opens_head in W1; destruct W1 as [W1|W1]; cbn in W1; lia.
      - assert (K : IToken k1 w1 = IToken k (c0 :: w0)).
        { assert (Q : b1 ++ IToken k1 w1 :: l2 = b ++ IToken k (c0 :: w0) :: l0) by (symmetry; exact E2). clear - Q Wb Wb1. revert b Q Wb.
          induction Wb1 as [|i b1 -> Wb1 IH]; intros [|j b] Q Wb; cbn in Q.
          - injection Q as <- <- <-. reflexivity.
          - inversion Wb; subst. discriminate Q.
          - discriminate Q.
          - injection Q as _ Q. inversion Wb; subst. eauto. }
        injection K as -> ->. match goal with H : (c0 :: w0) ++ t2 = c1 :: t1 |- _ => injection H as <- _ end. now apply header_no_match. }
    rewrite NM. destruct (scan_pp_line _ _ _ true L1 G1) as (ts & s' & E & S & A & G' & Ls'). rewrite E. cbn [bind fst snd at_newline].
    exists (DvInclude ts), s'. split; [reflexivity|]. split; [constructor; rewrite E2; now apply same_skip|]. repeat split; auto.
    rewrite E1, app_length in Ls. lia.
  - destruct (KN "define"%string _ _ _ eq_refl W Hz ltac:(cbn; tauto) eq_refl) as (u & Ez & M & Lu & Gu & Su & Ls). unfold scan_next. rewrite M.
    destruct (define_object _ _ _ _ _ Lu Wb Hl Gu) as (ts & s' & E & S & T & A & G' & Ls'). rewrite E. exists (DvDefine n None ts), s'.
    split; [reflexivity|]. split; [now constructor|]. repeat split; auto. lia.
  - destruct (KN "define"%string _ _ _ eq_refl W Hz ltac:(cbn; tauto) eq_refl) as (u & Ez & M & Lu & Gu & Su & Ls). unfold scan_next. rewrite M.
    destruct (define_function _ _ _ _ _ _ _ _ Lu Wb P Gu) as (ts & s' & E & S & T & A & G' & Ls'). rewrite E. exists (DvDefine n (Some (ns, v)) ts), s'.
    split; [reflexivity|]. split; [now constructor|]. repeat split; auto. lia.
  - destruct (KN "undef"%string _ _ _ eq_refl W Hz ltac:(cbn; tauto) eq_refl) as (u & Ez & M & Lu & Gu & Su & Ls). unfold scan_next. rewrite M.
    rewrite (name_skip_line _ _ _ _ _ _ Lu Wb Gu Su Hd). exists (DvUndef n), r. split; [reflexivity|]. split; [constructor|].
    split; [left; left; reflexivity|]. auto.
  - destruct (KN "line"%string _ _ _ eq_refl W Hz ltac:(cbn; tauto) eq_refl) as (u & Ez & M & Lu & Gu & Su & Ls). unfold scan_next. rewrite M.
    destruct (operands_skip_line DvLine _ _ _ Lu Gu) as (ts & s' & E & S & A & G' & Ls'). exists (DvLine ts), s'. split; [exact E|]. split; [now constructor|].
    repeat split; auto. lia.
  - destruct (KN "error"%string _ _ _ eq_refl W Hz ltac:(cbn; tauto) eq_refl) as (u & Ez & M & Lu & Gu & Su & Ls). unfold scan_next. rewrite M.
    destruct (operands_skip_line DvError _ _ _ Lu Gu) as (ts & s' & E & S & A & G' & Ls'). exists (DvError ts), s'. split; [exact E|]. split; [now constructor|].
    repeat split; auto. lia.
  - symmetry in El. destruct (name_of y _ _ _ _ _ _ _ El W Lz Gz Hz) as (u & Ez & Lo & Lu & Gu & Sk & _).
    assert (M : CondModel.match_directive s = (CondModel.DNon, 35 :: y ++ z)).
    { rewrite Es. apply (unknown_match x y z KName (text "pragma") u); auto.
      - intros dt [_ I]. apply known_names in I as (_ & _ & I). now apply I.
      - rewrite Ez. discriminate. }
    unfold scan_next. rewrite M. destruct (operands_line DvNon _ _ _ Lh Gh) as (ts & s' & E & S & A & G' & Ls'). exists (DvNon ts), s'.
    split; [exact E|]. split; [constructor|]. repeat split; auto. rewrite Es, app_length. lia.
  - destruct Hz as (t & ->). cbn [app] in *. assert (Wt : white true (10 :: t) t) by (apply (wh_char 10); cbn; tauto).
    destruct (line_white _ _ _ Lz _ _ Wt) as [(_ & -> & ->)|(K & _)]; [|discriminate K].
    unfold scan_next. rewrite Es. rewrite match_hash; [|exact Bx|exact By|intros c1 u1 K; injection K as <- _; intros [_ N]; now apply N].
    cbn. exists DvEmpty, (10 :: r). split; [reflexivity|]. split; [constructor|]. split; [right; reflexivity|]. split; [exact Gz|].
    rewrite app_length. cbn. rewrite app_length. cbn. lia.
  - pose proof El as El'. symmetry in El. destruct (name_of y _ _ _ _ _ _ _ El W Lz Gz Hz) as (u & Ez & Lo & Lu & Gu & Sk & _).
    assert (M : CondModel.match_directive s = (CondModel.DNon, 35 :: y ++ z)).
    { rewrite Es. apply (unknown_match x y z k w0 u); auto.
      - intros dt [-> I]. apply NK. split; [reflexivity|]. now apply known_names in I.
      - destruct z as [|c1 z]; [discriminate|]. intros K. change (c1 = 10) in K. subst c1. apply Hz. left. exists 10, z. split; [reflexivity|cbn; tauto]. }
    unfold scan_next. rewrite M. destruct (operands_line DvNon _ _ _ Lh Gh) as (ts & s' & E & S & A & G' & Ls'). exists (DvNon ts), s'.
    split; [exact E|]. split; [constructor; exact S|]. repeat split; auto. rewrite Es, app_length. lia.
Qed.

(** ** Files *)

Definition odir (d : directive) : option (bool * (ptok + directive)) :=
  match d with
  | DvToken (TkSpace _) => None
  | DvToken t => Some (false, inl t)
  | _ => Some (true, inr d)
  end.
Definition oelem (e : elem) : option (bool * ((kind * list Z) + sdir)) :=
  match e with
  | EWhite => None
  | EToken k w => Some (false, inl (k, w))
  | EDirective d => Some (true, inr d)
  end.
Definition same_elem (x : bool * (ptok + directive)) (y : bool * ((kind * list Z) + sdir)) : Prop :=
  fst x = fst y /\
  match snd x, snd y with
  | inl t, inl (k, w) => reads t k w
  | inr d, inr e => agree d e
  | _, _ => False
  end.
Definition same_file (ds : list directive) (es : list elem) : Prop :=
  Forall2 same_elem (spaced true (map odir ds)) (spaced true (map oelem es)).
Definition plain_source : list Z -> list elem -> Prop := source plain_text plain_directive.

Lemma spaced_elem_whites : forall bs b l, bs <> [] -> spaced b (map oelem (map elem_of (map IWhite bs) ++ l)) = spaced true (map oelem l).
Proof.
  induction bs as [|x bs IH]; intros b l N; [contradiction|]. cbn [map app elem_of oelem spaced]. destruct bs as [|y bs]; [reflexivity|].
  apply (IH true l). discriminate.
Qed.
Lemma spaced_elem_white : forall l e b, whites l -> spaced b (map oelem (map elem_of l ++ EWhite :: e)) = spaced true (map oelem e).
Proof. induction l as [|i l IH]; intros e b W; [reflexivity|]. inversion W; subst. cbn. now apply IH. Qed.

Lemma ahead_source : forall r e s', plain_source r e -> ahead r s' ->
  exists e', plain_source s' e' /\ spaced true (map oelem e) = spaced true (map oelem e').
Proof.
  intros r e s' S [->|(C & bs & Ch & N)]; [exists e; auto|]. inversion S as [E|s l r1 e1 L NI PT S1|s a w l d r1 e1 L Wa Iw D PD S1]; subst.
  - discriminate C.
  - assert (K : forall bs t, chain bs r t -> ~ In true bs -> exists l', l = map IWhite bs ++ l' /\ line t l' r1 /\ ~ first introducer l' /\ plain_text l').
    { intros bs0 t Ch0 N0. destruct (line_whites_chain _ _ _ Ch0 _ _ L N0) as (l' & -> & L'). exists l'. split; [reflexivity|]. split; [exact L'|].
      split; intro F; [apply NI|apply PT]; now apply first_white. }
    destruct N as [N|(bs' & -> & N)].
    + destruct (K _ _ Ch N) as (l' & -> & L' & NI' & PT'). exists (map elem_of l' ++ EWhite :: e1). split; [now apply so_text with r1|].
      rewrite (map_app elem_of), <- app_assoc. destruct bs as [|b bs]; [reflexivity|]. apply spaced_elem_whites. discriminate.
    + assert (Sp : exists t, chain bs' r t /\ white true t s').
      { clear - Ch. remember (bs' ++ [true]) as bs eqn:Q. revert bs' Q. induction Ch as [s|n bs s t u W Ch IH]; intros bs' Q; [destruct bs'; discriminate|].
        destruct bs' as [|b bs'].
        - injection Q as -> ->. inversion Ch; subst. exists s. split; [constructor|exact W].
        - injection Q as <- Q. destruct (IH _ Q) as (v & C1 & C2). exists v. split; [econstructor; eassumption|exact C2]. }
      destruct Sp as (t & C1 & W1). destruct (K _ _ C1 N) as (l' & -> & L' & _). destruct (line_white _ _ _ L' _ _ W1) as [(_ & -> & ->)|(F & _)]; [|discriminate F].
      exists e1. split; [exact S1|]. try rewrite app_nil_r. apply spaced_elem_white. now apply map_whites.
  - exfalso. destruct PD as (x & y & z & -> & Bx & _). destruct Bx as [|c x [Bc _] _]; [discriminate C|]. cbn in C. subst c. cbn in Bc. lia.
Qed.

Lemma text_step : forall fuel,
  (forall s e, plain_source s e -> good s -> (length s < fuel)%nat -> exists ds, scan_all fuel true s = Ok ds /\ same_file ds e) ->
  (forall b s l r e, line s l r -> plain_source r e -> good s -> (length s < fuel)%nat -> exists ds, scan_all fuel false s = Ok ds /\
     Forall2 same_elem (spaced b (map odir ds)) (spaced b (map oelem (map elem_of l ++ EWhite :: e)))) ->
  forall b flag s l r e, scan_next flag s = next_pp_token s -> line s l r -> plain_source r e -> good s -> (length s < S fuel)%nat ->
  exists ds, scan_all (S fuel) flag s = Ok ds /\ Forall2 same_elem (spaced b (map odir ds)) (spaced b (map oelem (map elem_of l ++ EWhite :: e))).
Proof.
  intros fuel P1 P2 b flag s l r e Q L Se G Lt. cbn [scan_all]. rewrite Q. unfold next_pp_token.
  destruct (next_in_line _ _ _ L G) as [(k & w & t & l' & s' & -> & -> & N & R & L' & G' & Ls & _)|[(bs & l' & s' & B & B' & -> & N & L' & G' & Ls)|(s' & W & N & A & G' & Ls)]];
    rewrite N; cbn [bind fst snd].
  - destruct (P2 false s' l' r e L' Se G' ltac:(lia)) as (ds & E & S). exists (DvToken t :: ds).
    pose proof (reads_not_end _ _ _ R) as K. split; [destruct t; try contradiction; cbn [bind]; rewrite E; reflexivity|].
    assert (O : odir (DvToken t) = Some (false, inl t)) by (destruct t; try contradiction; reflexivity).
    cbn [map app elem_of oelem spaced]. rewrite O. cbn [spaced]. rewrite orb_false_r. constructor; [split; [reflexivity|exact R]|exact S].
  - destruct (P2 true s' l' r e L' Se G' ltac:(lia)) as (ds & E & S). rewrite E. exists (DvToken (TkSpace false) :: ds). split; [reflexivity|].
    rewrite (map_app elem_of), <- app_assoc, spaced_elem_whites by exact B. exact S.
  - destruct (ahead_source _ _ _ Se A) as (e' & Se' & Eq). destruct (P1 s' e' Se' G' ltac:(lia)) as (ds & E & S). rewrite E.
    exists (DvToken (TkSpace true) :: ds). split; [reflexivity|]. rewrite spaced_elem_white by exact W. rewrite Eq. exact S.
Qed.

Lemma scan_both : forall fuel,
  (forall s e, plain_source s e -> good s -> (length s < fuel)%nat -> exists ds, scan_all fuel true s = Ok ds /\ same_file ds e) /\
  (forall b s l r e, line s l r -> plain_source r e -> good s -> (length s < fuel)%nat -> exists ds, scan_all fuel false s = Ok ds /\
     Forall2 same_elem (spaced b (map odir ds)) (spaced b (map oelem (map elem_of l ++ EWhite :: e)))).
Proof.
  induction fuel as [|fuel [P1 P2]]; [split; intros; lia|]. split.
  - intros s e S G Lt. pose proof S as S0. inversion S0 as [E|s0 l r1 e1 L NI PT S1|s0 a w l d r1 e1 L Wa Iw D PD S1]; subst.
    + exists []. split; [reflexivity|constructor].
    + apply (text_step fuel P1 P2 true true s l r1 e1); auto. unfold scan_next. rewrite (text_match _ _ _ L G NI PT). reflexivity.
    + destruct (directive_step _ _ _ _ _ _ L Wa Iw D PD G) as (dv & s' & E & A & C & G' & Ls). cbn [scan_all]. rewrite E. cbn [bind fst snd].
      assert (K : exists e', plain_source s' e' /\ spaced true (map oelem e1) = spaced true (map oelem e')).
      { destruct C as [C| ->]; [eapply ahead_source; eassumption|]. exists (EWhite :: e1). split; [|reflexivity].
        apply (so_text _ _ (10 :: r1) [] r1 e1); [constructor; apply (wh_char 10); cbn; tauto| | |exact S1]; intros (b & v & l2 & _ & K & _); destruct b; discriminate K. }
      destruct K as (e' & Se' & Eq). destruct (P1 s' e' Se' G' ltac:(lia)) as (ds & E' & S'). rewrite E'. exists (dv :: ds).
      split; [destruct A; reflexivity|]. unfold same_file in *. cbn [map oelem spaced]. rewrite Eq.
      assert (O : odir dv = Some (true, inr dv)) by (destruct A; reflexivity). rewrite O. cbn [spaced]. constructor; [split; [reflexivity|exact A]|exact S'].
  - intros b s l r e L Se G Lt. apply (text_step fuel P1 P2 b false s l r e); auto.
Qed.

Lemma scan_file_plain : forall s items e, division s items -> all_fine items -> plain_source s e ->
  exists ds, scan_file s = Ok ds /\ same_file ds e.
Proof.
  intros s items e D F S. destruct (scan_both (Datatypes.S (length s))) as [P _]. apply P; [exact S|exists items; auto|lia].
Qed.
