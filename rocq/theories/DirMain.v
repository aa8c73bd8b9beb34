(** Proofs about the directive scanner: recognition of directives, and whole files. *)

From Coq Require Import ZArith Bool List String Lia.
From Verif Require Import LexModel StrModel PropPunct TokModel TokSpec TokProofs TokDivide TokComplete DirModel DirSpec DirProofs DirScan.
From Verif Require CondModel.
Import ListNotations.
Open Scope Z_scope.
Local Notation length := List.length.

(** ** The rest of a line *)

Definition suffix (t s : list Z) : Prop := exists p, s = p ++ t.
Lemma suffix_refl : forall s, suffix s s.
Proof. intro s. now exists []. Qed.
Lemma suffix_trans : forall a b c, suffix a b -> suffix b c -> suffix a c.
Proof. intros a b c (p & ->) (q & ->). exists (q ++ p). now rewrite app_assoc. Qed.
Lemma white_suffix : forall n s t, white n s t -> suffix t s.
Proof.
  intros n s t [c r H|x r _|x r _ _]; [now exists [c]|exists (text "/*" ++ x ++ text "*/"); now rewrite <- !app_assoc|].
  exists (text "//" ++ x). now rewrite <- app_assoc.
Qed.
Lemma chain_suffix : forall bs s t, chain bs s t -> suffix t s.
Proof. intros bs s t H. induction H as [s|n bs s t u W C IH]; [apply suffix_refl|]. eapply suffix_trans; [exact IH|]. eapply white_suffix, W. Qed.
Lemma next_suffix : forall s t r, next_token s = Ok (t, r) -> suffix r s.
Proof. intros s t r H. apply next_token_sound in H. destruct H as [|l s r _ C|t w r _ _ _]; [apply suffix_refl|eapply chain_suffix, C|now exists w]. Qed.
Lemma skip_suffix : forall fuel s t r, skip_white fuel s = Ok (t, r) -> suffix r s.
Proof.
  induction fuel as [|fuel IH]; intros s t r H; [discriminate H|]. cbn [skip_white] in H.
  destruct (next_token s) as [[u v]| | |] eqn:N; try discriminate H. cbn [bind fst snd] in H. apply next_suffix in N.
  destruct u as [[]| | | | | |]; try (injection H as <- <-; exact N). eapply suffix_trans; [eapply IH, H|exact N].
Qed.
Lemma skip_line_rest : forall s r c, one_line s r -> suffix c s -> (length r < length c)%nat -> CondModel.skip_line c = r.
Proof.
  intros s r c (z & -> & N10 & N0) (p & E) Lt. assert (Q : exists z', c = z' ++ 10 :: r /\ (forall x, In x z' -> In x z)).
  { apply app_eq_app in E as (y & [[E1 E2]|[E1 E2]]).
    - exists y. split; [exact E2|]. intros x I. rewrite E1. apply in_or_app. auto.
    - destruct y as [|a y]; [exists []; cbn in E2; split; [now rewrite E2|intros x []]|].
      exfalso. apply (f_equal (@length Z)) in E2. rewrite app_length in E2. cbn in E2. lia. }
  destruct Q as (z' & -> & I). assert (M10 : ~ In 10 z') by auto. assert (M0 : ~ In 0 z') by auto. clear - M10 M0.
  induction z' as [|x z' IH]; [reflexivity|]. cbn in *. unfold newline. replace (x =? 0) with false by lia. replace (x =? 10) with false by lia.
  apply IH; tauto.
Qed.

(** ** Blanks *)

Lemma blank_chain : forall x s, blanks x -> chain (map (fun _ => false) x) (x ++ s) s.
Proof.
  intros x s B. induction B as [|c x [W N] B IH]; [constructor|]. cbn. econstructor; [|exact IH].
  replace false with (c =? 10) by lia. now constructor.
Qed.
Lemma falses : forall (x : list Z), ~ In true (map (fun _ => false) x).
Proof. intros x I. apply in_map_iff in I as (c & K & _). discriminate K. Qed.
Lemma skip_ws_blanks : forall x t, blanks x -> (forall c u, t = c :: u -> ~ blank c) -> CondModel.skip_ws (x ++ t) = t.
Proof.
  intros x t B H. induction B as [|c x [W N] B IH].
  - destruct t as [|c t]; [reflexivity|]. cbn. destruct (CondModel.is_space c && negb (c =? newline)) eqn:E; [|reflexivity]. exfalso.
    apply andb_true_iff in E as [E1 E2]. apply (H c t eq_refl). split; [apply white_iff, E1|]. unfold newline in E2. lia.
  - cbn. apply white_iff in W. change (CondModel.is_space c) with (is_space c). rewrite W. unfold newline. replace (c =? 10) with false by lia. exact IH.
Qed.
Lemma blank_split : forall s, exists x t, s = x ++ t /\ blanks x /\ forall c u, t = c :: u -> ~ blank c.
Proof.
  induction s as [|c s (x & t & -> & B & H)]; [exists [], []; split; [reflexivity|split; [constructor|discriminate]]|].
  destruct (is_space c && negb (c =? 10)) eqn:E.
  - exists (c :: x), t. split; [reflexivity|]. split; [|exact H]. constructor; [|exact B]. apply andb_true_iff in E as [E1 E2].
    split; [now apply white_iff|lia].
  - exists [], (c :: x ++ t). split; [reflexivity|]. split; [constructor|]. intros d u K. injection K as <- _. intros [W N].
    apply white_iff in W. rewrite W in E. replace (c =? 10) with false in E by lia. discriminate E.
Qed.

(** ** The first character of a token *)

Lemma standard_head : forall k w, standard k w -> exists c t, w = c :: t /\ c <> 0 /\ (c = 35 -> k = KPunct /\ (w = text "#" \/ w = text "##")).
Proof.
  intros k w S. destruct S as [w H|w H|w H|w H|w H].
  - destruct (name_first _ H) as (c & t & -> & K). exists c, t. split; [reflexivity|]. destruct K as [K|K]; [|split; lia].
    split; intro E; subst c; discriminate K.
  - destruct (number_first _ H) as (c & t & -> & K). exists c, t. split; [reflexivity|]. destruct K as [K|(K & _)]; [|split; lia].
    split; intro E; subst c; discriminate K.
  - destruct (char_first _ H) as (p & t & P & ->). cbn in P. destruct P as [<-|[<-|[<-|[<-|[]]]]]; eexists _, _; (split; [reflexivity|split; lia]).
  - destruct (string_first _ H) as (p & t & P & ->). cbn in P. destruct P as [<-|[<-|[<-|[<-|[<-|[]]]]]]; eexists _, _; (split; [reflexivity|split; lia]).
  - assert (A : forallb (fun w => match w with
        | c :: t => negb (c =? 0) && (negb (c =? 35) || (match t with [] => true | [d] => d =? 35 | _ => false end)) | [] => false end) c17_punctuators = true)
      by (vm_compute; reflexivity).
    rewrite forallb_forall in A. specialize (A _ H). destruct w as [|c t]; [discriminate A|]. exists c, t. split; [reflexivity|].
    apply andb_true_iff in A as [A1 A2]. split; [lia|]. intros ->. split; [reflexivity|]. cbn in A2. destruct t as [|d [|e t]]; [left; reflexivity| |discriminate A2].
    right. apply Z.eqb_eq in A2. now subst.
Qed.

(** A line that starts with no white space starts with a token. *)
Lemma start_token : forall s l r, line s l r -> good s -> ~ opens_white s ->
  exists k w u l', l = IToken k w :: l' /\ s = w ++ u /\ longest k w s /\ standard k w /\ fine k w /\ line u l' r /\ good u.
Proof.
  intros s l r L G O. destruct (line_token_inv _ _ _ L O) as (k & w & u & l' & E & -> & Lo & L').
  exists k, w, u, l'. assert (F : fine k w).
  { destruct G as (items & D & F). destruct (division_token _ _ D _ _ _ E O Lo) as (i & -> & D'). exact (proj1 F). }
  split; [reflexivity|]. split; [exact E|]. split; [exact Lo|]. split; [exact (longest_standard _ _ _ Lo (fine_kind _ _ F))|]. split; [exact F|].
  split; [exact L'|]. subst s. eapply good_token; eauto.
Qed.
Lemma not_open : forall c t, ~ white_char c -> c <> 47 -> ~ opens_white (c :: t).
Proof. intros c t W N O. apply opens_head in O. tauto. Qed.

Lemma first_white : forall p bs l, ~ In true bs -> first p l -> first p (map IWhite bs ++ l).
Proof.
  intros p bs l N (a & w & l' & W & -> & P). exists (map IWhite bs ++ a), w, l'. split; [|split; [now rewrite app_assoc|exact P]].
  apply Forall_app. split; [now apply map_whites|exact W].
Qed.

Lemma text_match : forall s l r, line s l r -> good s -> ~ first introducer l -> plain_text l -> CondModel.match_directive s = (CondModel.DPpToken, s).
Proof.
  intros s l r L G NI PT. destruct (blank_split s) as (x & t & -> & B & H).
  destruct (line_whites_chain _ _ _ (blank_chain x t B) _ _ L (falses x)) as (l' & -> & L').
  pose proof (good_chain _ _ _ (blank_chain x t B) G) as G'. unfold CondModel.match_directive. rewrite skip_ws_blanks by assumption.
  destruct t as [|c u]; [apply line_shorter in L'; cbn in L'; lia|].
  destruct (Z.eq_dec c 35) as [->|N35].
  - exfalso. destruct (start_token _ _ _ L' G') as (k & w & v & l2 & -> & E & _ & S & _); [apply not_open; [cbn; lia|lia]|].
    destruct (standard_head _ _ S) as (c & t & -> & _ & K). injection E as <- _. destruct (K eq_refl) as (-> & K').
    assert (F : first (fun w => w = 35 :: t) (map IWhite (map (fun _ => false) x) ++ IToken KPunct (35 :: t) :: l2)).
    { apply first_white; [apply falses|]. exists [], (35 :: t), l2. split; [constructor|auto]. }
    destruct F as (a & w & l3 & Wa & Ea & ->). destruct K' as [K'|K'].
    + apply NI. exists a, (35 :: t), l3. split; [exact Wa|]. split; [exact Ea|]. left. exact K'.
    + apply PT. exists a, (35 :: t), l3. auto.
  - destruct (Z.eq_dec c 0) as [->|N0].
    + exfalso. destruct (start_token _ _ _ L' G') as (k & w & v & l2 & -> & E & _ & S & _); [apply not_open; [cbn; lia|lia]|].
      destruct (standard_head _ _ S) as (c & t & -> & K & _). injection E as <- _. contradiction.
    + replace (c =? 0) with false by lia. replace (c =? 35) with false by lia. reflexivity.
Qed.

(** ** The name of a directive *)

Lemma blank_not_open : forall z, ~ opens_white z -> forall c u, z = c :: u -> ~ blank c.
Proof. intros z O c u -> [W _]. apply O. left. eauto. Qed.

Lemma scan_name_exact : forall v n u, forallb is_nondigit v = true -> (length v < n)%nat -> is_nondigit (char_at u 0) = false ->
  CondModel.scan_name n (v ++ u) = (v, u).
Proof.
  induction v as [|c v IH]; intros n u F Lt K.
  - destruct n as [|n]; [cbn in Lt; lia|]. destruct u as [|c u]; [reflexivity|]. cbn. change (CondModel.is_nondigit c) with (is_nondigit c).
    cbn in K. rewrite K. reflexivity.
  - cbn in F. apply andb_true_iff in F as [F1 F2]. destruct n as [|n]; [cbn in Lt; lia|]. cbn. change (CondModel.is_nondigit c) with (is_nondigit c).
    rewrite F1, IH; [reflexivity|exact F2|cbn in Lt; lia|exact K].
Qed.
Lemma scan_name_read : forall n z v u, CondModel.scan_name n z = (v, u) -> z = v ++ u /\ forallb is_nondigit v = true /\
  (length v = n \/ is_nondigit (char_at u 0) = false).
Proof.
  induction n as [|n IH]; intros z v u H; [injection H as <- <-; auto|]. destruct z as [|c z]; [injection H as <- <-; auto|].
  cbn in H. change (CondModel.is_nondigit c) with (is_nondigit c) in H. destruct (is_nondigit c) eqn:E.
  - destruct (CondModel.scan_name n z) as [w r] eqn:K. injection H as <- <-. destruct (IH _ _ _ K) as (-> & F & C).
    split; [reflexivity|]. split; [cbn; now rewrite E, F|]. destruct C as [C|C]; [left; cbn; congruence|auto].
  - injection H as <- <-. auto.
Qed.
Lemma same_text_eq : forall a b, CondModel.same_text a b = true <-> a = b.
Proof.
  induction a as [|x a IH]; intros [|y b]; cbn; split; try discriminate; try reflexivity.
  - intro H. apply andb_true_iff in H as [H1 H2]. apply IH in H2. apply Z.eqb_eq in H1. now subst.
  - intro H. injection H as -> H. rewrite Z.eqb_refl. cbn. now apply IH.
Qed.
Lemma find_known_in : forall l w d, CondModel.find_known l w = Some d -> In (w, d) l.
Proof.
  induction l as [|[k e] l IH]; intros w d H; [discriminate|]. cbn in H. destruct (CondModel.same_text k w) eqn:E.
  - injection H as <-. apply same_text_eq in E. subst. now left.
  - right. now apply IH.
Qed.
Lemma known_names : forall w d, In (w, d) CondModel.known -> In w c17_directives /\ (length w < 63)%nat /\ w <> text "pragma".
Proof.
  intros w d H. cbn in H.
  repeat (destruct H as [H|H]; [injection H as <- <-; split; [cbn; tauto|split; [cbn; lia|discriminate]]|]). destruct H.
Qed.

Lemma letters_identifier : forall v, forallb is_nondigit v = true -> v <> [] -> identifier v.
Proof.
  intros v F N. destruct v as [|c v]; [contradiction|]. clear N. cbn in F. apply andb_true_iff in F as [F1 F2].
  change (c :: v) with ([c] ++ v). assert (I : identifier [c]). { apply id_first, in_nondigit, nondigit_iff, F1. }
  revert I F2. generalize [c]. clear. induction v as [|d v IH]; intros i I F; [now rewrite app_nil_r|].
  cbn in F. apply andb_true_iff in F as [F1 F2]. change (d :: v) with ([d] ++ v). rewrite app_assoc. apply IH; [|exact F2].
  apply id_nondigit; [exact I|]. apply in_nondigit, nondigit_iff, F1.
Qed.
Lemma letters_seqs : forall v, forallb is_nondigit v = true -> seqs idchar v.
Proof.
  induction v as [|c v IH]; intro F; [constructor|]. cbn in F. apply andb_true_iff in F as [F1 F2]. change (c :: v) with ([c] ++ v).
  constructor; [|now apply IH]. apply ic_nondigit, in_nondigit, nondigit_iff, F1.
Qed.
Lemma name_no_quotes : forall v u, In v c17_directives -> none_of KChar (v ++ u) /\ none_of KString (v ++ u).
Proof.
  intros v u I. split; intros w S (r & E).
  - inversion S as [| |? H| |]; subst. destruct (char_first _ H) as (p & t & P & ->). cbn in P.
    destruct P as [<-|[<-|[<-|[<-|[]]]]]; cbn in I; repeat (destruct I as [<-|I]; [discriminate E|]); exact I.
  - inversion S as [| | |? H|]; subst. destruct (string_first _ H) as (p & t & P & ->). cbn in P.
    destruct P as [<-|[<-|[<-|[<-|[<-|[]]]]]]; cbn in I; repeat (destruct I as [<-|I]; [discriminate E|]); exact I.
Qed.
(** A directive's name, with no letter, digit or backslash after it, is the next token. *)
Lemma name_longest : forall v u, In v c17_directives -> forallb is_nondigit v = true -> is_nondigit (char_at u 0) = false ->
  (forall c u', u = c :: u' -> ~ digit c /\ c <> 92) -> longest KName v (v ++ u).
Proof.
  intros v u I F N D. assert (NE : v <> []). { intros ->. cbn in I. repeat (destruct I as [K|I]; [discriminate K|]). exact I. }
  pose proof (letters_identifier v F NE) as Iv. destruct (name_others v u Iv) as (N1 & N2). destruct (name_no_quotes v u I) as (N3 & N4).
  apply longest_intro; [now constructor|exists u; reflexivity| | | | |]; auto using none_longest.
  intros w S (r & E). inversion S as [? H| | | |]; subst. destruct (identifier_split _ H) as (a & x & -> & A & X).
  assert (SN : scan_digit u = NoMatch).
  { unfold scan_digit, scan_nondigit. destruct u as [|c u']; [reflexivity|]. cbn [char_at nth] in N |- *. destruct (D c u' eq_refl) as [D1 D2].
    destruct (is_digit c) eqn:K; [exfalso; apply D1, digit_iff, K|]. change (char_at (c :: u') 0) with c in N. rewrite N.
    apply universal_head. exact D2. }
  eapply (idchars_longest v (letters_seqs v F) (a ++ x) u r); [|exact SN|exact E]. constructor; [now apply ic_nondigit|exact X].
Qed.

Lemma names_letters : forall v, In v c17_directives -> forallb is_nondigit v = true /\ (length v < 63)%nat.
Proof. intros v I. cbn in I. repeat (destruct I as [<-|I]; [split; [reflexivity|cbn; lia]|]). destruct I. Qed.

Definition no_glue (z : list Z) : Prop := forall w c u, In w c17_directives -> z = w ++ c :: u -> ~ digit c /\ c <> 92.

Lemma name_head : forall v u, longest KName v (v ++ u) -> identifier v -> is_nondigit (char_at u 0) = false.
Proof.
  intros v u (_ & _ & L) I. destruct u as [|c u]; [reflexivity|]. destruct (is_nondigit c) eqn:E; [|exact E]. exfalso.
  specialize (L KName (v ++ [c])). rewrite app_length in L. cbn in L. assert (K : (length v + 1 <= length v)%nat); [|lia]. apply L.
  - constructor. constructor. apply id_nondigit; [exact I|]. apply in_nondigit, nondigit_iff, E.
  - exists u. now rewrite <- app_assoc.
Qed.

(** What is behind the # of a plain directive. *)
Lemma behind_hash : forall s a w l r x y z, line s (a ++ IToken KPunct w :: l) r -> whites a -> introducer w -> good s ->
  s = x ++ 35 :: y ++ z -> blanks x -> blanks y ->
  exists l', l = map IWhite (map (fun _ => false) y) ++ l' /\ line z l' r /\ good z /\ line (35 :: y ++ z) (sign "#" :: l) r /\ good (35 :: y ++ z).
Proof.
  intros s a w l r x y z L Wa Iw G -> Bx By.
  destruct (line_whites_chain _ _ _ (blank_chain x (35 :: y ++ z) Bx) _ _ L (falses x)) as (l1 & E1 & L1).
  pose proof (good_chain _ _ _ (blank_chain x (35 :: y ++ z) Bx) G) as G1.
  symmetry in E1. destruct (whites_tail _ _ _ _ _ E1 Wa I) as (a' & -> & Wa'). clear E1.
  assert (O : ~ opens_white (35 :: y ++ z)) by (apply not_open; [cbn; lia|lia]).
  destruct (start_token _ _ _ L1 G1 O) as (k & v & u & l2 & E & Ev & Lo & S & _ & Lu & Gu).
  destruct a' as [|i a']; [|inversion Wa'; subst; discriminate E]. injection E as <- <- <-.
  destruct (standard_head _ _ S) as (c & t & -> & _). injection Ev as <- Ev. destruct Iw as [K|K]; [|discriminate K].
  injection K as ->. cbn in Ev. subst u.
  destruct (line_whites_chain _ _ _ (blank_chain y z By) _ _ Lu (falses y)) as (l3 & -> & L3).
  exists l3. split; [reflexivity|]. split; [exact L3|]. split; [eapply good_chain; [exact (blank_chain y z By)|exact Gu]|]. split; [exact L1|exact G1].
Qed.

Lemma match_hash : forall x y z, blanks x -> blanks y -> (forall c u, z = c :: u -> ~ blank c) ->
  CondModel.match_directive (x ++ 35 :: y ++ z) =
  (if char_at z 0 =? newline then (CondModel.DEmpty, z) else
   match CondModel.find_known CondModel.known (fst (CondModel.scan_name 63 z)) with
   | Some d => (d, snd (CondModel.scan_name 63 z))
   | None => (CondModel.DNon, 35 :: y ++ z)
   end).
Proof.
  intros x y z Bx By H. unfold CondModel.match_directive. rewrite skip_ws_blanks; [|exact Bx|intros c u K; injection K as <- _; intros [W _]; cbn in W; lia].
  change (35 =? 0) with false. change (negb (35 =? 35)) with false. cbn iota. rewrite skip_ws_blanks by assumption.
  destruct (char_at z 0 =? newline); [reflexivity|]. destruct (CondModel.scan_name 63 z) as [w r]. cbn [fst snd].
  destruct (CondModel.find_known CondModel.known w); reflexivity.
Qed.

Lemma known_match : forall x y v u d, blanks x -> blanks y -> In v c17_directives -> CondModel.find_known CondModel.known v = Some d ->
  longest KName v (v ++ u) -> CondModel.match_directive (x ++ 35 :: y ++ v ++ u) = (d, u).
Proof.
  intros x y v u d Bx By I K Lo. destruct (names_letters _ I) as [F Len].
  assert (NE : v <> []). { intros ->. discriminate K. }
  pose proof (letters_identifier v F NE) as Iv. rewrite match_hash; [|exact Bx|exact By|].
  - replace (char_at (v ++ u) 0 =? newline) with false.
    + rewrite scan_name_exact; [|exact F|exact Len|eapply name_head; eassumption]. cbn [fst snd]. rewrite K. reflexivity.
    + destruct v as [|c v]; [contradiction|]. cbn in F. apply andb_true_iff in F as [F1 _]. unfold is_nondigit in F1. cbn. unfold newline. lia.
  - intros c t E [W _]. destruct v as [|c' v]; [contradiction|]. injection E as <- _. cbn in F. apply andb_true_iff in F as [F1 _].
    unfold is_nondigit in F1. cbn in W. lia.
Qed.

Lemma unknown_match : forall x y z k v u, blanks x -> blanks y -> ~ opens_white z -> no_glue z -> z = v ++ u -> longest k v z ->
  (forall d, ~ (k = KName /\ In (v, d) CondModel.known)) -> char_at z 0 <> 10 ->
  CondModel.match_directive (x ++ 35 :: y ++ z) = (CondModel.DNon, 35 :: y ++ z).
Proof.
  intros x y z k v u Bx By O NG E Lo NK N10. rewrite match_hash; [|exact Bx|exact By|now apply blank_not_open].
  replace (char_at z 0 =? newline) with false by (unfold newline; lia).
  destruct (CondModel.find_known CondModel.known _) as [d|] eqn:K; [|reflexivity]. exfalso.
  destruct (CondModel.scan_name 63 z) as [nm rest] eqn:Sc. cbn [fst] in K. apply find_known_in in K.
  destruct (known_names _ _ K) as (I & Len & _). destruct (scan_name_read _ _ _ _ Sc) as (Ez & F & [C|C]); [lia|].
  assert (L2 : longest KName nm z).
  { rewrite Ez. apply name_longest; [exact I|exact F|exact C|]. intros c u' Eu. apply (NG nm c u' I). now rewrite Ez, Eu. }
  destruct (longest_unique _ _ _ _ _ Lo L2) as [-> ->]. exact (NK d (conj eq_refl K)).
Qed.
