(** C59: files are read as directives and lines of text as the grammar of C17 6.10 says. *)

From Coq Require Import ZArith Bool List String Lia.
From Verif Require Import LexModel StrModel PropPunct TokModel TokSpec TokProofs TokDivide TokComplete PropTok DirModel DirSpec DirProofs DirScan DirMain DirFile.
Import ListNotations.
Open Scope Z_scope.
Local Notation length := List.length.

(** The directives and tokens the scanner gives for a file are those of the file, each
    with whether white space is before it: the operands of directives, the names,
    parameters and replacement lists of macros, header names, and the tokens of lines
    that are no directive.
    Partial: [plain_text] and [plain_directive] exclude the lines for which this is
    false (see the refutations below); all_fine is that of C58. *)
Theorem c59_directives_partial : forall s items e, division s items -> all_fine items -> source plain_text plain_directive s e ->
  exists ds, scan_file s = Ok ds /\ Forall2 same_elem (spaced true (map odir ds)) (spaced true (map oelem e)).
Proof. exact scan_file_plain. Qed.
Print Assumptions c59_directives_partial.

(** ** The hypotheses at work *)

Lemma line_step : forall t k w r l q, next_token (w ++ r) = Ok (t, r) ->
  match t, k with TkName _, KName | TkNumber _, KNumber | TkString _, KString | TkPunct _, KPunct => True | _, _ => False end ->
  line r l q -> line (w ++ r) (IToken k w :: l) q.
Proof. intros t k w r l q H T L. destruct (token_step w r t k H T) as [O Lo]. now apply ln_token. Qed.
Lemma line_blank : forall r l q, line r l q -> line (32 :: r) (IWhite false :: l) q.
Proof. intros r l q L. apply ln_white with r; [apply (wh_char 32); cbn; tauto|exact L]. Qed.
Lemma line_comment : forall x r l q, (forall y z, x ++ text "*" <> y ++ text "*/" ++ z) -> line r l q -> line (text "/*" ++ x ++ text "*/" ++ r) (IWhite false :: l) q.
Proof. intros x r l q H L. apply ln_white with r; [now apply wh_block|exact L]. Qed.
Lemma line_over : forall r, line (10 :: r) [] r.
Proof. intro r. apply ln_end. apply (wh_char 10). cbn; tauto. Qed.
Lemma line_divide : forall s l r, line s l r -> forall items, division r items -> division s (l ++ IWhite true :: items).
Proof.
  intros s l r L. induction L as [s r W|s t l r W L IH|k w t l r O Lo L IH]; intros items D; cbn [app].
  - now apply dv_white with r.
  - apply dv_white with t; auto.
  - apply dv_token; auto.
Qed.
Ltac tok t w r := refine (line_step t _ (text w) r _ _ _ _ _); [vm_compute; reflexivity|exact I|].

Definition any_text (l : list item) : Prop := True.
Definition any_directive (s : list Z) (d : sdir) (r : list Z) : Prop := True.

(** [#define F(a, ...) a + 1] and a line of text *)
Definition sample := text "#define F(a, ...) a + 1" ++ [10] ++ text "F(2)" ++ [10].
Definition sample_define : list item :=
  [name "define"; IWhite false; name "F"; sign "("; name "a"; sign ","; IWhite false; sign "..."; sign ")"; IWhite false; name "a"; IWhite false;
   sign "+"; IWhite false; IToken KNumber (text "1")].
Definition sample_text : list item := [name "F"; sign "("; IToken KNumber (text "2"); sign ")"].
Lemma sample_first : line sample (sign "#" :: sample_define) (text "F(2)" ++ [10]).
Proof.
  unfold sample_define.
  tok (TkPunct P_HASH) "#"%string (text "define F(a, ...) a + 1" ++ [10] ++ text "F(2)" ++ [10]).
  tok (TkName (text "define")) "define"%string (text " F(a, ...) a + 1" ++ [10] ++ text "F(2)" ++ [10]).
  apply line_blank. tok (TkName (text "F")) "F"%string (text "(a, ...) a + 1" ++ [10] ++ text "F(2)" ++ [10]).
  tok (TkPunct P_LEFT_PARENTHESE) "("%string (text "a, ...) a + 1" ++ [10] ++ text "F(2)" ++ [10]).
  tok (TkName (text "a")) "a"%string (text ", ...) a + 1" ++ [10] ++ text "F(2)" ++ [10]).
  tok (TkPunct P_COMMA) ","%string (text " ...) a + 1" ++ [10] ++ text "F(2)" ++ [10]).
  apply line_blank. tok (TkPunct P_ELLIPSIS) "..."%string (text ") a + 1" ++ [10] ++ text "F(2)" ++ [10]).
  tok (TkPunct P_RIGHT_PARENTHESE) ")"%string (text " a + 1" ++ [10] ++ text "F(2)" ++ [10]).
  apply line_blank. tok (TkName (text "a")) "a"%string (text " + 1" ++ [10] ++ text "F(2)" ++ [10]).
  apply line_blank. tok (TkPunct P_PLUS) "+"%string (text " 1" ++ [10] ++ text "F(2)" ++ [10]).
  apply line_blank. tok (TkNumber (text "1")) "1"%string ([10] ++ text "F(2)" ++ [10]).
  apply line_over.
Qed.
Lemma sample_second : line (text "F(2)" ++ [10]) sample_text [].
Proof.
  unfold sample_text. tok (TkName (text "F")) "F"%string (text "(2)" ++ [10]). tok (TkPunct P_LEFT_PARENTHESE) "("%string (text "2)" ++ [10]).
  tok (TkNumber (text "2")) "2"%string (text ")" ++ [10]). tok (TkPunct P_RIGHT_PARENTHESE) ")"%string [10]. apply line_over.
Qed.
Definition sample_elems : list elem :=
  [EDirective (SDefine (text "F") (Some ([text "a"], true)) [IWhite false; name "a"; IWhite false; sign "+"; IWhite false; IToken KNumber (text "1")]);
   EToken KName (text "F"); EToken KPunct (text "("); EToken KNumber (text "2"); EToken KPunct (text ")"); EWhite].

Lemma no_clash : forall w, w <> text "." -> w <> text "%:" -> forall l, ~ clash w l.
Proof. intros w N1 N2 l (k & t & l' & [(E & _)|(E & _)]); contradiction. Qed.
Lemma not_first : forall p k w l, (k = KPunct -> ~ p w) -> ~ first p (IToken k w :: l).
Proof.
  intros p k w l N (a & v & l' & W & E & P). destruct a as [|i a]; [|inversion W; subst; discriminate E]. injection E as -> -> _. now apply N.
Qed.

Example c59_example : (exists items, division sample items /\ all_fine items) /\ source plain_text plain_directive sample sample_elems /\
  scan_file sample = Ok [DvDefine (text "F") (Some ([text "a"], true)) [TkName (text "a"); TkSpace false; TkPunct P_PLUS; TkSpace false; TkNumber (text "1")];
    DvToken (TkName (text "F")); DvToken (TkPunct P_LEFT_PARENTHESE); DvToken (TkNumber (text "2")); DvToken (TkPunct P_RIGHT_PARENTHESE); DvToken (TkSpace true)].
Proof.
  split; [|split; [|vm_compute; reflexivity]].
  - pose proof (line_divide _ _ _ sample_second _ dv_end) as D2.
    pose proof (line_divide _ _ _ sample_first _ D2) as D1. eexists. split; [exact D1|].
    unfold sample_define, sample_text. cbn [app all_fine name sign].
    repeat (split; [constructor; cbn; (lia || (intro K; repeat (destruct K as [K|K]; [discriminate K|]); exact K))|split; [apply no_clash; discriminate|]]); auto.
  - refine (so_directive _ _ sample [] (text "#") sample_define _ (text "F(2)" ++ [10]) _ sample_first _ _ _ _ _).
    + constructor.
    + left; reflexivity.
    + refine (dl_function [] [IWhite false] (text "F") [name "a"; sign ","; IWhite false; sign "..."] [text "a"] true
        [IWhite false; name "a"; IWhite false; sign "+"; IWhite false; IToken KNumber (text "1")] _ _ _ _); repeat constructor; auto.
      refine (pa_both [name "a"] [text "a"] [IWhite false] [] _ _ _); repeat constructor. refine (il_one [] (text "a") [] _ _); constructor.
    + exists [], [], (text "define F(a, ...) a + 1" ++ [10] ++ text "F(2)" ++ [10]). split; [reflexivity|]. split; [constructor|]. split; [constructor|].
      split; [apply not_open; cbn; lia|]. split; [|exact I]. intros w c u K E. cbn in K.
      repeat (destruct K as [<-|K]; [try discriminate E; vm_compute in E; injection E as <- _; cbn; lia|]). destruct K.
    + refine (so_text _ _ _ sample_text [] [] sample_second _ _ _).
      * apply not_first. discriminate.
      * apply not_first. discriminate.
      * constructor.
Qed.

(** ** Where the scanner and the grammar part *)

Lemma same_file_first : forall d ds x e, same_file (d :: ds) (EDirective x :: e) ->
  match d with DvToken (TkSpace _) => True | DvToken _ => False | _ => agree d x end.
Proof.
  intros d ds x e S. unfold same_file in S. cbn [map oelem spaced] in S. destruct d; cbn [odir map spaced] in S; try (inversion S as [|? ? ? ? [_ H] _]; subst; exact H).
  destruct t; try exact I; cbn in S; inversion S as [|? ? ? ? [_ H] _]; subst; exact H.
Qed.

(** A comment before the # (6.10p2: only the first token of the line counts; comments
    are white space) *)
Theorem c59_comment_before_refuted : exists s e ds, source any_text any_directive s e /\ scan_file s = Ok ds /\ ~ same_file ds e.
Proof.
  exists (text "/* c */#define A" ++ [10]), [EDirective (SDefine (text "A") None [])]. eexists. split; [|split; [vm_compute; reflexivity|]].
  - refine (so_directive _ _ _ [IWhite false] (text "#") [name "define"; IWhite false; name "A"] _ [] _ _ _ _ _ _ _); [|repeat constructor|left; reflexivity| |exact I|constructor].
    + refine (line_comment (text " c ") (text "#define A" ++ [10]) _ _ _ _).
      { intros y z K. change (text " c " ++ text "*") with [32; 99; 32; 42] in K. do 4 (destruct y as [|? y]; [discriminate K|]; cbn [app] in K; injection K as _ K). destruct y; discriminate K. }
      tok (TkPunct P_HASH) "#"%string (text "define A" ++ [10]). tok (TkName (text "define")) "define"%string (text " A" ++ [10]).
      apply line_blank. tok (TkName (text "A")) "A"%string [10]. apply line_over.
    + refine (dl_object [] [IWhite false] (text "A") [] _ _ _); repeat constructor.
  - unfold same_file. cbn. intro S. inversion S as [|? ? ? ? [_ H] _]; subst. exact H.
Qed.

(** The digraph %: as the # of a directive (6.4.6p3) *)
Theorem c59_digraph_refuted : exists s e ds, source any_text any_directive s e /\ scan_file s = Ok ds /\ ~ same_file ds e.
Proof.
  exists (text "%:define A" ++ [10]), [EDirective (SDefine (text "A") None [])]. eexists. split; [|split; [vm_compute; reflexivity|]].
  - refine (so_directive _ _ _ [] (text "%:") [name "define"; IWhite false; name "A"] _ [] _ _ _ _ _ _ _); [|repeat constructor|right; reflexivity| |exact I|constructor].
    + tok (TkPunct P_DIGRAPH_HASH) "%:"%string (text "define A" ++ [10]). tok (TkName (text "define")) "define"%string (text " A" ++ [10]).
      apply line_blank. tok (TkName (text "A")) "A"%string [10]. apply line_over.
    + refine (dl_object [] [IWhite false] (text "A") [] _ _ _); repeat constructor.
  - unfold same_file. cbn. intro S. inversion S as [|? ? ? ? [_ H] _]; subst. exact H.
Qed.

(** A name that starts as that of a directive and goes on with a digit, [#if0], is the
    name of no directive *)
Theorem c59_name_refuted : exists s e, source any_text any_directive s e /\ e = [EDirective (SNon [name "if0"])] /\
  scan_file s = Ok [DvIf [TkNumber (text "0")]].
Proof.
  exists (text "#if0" ++ [10]), [EDirective (SNon [name "if0"])]. split; [|split; [reflexivity|vm_compute; reflexivity]].
  refine (so_directive _ _ _ [] (text "#") [name "if0"] _ [] _ _ _ _ _ _ _); [|repeat constructor|left; reflexivity| |exact I|constructor].
  - tok (TkPunct P_HASH) "#"%string (text "if0" ++ [10]). tok (TkName (text "if0")) "if0"%string [10]. apply line_over.
  - refine (dl_non [] KName (text "if0") [] _ _); [constructor|]. intros [_ K]. cbn in K. repeat (destruct K as [K|K]; [discriminate K|]). exact K.
Qed.

(** A line that starts with ## is no directive *)
Theorem c59_hash_hash_refuted : exists s e ds, source any_text any_directive s e /\ scan_file s = Ok ds /\ ~ same_file ds e.
Proof.
  exists (text "##define" ++ [10]), [EToken KPunct (text "##"); EToken KName (text "define"); EWhite]. eexists. split; [|split; [vm_compute; reflexivity|]].
  - refine (so_text _ _ _ [sign "##"; name "define"] [] [] _ _ _ _); [| |exact I|constructor].
    + tok (TkPunct P_DOUBLE_HASH) "##"%string (text "define" ++ [10]). tok (TkName (text "define")) "define"%string [10]. apply line_over.
    + apply not_first. intros _ [K|K]; discriminate K.
  - unfold same_file. cbn. intro S. inversion S as [|? ? ? ? [_ H] _]; subst. exact H.
Qed.

(** A comment that runs over the end of the line of an #endif: the rest of the comment
    is read as text *)
Theorem c59_comment_over_line_refuted : exists s e ds, source any_text any_directive s e /\ scan_file s = Ok ds /\ e = [EDirective SEndif] /\
  ds = [DvEndif; DvToken (TkPunct P_STAR); DvToken (TkPunct P_SLASH); DvToken (TkSpace true)].
Proof.
  exists (text "#endif/*" ++ [10] ++ text "*/" ++ [10]), [EDirective SEndif]. eexists. split; [|split; [vm_compute; reflexivity|split; reflexivity]].
  refine (so_directive _ _ _ [] (text "#") [name "endif"; IWhite false] _ [] _ _ _ _ _ _ _); [|repeat constructor|left; reflexivity| |exact I|constructor].
  - tok (TkPunct P_HASH) "#"%string (text "endif/*" ++ [10] ++ text "*/" ++ [10]). tok (TkName (text "endif")) "endif"%string (text "/*" ++ [10] ++ text "*/" ++ [10]).
    refine (line_comment [10] [10] _ _ _ _); [|apply line_over].
    intros y z K. change ([10] ++ text "*") with [10; 42] in K. do 2 (destruct y as [|? y]; [discriminate K|]; cbn [app] in K; injection K as _ K). destruct y; discriminate K.
  - refine (dl_endif [] [IWhite false] _ _); repeat constructor.
Qed.

(** A comment before a header name *)
Theorem c59_header_refuted : exists s e, source any_text any_directive s e /\ e = [EDirective (SHeader true (text "h"))] /\
  scan_file s = Ok [DvInclude [TkSpace false; TkPunct P_LESS_THAN; TkName (text "h"); TkPunct P_GREATER_THAN]].
Proof.
  exists (text "#include/**/<h>" ++ [10]), [EDirective (SHeader true (text "h"))]. split; [|split; [reflexivity|vm_compute; reflexivity]].
  refine (so_directive _ _ _ [] (text "#") [name "include"; IWhite false; sign "<"; name "h"; sign ">"] _ [] _ _ _ _ _ _ _);
    [|repeat constructor|left; reflexivity| |exact I|constructor].
  - tok (TkPunct P_HASH) "#"%string (text "include/**/<h>" ++ [10]). tok (TkName (text "include")) "include"%string (text "/**/<h>" ++ [10]).
    refine (line_comment [] (text "<h>" ++ [10]) _ _ _ _).
    { intros y z K. change ([] ++ text "*") with [42] in K. destruct y as [|? y]; [discriminate K|]. cbn [app] in K. injection K as _ K. destruct y; discriminate K. }
    tok (TkPunct P_LESS_THAN) "<"%string (text "h>" ++ [10]). tok (TkName (text "h")) "h"%string (text ">" ++ [10]). tok (TkPunct P_GREATER_THAN) ">"%string [10]. apply line_over.
  - refine (dl_header [] [IWhite false] [sign "<"; name "h"; sign ">"] [] true (text "h") _ _ _ _ _); try (repeat constructor; fail).
    apply (hn_h (text "h")); [discriminate|cbn; lia|cbn; lia].
Qed.

(** *** Lines that are no directive of the grammar are accepted *)

Lemma line_no_end : forall s l r, line s l r -> ~ In (IWhite true) l.
Proof. intros s l r L. induction L; cbn; try tauto; intros [K|K]; try discriminate K; tauto. Qed.
Lemma split_end : forall l m a b, ~ In (IWhite true) l -> ~ In (IWhite true) m -> l ++ IWhite true :: a = m ++ IWhite true :: b -> l = m.
Proof.
  induction l as [|i l IH]; intros [|j m] a b N M E; [reflexivity|injection E as <- _; exfalso; apply M; now left|injection E as -> _; exfalso; apply N; now left|].
  injection E as -> E. f_equal. apply (IH m a b); auto; intro K; [apply N|apply M]; now right.
Qed.
Lemma line_unique : forall s l l' r', line s l [] -> line s l' r' -> l = l'.
Proof.
  intros s l l' r' L L'. pose proof (line_divide _ _ _ L _ dv_end) as D. destruct (line_division _ _ _ L' _ D) as (items & E & _).
  apply (split_end _ _ _ _ (line_no_end _ _ _ L) (line_no_end _ _ _ L') E).
Qed.
(** A file of one line that starts with # is in the grammar only if the line is a directive. *)
Lemma only_directive : forall s l e, line s (sign "#" :: l) [] -> source any_text any_directive s e -> exists d, directive_line l d.
Proof.
  intros s l e L S. inversion S as [E|s0 l0 r1 e1 L0 NI PT S1|s0 a w l0 d r1 e1 L0 Wa Iw D PD S1]; subst.
  - apply line_shorter in L. cbn in L. lia.
  - pose proof (line_unique _ _ _ _ L L0) as <-. exfalso. apply NI. exists [], (text "#"), l. split; [constructor|]. split; [reflexivity|left; reflexivity].
  - pose proof (line_unique _ _ _ _ L L0) as E. destruct a as [|i a]; [|inversion Wa; subst; discriminate E]. injection E as _ <-. eauto.
Qed.
Lemma whites_head : forall a a' k w l k' w' l', whites a -> whites a' -> a ++ IToken k w :: l = a' ++ IToken k' w' :: l' ->
  a = a' /\ k = k' /\ w = w' /\ l = l'.
Proof.
  induction a as [|i a IH]; intros a' k w l k' w' l' W W' E.
  - destruct a' as [|j a']; [injection E as <- <- <-; auto|]. inversion W'; subst. discriminate E.
  - destruct a' as [|j a']; [inversion W; subst; discriminate E|]. injection E as <- E. inversion W; inversion W'; subst.
    destruct (IH a' k w l k' w' l') as (-> & -> & -> & ->); auto.
Qed.
Lemma define_inv : forall n l d, directive_line (name "define" :: IWhite false :: IToken KName n :: l) d ->
  (l = [] \/ exists l', l = IWhite false :: l') \/ exists p ns v l', l = sign "(" :: p ++ sign ")" :: l' /\ parameters p ns v /\ NoDup ns.
Proof.
  intros n l d D. remember (name "define" :: IWhite false :: IToken KName n :: l) as m eqn:Q. change (m = [] ++ name "define" :: [IWhite false] ++ IToken KName n :: l) in Q.
  assert (W0 : whites []) by constructor. assert (W1 : whites [IWhite false]) by repeat constructor.
  destruct D as [a0 l0 W|a0 l0 W|a0 b n' c W Wb Wc|a0 b n' c W Wb Wc|a0 b W Wb|a0 b W Wb|a0 b h c system n' W Wb Wc Th Hn|a0 b k c0 w0 l0 W Wb N60 N34|a0 b n' l0 W Wb Hl
    |a0 b n' p ns v l0 W Wb P ND|a0 b n' c W Wb Wc|a0 l0 W|a0 l0 W|a0 l0 W|a0 W|a0 k w0 l0 W NK];
  try (destruct (whites_head _ _ _ _ _ _ _ _ W W0 Q) as (_ & K1 & K2 & K3); try discriminate K2; subst).
  - destruct (whites_head _ _ _ _ _ _ _ _ Wb W1 K3) as (_ & _ & _ & ->). now left.
  - destruct (whites_head _ _ _ _ _ _ _ _ Wb W1 K3) as (_ & _ & _ & <-). right. exists p, ns, v, l0. auto.
  - subst. inversion W; subst. discriminate.
  - exfalso. apply NK. split; [reflexivity|]. cbn. tauto.
Qed.
Lemma ifdef_inv : forall n l d, directive_line (name "ifdef" :: IWhite false :: IToken KName n :: l) d -> whites l.
Proof.
  intros n l d D. remember (name "ifdef" :: IWhite false :: IToken KName n :: l) as m eqn:Q. change (m = [] ++ name "ifdef" :: [IWhite false] ++ IToken KName n :: l) in Q.
  assert (W0 : whites []) by constructor. assert (W1 : whites [IWhite false]) by repeat constructor.
  destruct D as [a0 l0 W|a0 l0 W|a0 b n' c W Wb Wc|a0 b n' c W Wb Wc|a0 b W Wb|a0 b W Wb|a0 b h c system n' W Wb Wc Th Hn|a0 b k c0 w0 l0 W Wb N60 N34|a0 b n' l0 W Wb Hl
    |a0 b n' p ns v l0 W Wb P ND|a0 b n' c W Wb Wc|a0 l0 W|a0 l0 W|a0 l0 W|a0 W|a0 k w0 l0 W NK];
  try (destruct (whites_head _ _ _ _ _ _ _ _ W W0 Q) as (_ & K1 & K2 & K3); try discriminate K2; subst).
  - destruct (whites_head _ _ _ _ _ _ _ _ Wb W1 K3) as (_ & _ & _ & <-). exact Wc.
  - subst. inversion W; subst. discriminate.
  - exfalso. apply NK. split; [reflexivity|]. cbn. tauto.
Qed.

(** 6.10.3p3: white space between the name and the replacement list of a macro *)
Theorem c59_no_space_refuted : exists s ds, scan_file s = Ok ds /\ ~ exists e, source any_text any_directive s e.
Proof.
  exists (text "#define A+1" ++ [10]). eexists. split; [vm_compute; reflexivity|]. intros (e & S).
  assert (L : line (text "#define A+1" ++ [10]) (sign "#" :: [name "define"; IWhite false; name "A"; sign "+"; IToken KNumber (text "1")]) []).
  { tok (TkPunct P_HASH) "#"%string (text "define A+1" ++ [10]). tok (TkName (text "define")) "define"%string (text " A+1" ++ [10]).
    apply line_blank. tok (TkName (text "A")) "A"%string (text "+1" ++ [10]). tok (TkPunct P_PLUS) "+"%string (text "1" ++ [10]).
    tok (TkNumber (text "1")) "1"%string [10]. apply line_over. }
  destruct (only_directive _ _ _ L S) as (d & D). apply define_inv in D as [[K|(l' & K)]|(p & ns & v & l' & K & _)]; discriminate K.
Qed.

Definition names_of (p : list item) : list (list Z) := flat_map (fun i => match i with IToken KName n => [n] | _ => [] end) p.
Lemma names_whites : forall a, whites a -> names_of a = [].
Proof. intros a W. induction W as [|i a -> W IH]; [reflexivity|exact IH]. Qed.
Lemma names_app : forall a b, names_of (a ++ b) = names_of a ++ names_of b.
Proof. intros. apply flat_map_app. Qed.
Lemma identifier_names : forall p ns, identifier_list p ns -> names_of p = ns.
Proof.
  intros p ns H. induction H as [a n b Wa Wb|p ns a n b H IH Wa Wb]; rewrite names_app.
  - rewrite (names_whites a Wa). change (IToken KName n :: b) with ([IToken KName n] ++ b). rewrite names_app, (names_whites b Wb). reflexivity.
  - rewrite IH. change (sign "," :: a ++ IToken KName n :: b) with ([sign ","] ++ a ++ [IToken KName n] ++ b). rewrite !names_app, (names_whites a Wa), (names_whites b Wb).
    reflexivity.
Qed.
Lemma parameters_names : forall p ns v, parameters p ns v -> names_of p = ns.
Proof.
  intros p ns v [a W|p' ns' H|a b Wa Wb|p' ns' a b H Wa Wb].
  - now apply names_whites.
  - now apply identifier_names.
  - change (a ++ sign "..." :: b) with (a ++ [sign "..."] ++ b). rewrite !names_app, (names_whites a Wa), (names_whites b Wb). reflexivity.
  - change (p' ++ sign "," :: a ++ sign "..." :: b) with (p' ++ [sign ","] ++ a ++ [sign "..."] ++ b).
    rewrite !names_app, (names_whites a Wa), (names_whites b Wb), (identifier_names _ _ H). cbn. now rewrite app_nil_r.
Qed.
(** 6.10.3p6: the parameters of a macro have different names *)
Theorem c59_same_parameters_refuted : exists s, scan_file s = Ok [DvDefine (text "F") (Some ([text "a"; text "a"], false)) []] /\
  ~ exists e, source any_text any_directive s e.
Proof.
  exists (text "#define F(a,a)" ++ [10]). split; [vm_compute; reflexivity|]. intros (e & S).
  assert (L : line (text "#define F(a,a)" ++ [10]) (sign "#" :: [name "define"; IWhite false; name "F"; sign "("; name "a"; sign ","; name "a"; sign ")"]) []).
  { tok (TkPunct P_HASH) "#"%string (text "define F(a,a)" ++ [10]). tok (TkName (text "define")) "define"%string (text " F(a,a)" ++ [10]).
    apply line_blank. tok (TkName (text "F")) "F"%string (text "(a,a)" ++ [10]). tok (TkPunct P_LEFT_PARENTHESE) "("%string (text "a,a)" ++ [10]).
    tok (TkName (text "a")) "a"%string (text ",a)" ++ [10]). tok (TkPunct P_COMMA) ","%string (text "a)" ++ [10]). tok (TkName (text "a")) "a"%string (text ")" ++ [10]).
    tok (TkPunct P_RIGHT_PARENTHESE) ")"%string [10]. apply line_over. }
  destruct (only_directive _ _ _ L S) as (d & D). apply define_inv in D as [[K|(l' & K)]|(p & ns & v & l' & K & P & ND)]; [discriminate K..|].
  apply parameters_names in P. injection K as K. subst ns.
  do 3 (destruct p as [|? p]; [discriminate K|]; cbn [app] in K; injection K as <- K).
  destruct p as [|? p]; [|cbn [app] in K; injection K as _ K; destruct p; discriminate K].
  cbn in ND. inversion ND as [|? ? N _]; subst. apply N. now left.
Qed.

(** 6.10.1: nothing but white space behind the name of an #ifdef *)
Theorem c59_rest_refuted : exists s, scan_file s = Ok [DvIfdef false (text "X")] /\ ~ exists e, source any_text any_directive s e.
Proof.
  exists (text "#ifdef X Y" ++ [10]). split; [vm_compute; reflexivity|]. intros (e & S).
  assert (L : line (text "#ifdef X Y" ++ [10]) (sign "#" :: [name "ifdef"; IWhite false; name "X"; IWhite false; name "Y"]) []).
  { tok (TkPunct P_HASH) "#"%string (text "ifdef X Y" ++ [10]). tok (TkName (text "ifdef")) "ifdef"%string (text " X Y" ++ [10]).
    apply line_blank. tok (TkName (text "X")) "X"%string (text " Y" ++ [10]). apply line_blank. tok (TkName (text "Y")) "Y"%string [10]. apply line_over. }
  destruct (only_directive _ _ _ L S) as (d & D). apply ifdef_inv in D. inversion D as [|? ? _ D']; subst. inversion D' as [|? ? K _]; subst. discriminate K.
Qed.
Print Assumptions c59_comment_before_refuted.
Print Assumptions c59_digraph_refuted.
Print Assumptions c59_name_refuted.
Print Assumptions c59_hash_hash_refuted.
Print Assumptions c59_comment_over_line_refuted.
Print Assumptions c59_header_refuted.
Print Assumptions c59_no_space_refuted.
Print Assumptions c59_same_parameters_refuted.
Print Assumptions c59_rest_refuted.
