(** C63: the preprocess-only output has the tokens of the text. *)

From Coq Require Import ZArith Bool List String Lia.
From Verif Require Import CTypes LexModel PropPunct StrModel PropStrPrint TokModel TokSpec TokProofs TokDivide FormatModel FormatSpec FormatProofs.
From Verif Require MacroModel.
Import ListNotations.
Open Scope Z_scope.
Local Notation length := List.length.

Lemma printed_tokens : forall isw f ts, Forall (printable isw) ts -> linked isw f ts ->
  exists ts', tokens (format isw f ts) = Ok ts' /\ same_tokens f ts ts' /\ format isw f ts' = format isw f ts.
Proof.
  intros isw f ts P L. destruct (tokenize_printed isw f ts (S (length (format isw f ts))) P L ltac:(lia)) as (l & E & M).
  exists (map (again f) ts). unfold tokens. rewrite E. cbn [bind]. rewrite M. split; [reflexivity|]. split.
  - clear -P. induction P as [|t ts P1 P IH]; [constructor|]. constructor; [|exact IH]. apply again_same. intros ->. inversion P1.
  - unfold format. clear. induction ts as [|t ts IH]; [reflexivity|]. cbn [map flat_map]. rewrite IH. f_equal.
    destruct t as [n| |c|w|l|w|p]; try reflexivity; cbn [again format_token]; [destruct f; reflexivity|destruct p; reflexivity].
Qed.

(** The tokens of a text, printed and divided again, are the same tokens; and printed
    again they give the same output. *)
Theorem c63_text_partial : forall isw f fuel s l, tokenize fuel s = Ok l -> intact s l -> plain_words s l ->
  Forall (printable isw) (map fst l) ->
  exists ts, tokens (format isw f (map fst l)) = Ok ts /\ same_tokens f (map fst l) ts /\
             format isw f ts = format isw f (map fst l).
Proof. intros isw f fuel s l T I W P. apply printed_tokens; [exact P|]. now apply (source_linked isw f fuel s l). Qed.
Print Assumptions c63_text_partial.

(** So are tokens of any origin with white space between them. *)
Theorem c63_spaced_partial : forall isw f ts, Forall (printable isw) ts -> spaced ts ->
  exists ts', tokens (format isw f ts) = Ok ts' /\ same_tokens f ts ts' /\ format isw f ts' = format isw f ts.
Proof. intros isw f ts P S. apply printed_tokens; [exact P|now apply spaced_linked]. Qed.
Print Assumptions c63_spaced_partial.

(** ** A text of the theorem *)

Definition sample : list Z := text "x<:1e+.5:>=u8""q\n\\""/* c */+ +'\0';
//
".
Definition sample_tokens : list ptok :=
  [TkName (text "x"); TkPunct P_DIGRAPH_LEFT_BRACKET; TkNumber (text "1e+.5"); TkPunct P_DIGRAPH_RIGHT_BRACKET; TkPunct P_ASSIGN;
   TkString (literal_with Unicode8 [113; 10; 92]); TkSpace false; TkPunct P_PLUS; TkSpace false; TkPunct P_PLUS;
   TkChar (CNarrow (Some 0)); TkPunct P_SEMICOLON; TkSpace true].
Definition sample_again : list ptok :=
  [TkName (text "x"); TkPunct P_LEFT_BRACKET; TkNumber (text "1e+.5"); TkPunct P_RIGHT_BRACKET; TkPunct P_ASSIGN;
   TkString (literal_with Unicode8 [113; 10; 92]); TkSpace false; TkPunct P_PLUS; TkSpace false; TkPunct P_PLUS;
   TkChar (CNarrow (Some 0)); TkPunct P_SEMICOLON; TkSpace true].
Lemma no_backslash : forall w, forallb (fun c => negb (c =? 92)) w = true -> ~ In 92 w.
Proof. intros w H I. rewrite forallb_forall in H. specialize (H 92 I). discriminate. Qed.
Lemma prefix_of : forall (A : Type) (a w r : list A), a ++ r = w ++ r -> w = a.
Proof. intros A a w r E. symmetry. now apply app_inv_tail in E. Qed.
Example c63_example : forall isw, exists l, tokenize 100 sample = Ok l /\ map fst l = sample_tokens /\ intact sample l /\ plain_words sample l /\
  Forall (printable isw) (map fst l) /\ format isw Original (map fst l) = text "x[1e+.5]=u8""q\n\\"" + +'\0';
" /\
  tokens (format isw Original (map fst l)) = Ok sample_again.
Proof.
  intros isw. eexists. split; [vm_compute; reflexivity|]. split; [vm_compute; reflexivity|]. split; [|split; [|split; [|split; vm_compute; reflexivity]]].
  - cbn [intact]. repeat split; intros w K; try (cbn; tauto). intros B. cbn [broken] in B.
    match type of K with ?s = w ++ ?r => assert (E : s = text "'\0'" ++ r) by reflexivity; rewrite E in K; apply prefix_of in K; subst w end.
    cbn in B. lia.
  - cbn [plain_words]. repeat split; intros w K.
    + match type of K with ?s = w ++ ?r => assert (E : s = text "x" ++ r) by reflexivity; rewrite E in K; apply prefix_of in K; subst w end.
      apply no_backslash. reflexivity.
    + match type of K with ?s = w ++ ?r => assert (E : s = text "1e+.5" ++ r) by reflexivity; rewrite E in K; apply prefix_of in K; subst w end.
      apply no_backslash. reflexivity.
  - match goal with |- Forall _ ?l => change l with sample_tokens end. unfold sample_tokens.
    constructor; [apply pr_name; [apply id_first, in_nondigit; cbn; tauto|apply no_backslash; reflexivity|cbn; lia]|].
    constructor; [apply pr_punct; discriminate|].
    constructor. { apply pr_number; [|apply no_backslash; reflexivity]. apply (pn_more_digit (text "1e+.") 53); [|cbn; tauto].
      apply (pn_dot (text "1e+")). apply (pn_exponent (text "1") 101 43); [|cbn; tauto|cbn; tauto]. apply pn_digit. cbn. tauto. }
    constructor; [apply pr_punct; discriminate|]. constructor; [apply pr_punct; discriminate|].
    constructor; [apply pr_string; reflexivity|]. constructor; [apply pr_space|]. constructor; [apply pr_punct; discriminate|].
    constructor; [apply pr_space|]. constructor; [apply pr_punct; discriminate|]. constructor; [apply pr_char; lia|].
    constructor; [apply pr_punct; discriminate|]. constructor; [apply pr_space|constructor].
Qed.
Example c63_spaced_example : forall isw, Forall (printable isw) [TkPunct P_MINUS; TkSpace false; TkPunct P_MINUS; TkSpace true; TkName (text "N")] /\
  spaced [TkPunct P_MINUS; TkSpace false; TkPunct P_MINUS; TkSpace true; TkName (text "N")].
Proof.
  intro isw. split.
  - constructor; [apply pr_punct; discriminate|]. constructor; [apply pr_space|]. constructor; [apply pr_punct; discriminate|].
    constructor; [apply pr_space|]. constructor; [|constructor].
    apply pr_name; [apply id_first, in_nondigit; cbn; tauto|apply no_backslash; reflexivity|cbn; lia].
  - cbn [spaced]. unfold is_white. repeat split; eauto.
Qed.

(** ** What fails *)

Lemma same_length : forall f a b, same_tokens f a b -> length a = length b.
Proof. intros f a b H. induction H; cbn; congruence. Qed.

(** Two tokens [%:] and [#] of a line become the one token [##]. *)
Theorem c63_hash_refuted : exists s ts, tokens s = Ok ts /\
  forall isw f, exists ts', tokens (format isw f ts) = Ok ts' /\ ~ same_tokens f ts ts'.
Proof.
  exists (text "x %:#"), [TkName (text "x"); TkSpace false; TkPunct P_DIGRAPH_HASH; TkPunct P_HASH]. split; [vm_compute; reflexivity|].
  intros isw f. exists [TkName (text "x"); TkSpace false; TkPunct P_DOUBLE_HASH]. split; [destruct f; vm_compute; reflexivity|].
  intro H. apply same_length in H. discriminate H.
Qed.

(** A universal character name is printed as the character, which is no token. *)
Theorem c63_universal_refuted : exists s ts, tokens s = Ok ts /\ identifier s /\ forall isw f, tokens (format isw f ts) = Error.
Proof.
  exists (text "\u00e9"), [TkName [195; 169]]. split; [vm_compute; reflexivity|]. split.
  - apply id_first, in_ucn. apply (ucn_4 (text "00e9")); [reflexivity|]. repeat (constructor; [cbn; tauto|]). constructor.
  - intros isw f. vm_compute. reflexivity.
Qed.

(** Tokens that a macro brings together are printed together: -N with N defined as -1
    is printed as --1. *)
Inductive as_tok : ptok -> MacroModel.tok -> Prop :=
  | at_name : forall s, as_tok (TkName (text s)) (MacroModel.TId s false)
  | at_number : forall s, as_tok (TkNumber (text s)) (MacroModel.TNum s)
  | at_punct : forall p, as_tok (TkPunct p) (MacroModel.TPunct p)
  | at_space : forall n, as_tok (TkSpace n) (MacroModel.TWs n).
Theorem c63_macro_refuted : exists s ts l defs l' out, tokens s = Ok ts /\ Forall2 as_tok ts l /\
  (forall fmt, MacroModel.run_substitutions fmt defs 20 false l = MacroModel.Ok l') /\ Forall2 as_tok out l' /\
  forall isw f, Forall (printable isw) out /\ exists ts', tokens (format isw f out) = Ok ts' /\ ~ same_tokens f out ts'.
Proof.
  exists (text "-N"), [TkPunct P_MINUS; TkName (text "N")], [MacroModel.TPunct P_MINUS; MacroModel.TId "N" false],
    [("N"%string, MacroModel.MObj [MacroModel.TPunct P_MINUS; MacroModel.TNum "1"])],
    [MacroModel.TPunct P_MINUS; MacroModel.TPunct P_MINUS; MacroModel.TNum "1"],
    [TkPunct P_MINUS; TkPunct P_MINUS; TkNumber (text "1")].
  split; [vm_compute; reflexivity|]. split; [repeat constructor|]. split; [intro fmt; vm_compute; reflexivity|]. split; [repeat constructor|].
  intros isw f. split.
  - constructor; [apply pr_punct; discriminate|]. constructor; [apply pr_punct; discriminate|].
    constructor; [|constructor]. apply pr_number; [apply pn_digit; cbn; tauto|apply no_backslash; reflexivity].
  - exists [TkPunct P_DOUBLE_MINUS; TkNumber (text "1")]. split; [vm_compute; reflexivity|]. intro H. apply same_length in H. discriminate H.
Qed.
Print Assumptions c63_macro_refuted.
