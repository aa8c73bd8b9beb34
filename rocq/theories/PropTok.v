(** C58: the text is divided into preprocessing tokens as C17 6.4p4 says: each token is
    the longest sequence of characters that could be one. *)

From Coq Require Import ZArith Bool List String Lia.
From Verif Require Import CTypes LexModel StrModel PropPunct TokModel TokSpec TokProofs TokLit TokDivide TokComplete.
Import ListNotations.
Open Scope Z_scope.
Local Notation length := List.length.

(** ** What is accepted is divided right *)

(** The tokenizer reads to the end of the text, no character constant holding a
    new-line: then its tokens are those of the division of 5.1.1.2p1 and 6.4p4; a
    white-space token stands for a run of white space and says whether there is a
    new-line in it; names, numbers and punctuators carry their spelling. *)
Theorem c58_split_partial : forall fuel s l, tokenize fuel s = Ok l -> intact s l ->
  exists items, division s items /\ tokens_of (map fst l) items.
Proof. exact tokenize_sound. Qed.
Print Assumptions c58_split_partial.

(** There is only one division. *)
Theorem c58_split_unique : forall s l l', division s l -> division s l' -> l = l'.
Proof. intros s l l' D D'. exact (division_unique s l D l' D'). Qed.
Print Assumptions c58_split_unique.

(** ** Plain texts are accepted *)

Theorem c58_recognised_partial : forall s l, division s l -> all_fine l ->
  exists ts, tokenize (S (length s)) s = Ok ts /\ tokens_of (map fst ts) l.
Proof. intros s l D F. apply tokenize_complete; [exact D|exact F|lia]. Qed.
Print Assumptions c58_recognised_partial.

(** The hypotheses and the conclusions at work. *)
Lemma token_step : forall w r t k, next_token (w ++ r) = Ok (t, r) ->
  match t, k with TkName _, KName | TkNumber _, KNumber | TkString _, KString | TkPunct _, KPunct => True | _, _ => False end ->
  ~ opens_white (w ++ r) /\ longest k w (w ++ r).
Proof.
  intros w r t k H T. apply next_token_sound in H. inversion H as [|bs s u B C E|t' v u O V K E]; subst; try (destruct k; contradiction).
  apply app_inv_tail in E. subst v. split; [exact O|]. destruct K as (k' & R & L); [destruct t; auto|].
  destruct R, k; try contradiction; exact L.
Qed.
Example c58_example : division (text "x>>=.5") [IToken KName (text "x"); IToken KPunct (text ">>="); IToken KNumber (text ".5")] /\
  all_fine [IToken KName (text "x"); IToken KPunct (text ">>="); IToken KNumber (text ".5")].
Proof.
  split.
  - change (text "x>>=.5") with (text "x" ++ text ">>=.5").
    destruct (token_step (text "x") (text ">>=.5") (TkName (text "x")) KName) as [O L]; [vm_compute; reflexivity|exact I|].
    apply dv_token; [exact O|exact L|]. clear O L. change (text ">>=.5") with (text ">>=" ++ text ".5").
    destruct (token_step (text ">>=") (text ".5") (TkPunct P_ASSIGN_SHIFT_RIGHT) KPunct) as [O L]; [vm_compute; reflexivity|exact I|].
    apply dv_token; [exact O|exact L|]. clear O L. change (text ".5") with (text ".5" ++ []).
    destruct (token_step (text ".5") [] (TkNumber (text ".5")) KNumber) as [O L]; [vm_compute; reflexivity|exact I|].
    apply dv_token; [exact O|exact L|constructor].
  - cbn [all_fine]. assert (N : forall w, w <> text "." -> w <> text "%:" -> forall l, ~ clash w l).
    { intros w N1 N2 l (k & t & l' & [(E & _)|(E & _)]); contradiction. }
    repeat split; try (apply N; discriminate); constructor; try (cbn; lia).
Qed.

Definition sample := text "int x=L'a'+.5e-3; /* c */ s = u8""q\n""; // end" ++ [10] ++ text "y>>=2;".
Definition sample_tokens : list ptok := [
  TkName (text "int"); TkSpace false; TkName (text "x"); TkPunct P_ASSIGN; TkChar (CWide 97); TkPunct P_PLUS; TkNumber (text ".5e-3");
  TkPunct P_SEMICOLON; TkSpace false; TkSpace false; TkName (text "s"); TkSpace false; TkPunct P_ASSIGN; TkSpace false;
  TkString {| s_mode := Unicode8; s_bytes := [113; 10; 0]; s_count := 3 |}; TkPunct P_SEMICOLON; TkSpace true;
  TkName (text "y"); TkPunct P_ASSIGN_SHIFT_RIGHT; TkNumber (text "2"); TkPunct P_SEMICOLON].
Example c58_sample : exists l, tokenize 100 sample = Ok l /\ map fst l = sample_tokens /\ intact sample l.
Proof.
  destruct (tokenize 100 sample) as [l| | |] eqn:E; try (vm_compute in E; discriminate E).
  exists l. split; [reflexivity|]. vm_compute in E. injection E as <-. split; [reflexivity|].
  cbn [intact]. repeat split; intros w K; try (cbn; tauto). intros B. cbn [broken] in B.
  match type of K with ?x = w ++ ?y => change x with ([76; 39; 97; 39] ++ y) in K end.
  apply app_inv_tail in K. subst w. cbn in B. lia.
Qed.

(** ** Keywords *)

Definition keyword_spelling (k : keyword) : list (list Z) := map text
  match k with
  | K_AUTO => ["auto"] | K_BREAK => ["break"] | K_CASE => ["case"] | K_CHAR => ["char"] | K_CONST => ["const"]
  | K_CONTINUE => ["continue"] | K_DEFAULT => ["default"] | K_DO => ["do"] | K_DOUBLE => ["double"] | K_ELSE => ["else"]
  | K_ENUM => ["enum"] | K_EXTERN => ["extern"] | K_FLOAT => ["float"] | K_FOR => ["for"] | K_GOTO => ["goto"]
  | K_IF => ["if"] | K_INLINE => ["inline"] | K_INT => ["int"] | K_LONG => ["long"] | K_REGISTER => ["register"]
  | K_RESTRICT => ["restrict"] | K_RETURN => ["return"] | K_SHORT => ["short"] | K_SIGNED => ["signed"]
  | K_SIZEOF => ["sizeof"] | K_STATIC => ["static"] | K_STRUCT => ["struct"] | K_SWITCH => ["switch"]
  | K_TYPEDEF => ["typedef"] | K_UNION => ["union"] | K_UNSIGNED => ["unsigned"] | K_VOID => ["void"]
  | K_VOLATILE => ["volatile"] | K_WHILE => ["while"] | K_ALIGNAS => ["_Alignas"] | K_ALIGNOF => ["_Alignof"]
  | K_ATOMIC => ["_Atomic"] | K_BOOL => ["_Bool"] | K_COMPLEX => ["_Complex"] | K_GENERIC => ["_Generic"]
  | K_IMAGINARY => ["_Imaginary"] | K_NORETURN => ["_Noreturn"] | K_STATIC_ASSERT => ["_Static_assert"]
  | K_THREAD_LOCAL => ["_Thread_local"] | K_ATTRIBUTE => ["__attribute__"] | K_ASM => ["__asm__"; "asm"]
  end%string.

(** A word is the keyword of its spelling. *)
Theorem c58_keyword_spelling : forall w k, ~ In 0 w -> get_keyword w = Some k <-> In w (keyword_spelling k).
Proof.
  intros w k N. rewrite keyword_iff by exact N. split; intro H.
  - assert (A : forallb (fun e => existsb (fun x => if list_eq_dec Z.eq_dec (fst e) x then true else false) (keyword_spelling (snd e))) keyword_table = true)
      by (vm_compute; reflexivity).
    rewrite forallb_forall in A. specialize (A _ H). cbn [fst snd] in A. apply existsb_exists in A as (x & I & E).
    destruct (list_eq_dec Z.eq_dec w x); [now subst|discriminate].
  - assert (A : forallb (fun x => existsb (entry_eqb (x, k)) keyword_table) (keyword_spelling k) = true) by (destruct k; vm_compute; reflexivity).
    rewrite forallb_forall in A. specialize (A _ H). apply existsb_exists in A as (x & I & E). apply entry_eqb_eq in E. now subst.
Qed.
(** The keywords are those of 6.4.1 and three more. *)
Theorem c58_keywords : forall w, ~ In 0 w ->
  get_keyword w <> None <-> In w c17_keywords \/ In w (map text ["__attribute__"; "__asm__"; "asm"]%string).
Proof.
  intros w N. rewrite <- in_app_iff. split.
  - intro H. destruct (get_keyword w) as [k|] eqn:E; [|contradiction]. apply c58_keyword_spelling in E; [|exact N].
    assert (A : forallb (fun x => if in_dec (list_eq_dec Z.eq_dec) x (c17_keywords ++ map text ["__attribute__"; "__asm__"; "asm"]%string) then true else false) (keyword_spelling k) = true)
      by (destruct k; vm_compute; reflexivity).
    rewrite forallb_forall in A. specialize (A _ E). destruct (in_dec _ _ _) in A; [assumption|discriminate].
  - intro H. assert (A : forallb (fun x => match get_keyword x with Some _ => true | None => false end)
      (c17_keywords ++ map text ["__attribute__"; "__asm__"; "asm"]%string) = true) by (vm_compute; reflexivity).
    rewrite forallb_forall in A. specialize (A _ H). destruct (get_keyword w); discriminate.
Qed.
Print Assumptions c58_keywords.

(** An identifier becomes its keyword or the identifier of its spelling. *)
Theorem c58_words_partial : forall w, identifier w -> ~ In 92 w -> (length w <= 255)%nat ->
  convert_name w = Ok (match get_keyword w with Some k => WKeyword k | None => WName w end).
Proof. exact convert_word. Qed.
Print Assumptions c58_words_partial.
Example c58_words_example : convert_name (text "restrict") = Ok (WKeyword K_RESTRICT) /\
  convert_name (text "restricted") = Ok (WName (text "restricted")).
Proof. split; vm_compute; reflexivity. Qed.

(** ** Header names *)

Theorem c58_header : forall b n w r, header_name b n w -> ascii n -> match_header (w ++ r) = Ok (b, n, r).
Proof.
  intros b n w r [m _ N1 N2|m _ N1 N2] A; rewrite <- !app_assoc; unfold match_header; cbn [app];
    [change (text "<" ++ m ++ text ">" ++ r) with (60 :: m ++ 62 :: r); change (60 =? 60) with true|
     change (text """" ++ m ++ text """" ++ r) with (34 :: m ++ 34 :: r); change (34 =? 60) with false; change (34 =? 34) with true]; cbn iota;
    (rewrite header_loop_read by (assumption || lia)); cbn [bind fst snd]; rewrite encode_ascii by exact A; reflexivity.
Qed.
(** What is read is a header name, or one with an empty name. *)
Theorem c58_header_partial : forall s b e r, match_header s = Ok (b, e, r) ->
  exists n w, s = w ++ r /\ encode n = Some e /\ (n <> [] -> header_name b n w).
Proof.
  intros s b e r H. unfold match_header in H. destruct s as [|c s]; [discriminate|].
  destruct (c =? 60) eqn:E1; [|destruct (c =? 34) eqn:E2; [|discriminate]];
    (destruct (header_loop _ s) as [[n t]| | |] eqn:L; try discriminate; cbn [bind fst snd] in H;
     destruct (encode n) as [e'|] eqn:En; [|discriminate]; injection H as <- <- <-;
     destruct (header_loop_sound _ _ _ _ L) as (N1 & N2 & ->)).
  - apply Z.eqb_eq in E1. subst c. exists n, (text "<" ++ n ++ text ">"). split; [rewrite <- !app_assoc; reflexivity|].
    split; [exact En|]. intro N. now constructor.
  - apply Z.eqb_eq in E2. subst c. exists n, (text """" ++ n ++ text """"). split; [rewrite <- !app_assoc; reflexivity|].
    split; [exact En|]. intro N. now constructor.
Qed.
Print Assumptions c58_header_partial.
Example c58_header_example : header_name true (text "a//b.h") (text "<a//b.h>") /\ match_header (text "<a//b.h>;") = Ok (true, text "a//b.h", text ";").
Proof. split; [apply (hn_h (text "a//b.h")); [discriminate|cbn; lia|cbn; lia]|vm_compute; reflexivity]. Qed.
(** The check that the name is not empty is of no effect. *)
Theorem c58_header_refuted : exists s b r, match_header s = Ok (b, [], r) /\ forall n w r', s = w ++ r' -> ~ header_name b n w.
Proof.
  exists (text "<>"), true, []. split; [vm_compute; reflexivity|]. intros n w r E H. inversion H; subst.
  rewrite <- !app_assoc in E. destruct n as [|c [|d n]]; [contradiction| |]; discriminate.
Qed.

(** ** What fails *)

(** [asm] is an identifier of C17 (it is no keyword of 6.4.1 and no reserved identifier
    of 7.1.3), and the compiler makes it a keyword. *)
Theorem c58_keyword_refuted : exists w k, identifier w /\ ~ In w c17_keywords /\ convert_name w = Ok (WKeyword k).
Proof.
  exists (text "asm"), K_ASM. split; [|split; [|vm_compute; reflexivity]].
  - assert (H : forall a b c, is_nondigit a = true -> is_nondigit b = true -> is_nondigit c = true -> identifier [a; b; c]).
    { intros a b c A B C. apply nondigit_iff in A, B, C. apply (id_nondigit [a; b] [c]); [apply (id_nondigit [a] [b])|apply in_nondigit, C].
      - apply id_first, in_nondigit, A.
      - apply in_nondigit, B. }
    apply H; reflexivity.
  - intro I. cbn in I. repeat (destruct I as [I|I]; [discriminate I|]). exact I.
Qed.

(** A character that is no token of its own kind is an error, also where C17 only asks
    for a token (a skipped group, the replacement of an unused macro, an operand of #). *)
Theorem c58_other_refuted : exists s, division s [IToken KOther s] /\ forall fuel, tokenize fuel s = Error.
Proof.
  exists (text "@"). split.
  - change (text "@") with (text "@" ++ []) at 1.
    assert (N : forall k, ~ standard k (text "@")).
    { intros k S. inversion S as [? I|? I|? I|? I|? I]; subst.
      - destruct (name_first _ I) as (c & t & E & G). injection E as <- _. destruct G; discriminate.
      - destruct (number_first _ I) as (c & t & E & G). injection E as <- _. destruct G as [G|(G & _)]; discriminate.
      - destruct (char_first _ I) as (p & t & P & E). cbn in P. destruct P as [<-|[<-|[<-|[<-|[]]]]]; discriminate.
      - destruct (string_first _ I) as (p & t & P & E). cbn in P. destruct P as [<-|[<-|[<-|[<-|[<-|[]]]]]]; discriminate.
      - cbn in I. repeat (destruct I as [I|I]; [discriminate I|]). exact I. }
    apply dv_token; [| |constructor].
    + intro O. apply opens_head in O. destruct O as [W|E]; [cbn in W; lia|discriminate].
    + split; [exists []; reflexivity|]. split; [apply (pt_other 64); [cbn; lia|exact N]|].
      intros k w T (r & E). apply (f_equal (@length Z)) in E. rewrite !app_length in E. cbn in E |- *. lia.
  - intros [|fuel]; [reflexivity|]. cbn [tokenize]. replace (next_token (text "@")) with (@Error (ptok * list Z)) by (vm_compute; reflexivity). reflexivity.
Qed.

(** Two dots are two tokens, and an error here. *)
Theorem c58_dots_refuted : exists s, division s [IToken KPunct (text "."); IToken KPunct (text ".")] /\
  forall fuel, tokenize fuel s = Error.
Proof.
  exists (text ".."). split.
  - assert (D : forall r, r = [] \/ r = text "." -> ~ opens_white (text "." ++ r) /\ longest KPunct (text ".") (text "." ++ r)).
    { intros r R. split; [intro O; apply opens_head in O; destruct O as [W|E]; [cbn in W; lia|discriminate]|].
      apply longest_intro; [| |apply none_longest|apply none_longest|apply none_longest|apply none_longest|].
      - constructor. cbn. tauto.
      - exists r. reflexivity.
      - intros w S (q & E). inversion S as [? I| | | |]; subst. destruct (name_first _ I) as (c & t & -> & G). injection E as <- E. destruct G; discriminate.
      - intros w S (q & E). inversion S as [|? I| | |]; subst. destruct (number_first _ I) as (c & t & -> & G). injection E as <- E.
        destruct G as [G|(_ & d & u & -> & G)]; [discriminate|]. destruct R as [-> | ->]; [discriminate|]. injection E as <- E. discriminate.
      - intros w S (q & E). inversion S as [| |? I| |]; subst. destruct (char_first _ I) as (p & t & P & ->). cbn in P.
        destruct P as [<-|[<-|[<-|[<-|[]]]]]; discriminate.
      - intros w S (q & E). inversion S as [| | |? I|]; subst. destruct (string_first _ I) as (p & t & P & ->). cbn in P.
        destruct P as [<-|[<-|[<-|[<-|[<-|[]]]]]]; discriminate.
      - intros w S (q & E). inversion S as [| | | |? I]; subst. destruct (punct_first _ I) as (c & t & -> & _ & _ & _ & _ & _ & G).
        injection E as <- E. destruct (G eq_refl) as [->|(u & ->)]; [cbn; lia|]. exfalso. cbn in I.
        repeat (destruct I as [I|I]; [try discriminate I; try (injection I as <-; destruct R as [-> | ->]; discriminate)|]). exact I. }
    change (text "..") with (text "." ++ text "."). destruct (D (text ".") (or_intror eq_refl)) as [O L]. apply dv_token; [exact O|exact L|].
    change (text ".") with (text "." ++ []) at 1. destruct (D [] (or_introl eq_refl)) as [O' L']. apply dv_token; [exact O'|exact L'|constructor].
  - intros [|fuel]; [reflexivity|]. cbn [tokenize]. replace (next_token (text "..")) with (@Error (ptok * list Z)) by (vm_compute; reflexivity). reflexivity.
Qed.

(** A character constant goes on after the end of its line. *)
Theorem c58_newline_refuted : exists s c r, next_token (s ++ r) = Ok (TkChar c, r) /\ In 10 s /\ forall k, ~ pp_token k s.
Proof.
  exists (text "'a" ++ [10] ++ text "'"), (CNarrow (Some 24842)), (text ";"). split; [vm_compute; reflexivity|]. split; [cbn; tauto|].
  intros k T. inversion T as [k' w S|]; subst. inversion S as [? I|? I|? I|? I|? I]; subst.
  - destruct (name_first _ I) as (c & t & E & G). injection E as <- _. destruct G; discriminate.
  - destruct (number_first _ I) as (c & t & E & G). injection E as <- _. destruct G as [G|(G & _)]; discriminate.
  - inversion I as [p u P U0 U E]. cbn in P. destruct P as [<-|[<-|[<-|[<-|[]]]]]; cbn in E; try discriminate. injection E as E.
    change [97; 10; 39] with ([97; 10] ++ [39]) in E. apply app_inj_tail in E as [E _]. subst u.
    apply chars_tail in U; [|lia]. inversion U as [|c w _ _ N _|e w Es _ E]; subst; [contradiction|].
    destruct (escape_head _ Es) as (z & ->). discriminate.
  - destruct (string_first _ I) as (p & t & P & E). cbn in P. destruct P as [<-|[<-|[<-|[<-|[<-|[]]]]]]; discriminate.
  - cbn in I. repeat (destruct I as [I|I]; [discriminate I|]). exact I.
Qed.

(** An identifier with a universal character name is read, and rejected when it becomes
    a token of the parser. *)
Theorem c58_universal_refuted : exists s e, identifier s /\ next_token s = Ok (TkName e, []) /\ convert_name e = Error.
Proof.
  exists (text "a\u00e9"), [97; 195; 169]. split; [|split; vm_compute; reflexivity].
  apply (id_nondigit (text "a") (text "\u00e9")).
  - constructor. constructor. apply nondigit_iff. reflexivity.
  - apply in_ucn. apply (ucn_4 (text "00e9")); [reflexivity|]. apply forall_hex. reflexivity.
Qed.
Print Assumptions c58_universal_refuted.
