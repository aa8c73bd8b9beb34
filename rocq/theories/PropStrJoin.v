(** C44: adjacent string literals are joined. *)

From Coq Require Import ZArith Bool String List Lia PeanoNat ZifyBool ZifyNat.
From Verif Require Import LexModel LexCursor StrModel StrProofs PropStr PropStrPrint.
Import ListNotations.
Open Scope Z_scope.

(** A literal written with the given characters. *)
Definition literal_text (m : mode) (cs : list Z) : literal :=
  let bs := flat_map (encoding m) cs in
  {| s_mode := m; s_bytes := bs ++ repeat 0 (width m); s_count := S (List.length bs / width m) |}.

(** C17 6.4.5p5: the encoding prefix of the result; [None] where the literals may not be
    joined. *)
Definition joined (m1 m2 : mode) : option mode :=
  match m1, m2 with
  | Multibyte, m | m, Multibyte => Some m
  | _, _ => if mode_eqb m1 m2 then Some m1 else None
  end.

Definition plain (m : mode) (c : Z) : bool := scalar c && match m with Unicode16 => c <? 65536 | _ => true end.

Lemma text_divides : forall m cs, forallb (plain m) cs = true -> Nat.divide (width m) (List.length (flat_map (encoding m) cs)).
Proof.
  intros m. induction cs as [|c cs IH]; intros H; cbn [flat_map List.length]; [exists 0%nat; reflexivity|].
  cbn [forallb] in H. apply andb_true_iff in H as [H1 H2]. rewrite app_length. apply Nat.divide_add_r; [|auto].
  destruct m; cbn [encoding width]; try (apply Nat.divide_1_l); try (rewrite le_length; apply Nat.divide_refl).
  unfold plain in H1. unfold utf16. replace (c <? 65536) with true by lia. cbn [flat_map]. rewrite app_nil_r, le_length.
  apply Nat.divide_refl.
Qed.

Lemma text_holds : forall m cs, forallb (plain m) cs = true ->
  holds (buf_init_value m (s_bytes (literal_text m cs)) (s_count (literal_text m cs))) (flat_map (encoding m) cs).
Proof.
  intros m cs H. pose proof (text_divides m cs H) as D. pose proof (width_pos m). exists (width m).
  unfold buf_init_value, literal_text. cbn [s_bytes s_count block b_len b_mode].
  split; [reflexivity|]. split; [|split; [exact D|split; [apply Nat.divide_refl|lia]]].
  destruct D as [x ->]. rewrite Nat.div_mul by lia. lia.
Qed.

Lemma holds_text : forall b m cs, b_mode b = m -> holds b (flat_map (encoding m) cs) -> literal_of b = literal_text m cs.
Proof.
  intros b m cs M (k & HB & HL & D1 & D2 & K). unfold literal_of, buf_value, literal_text. rewrite M in *.
  rewrite HL, HB. pose proof (width_pos m). destruct D1 as [x D1]. rewrite D1, Nat.div_mul by lia. f_equal; [|lia].
  rewrite firstn_app, D1. rewrite firstn_all2 by lia. f_equal.
  replace ((x + 1) * width m - x * width m)%nat with (width m) by lia. now apply firstn_repeat.
Qed.

Lemma insert_plain : forall b bs c, holds b bs -> plain (b_mode b) c = true ->
  exists b', buf_insert b c = Ok b' /\ holds b' (bs ++ encoding (b_mode b) c) /\ b_mode b' = b_mode b.
Proof.
  intros b bs c H P. unfold plain in P. apply andb_true_iff in P as [P1 P2]. apply insert_ok; [exact H|].
  destruct (b_mode b); auto. split; [exact P1|lia].
Qed.

(** UTF-8 text is inserted character by character. *)
Lemma insert_utf8 : forall cs b bs r fuel, holds b bs -> forallb (plain (b_mode b)) cs = true ->
  (List.length (flat_map (encoding Multibyte) cs) <= fuel)%nat ->
  exists b', insert_multibyte (fuel + r) b (flat_map (encoding Multibyte) cs) = Ok b' /\
  holds b' (bs ++ flat_map (encoding (b_mode b)) cs) /\ b_mode b' = b_mode b.
Proof.
  induction cs as [|c cs IH]; intros b bs r fuel H P F.
  - exists b. cbn [flat_map]. rewrite app_nil_r. split; [destruct (fuel + r)%nat; reflexivity|auto].
  - cbn [forallb] in P. apply andb_true_iff in P as [P1 P2]. cbn [flat_map] in F |- *.
    assert (SC : scalar c = true) by (unfold plain in P1; apply andb_true_iff in P1 as [P1 _]; exact P1).
    apply encode_scalar in SC as [e E].
    assert (EN : encoding Multibyte c = e) by (cbn [encoding]; now rewrite E). rewrite EN in *.
    pose proof (utf8_encode_first c e [] E) as [_ LE].
    rewrite app_length in F. destruct fuel as [|fuel]; [lia|].
    pose proof (mb_first_encode c e (flat_map (encoding Multibyte) cs) E) as MB.
    destruct (insert_plain b bs c H P1) as (b1 & B1 & H1 & M1).
    destruct (IH b1 _ r fuel H1 ltac:(rewrite M1; exact P2) ltac:(lia)) as (b2 & B2 & H2 & M2).
    exists b2. split; [|split; [rewrite M1 in H2; now rewrite app_assoc|congruence]].
    cbn [Nat.add]. destruct e as [|e0 e']; [cbn in LE; lia|]. set (e := e0 :: e') in *.
    assert (STEP : forall l, e ++ l = e0 :: (e' ++ l)) by reflexivity.
    unfold insert_multibyte; fold insert_multibyte. rewrite STEP. rewrite <- STEP. unfold mbrtoc32. rewrite MB.
    destruct (c =? 0) eqn:Z0.
    + assert (EZ : e = [0]) by (apply (encode_nul c); [exact E|lia]). assert (C0 : c = 0) by lia.
      rewrite B1. cbn [bind]. rewrite EZ. cbn [app skipn]. exact B2.
    + rewrite B1. cbn [bind]. destruct (List.length e) eqn:L; [lia|]. rewrite <- L, skipn_exact. exact B2.
Qed.

Lemma insert_utf8_all : forall cs b bs, holds b bs -> forallb (plain (b_mode b)) cs = true ->
  exists b', insert_multibyte (S (List.length (flat_map (encoding Multibyte) cs))) b (flat_map (encoding Multibyte) cs) = Ok b' /\
  holds b' (bs ++ flat_map (encoding (b_mode b)) cs) /\ b_mode b' = b_mode b.
Proof. intros cs b bs H P. destruct (insert_utf8 cs b bs 1 _ H P (le_n _)) as (b' & E & R). rewrite Nat.add_1_r in E. eauto. Qed.

Lemma holds_contents : forall b bs, holds b bs -> contents b = bs /\ b_len b = List.length bs.
Proof. intros b bs (k & HB & HL & _). unfold contents. rewrite HB, HL, firstn_exact. auto. Qed.

Lemma flat_map_ext_in' : forall (A B : Type) (f g : A -> list B) l, (forall a, In a l -> f a = g a) -> flat_map f l = flat_map g l.
Proof. induction l as [|a l IH]; intros H; cbn; [reflexivity|]. rewrite H by (now left). rewrite IH; [reflexivity|]. intros; apply H; now right. Qed.

Lemma text16 : forall cs, forallb (plain Unicode16) cs = true -> flat_map (encoding Unicode16) cs = flat_map (le 2) cs.
Proof.
  intros cs H. apply flat_map_ext_in'. intros c I. rewrite forallb_forall in H. specialize (H c I).
  cbn [encoding]. unfold utf16. unfold plain in H. apply andb_true_iff in H as [_ H]. replace (c <? 65536) with true by lia. cbn [flat_map]. apply app_nil_r.
Qed.

Lemma plain_elements : forall w cs r, (w = 2 \/ w = 4)%nat ->
  forallb (plain (if (w =? 2)%nat then Unicode16 else Unicode32)) cs = true ->
  elements (List.length (flat_map (le w) cs) / w) w (flat_map (le w) cs ++ r) = cs.
Proof.
  intros w cs r W H. assert (NZ : w <> 0%nat) by (destruct W; subst w; discriminate). rewrite flat_le_length, Nat.div_mul by exact NZ. apply elements_le. apply Forall_forall. intros c I.
  rewrite forallb_forall in H. specialize (H c I). unfold plain in H. apply andb_true_iff in H as [H1 H2].
  pose proof (scalar_range c H1). destruct W; subst w; cbn [Nat.eqb] in H2.
  - change (256 ^ Z.of_nat 2) with 65536. lia.
  - change (256 ^ Z.of_nat 4) with (2 ^ 32). lia.
Qed.

Lemma plain_weaker : forall m c, plain m c = true -> plain Unicode32 c = true.
Proof. intros m c H. unfold plain in *. apply andb_true_iff in H as [H _]. now rewrite H. Qed.

Lemma merge16_ok : forall cs b bs, holds b bs -> b_mode b = Unicode16 -> forallb (plain Unicode16) cs = true ->
  exists b', merge16 b None cs = Ok b' /\ holds b' (bs ++ flat_map (encoding Unicode16) cs) /\ b_mode b' = Unicode16.
Proof.
  induction cs as [|c cs IH]; intros b bs H M P; cbn [merge16 flat_map]; [exists b; rewrite app_nil_r; auto|].
  cbn [forallb] in P. apply andb_true_iff in P as [P1 P2]. pose proof P1 as Q. unfold plain in Q. apply andb_true_iff in Q as [SC L].
  unfold c16rtomb. replace ((55296 <=? c) && (c <? 56320)) with false by (unfold scalar in SC; lia).
  pose proof SC as [e E]%encode_scalar. rewrite E. pose proof (utf8_encode_first c e [] E) as [_ LE].
  assert (T : flat_map (encoding Multibyte) [c] = e) by (cbn [flat_map encoding]; rewrite E; apply app_nil_r).
  destruct (insert_utf8_all [c] b bs H) as (b1 & B1 & H1 & M1); [rewrite M; cbn [forallb]; now rewrite P1|]. rewrite T in B1.
  rewrite M in H1, M1. cbn [flat_map] in H1. rewrite app_nil_r in H1.
  destruct (IH b1 _ H1 M1 P2) as (b2 & B2 & H2 & M2). exists b2. rewrite app_assoc. split; [|auto].
  destruct e as [|e0 e']; [cbn in LE; lia|]. rewrite B1. exact B2.
Qed.

Lemma merge32_ok : forall cs b bs, holds b bs -> b_mode b = Unicode32 ->
  exists b', merge32 b cs = Ok b' /\ holds b' (bs ++ flat_map (encoding Unicode32) cs) /\ b_mode b' = Unicode32.
Proof.
  induction cs as [|c cs IH]; intros b bs H M; cbn [merge32 flat_map]; [exists b; rewrite app_nil_r; auto|].
  destruct (insert_ok b bs c H ltac:(now rewrite M)) as (b1 & B1 & H1 & M1). rewrite M in *.
  destruct (IH b1 _ H1 M1) as (b2 & B2 & H2 & M2). exists b2. rewrite B1, app_assoc. auto.
Qed.

Lemma merge_wide_ok : forall cs b bs, holds b bs -> b_mode b = Wide -> forallb (plain Wide) cs = true ->
  exists b', merge_wide b cs = Ok b' /\ holds b' (bs ++ flat_map (encoding Wide) cs) /\ b_mode b' = Wide.
Proof.
  induction cs as [|c cs IH]; intros b bs H M P; cbn [merge_wide flat_map]; [exists b; rewrite app_nil_r; auto|].
  cbn [forallb] in P. apply andb_true_iff in P as [P1 P2]. pose proof P1 as Q. unfold plain in Q. apply andb_true_iff in Q as [SC _].
  unfold c32rtomb. pose proof SC as [e E]%encode_scalar. rewrite E.
  assert (T : flat_map (encoding Multibyte) [c] = e) by (cbn [flat_map encoding]; rewrite E; apply app_nil_r).
  destruct (insert_utf8_all [c] b bs H) as (b1 & B1 & H1 & M1); [rewrite M; cbn [forallb]; now rewrite P1|]. rewrite T in B1.
  rewrite M in H1, M1. cbn [flat_map] in H1. rewrite app_nil_r in H1.
  destruct (IH b1 _ H1 M1 P2) as (b2 & B2 & H2 & M2). exists b2. rewrite B1, app_assoc. auto.
Qed.

Lemma convert_ok : forall m cs, forallb (plain m) cs = true ->
  exists b', buf_convert (buf_init_value Multibyte (s_bytes (literal_text Multibyte cs)) (s_count (literal_text Multibyte cs))) m = Ok b' /\
  holds b' (flat_map (encoding m) cs) /\ b_mode b' = m.
Proof.
  intros m cs P. assert (P0 : forallb (plain Multibyte) cs = true).
  { rewrite forallb_forall in *. intros c I. apply (plain_weaker m). auto. }
  pose proof (text_holds Multibyte cs P0) as H. set (b := buf_init_value _ _ _) in *.
  destruct (holds_contents b _ H) as [C L]. unfold buf_convert. change (b_mode b) with Multibyte. cbv iota.
  assert (G : exists b', insert_multibyte (S (b_len b)) (buf_init m) (contents b) = Ok b' /\
    holds b' (flat_map (encoding m) cs) /\ b_mode b' = m).
  { rewrite C, L. destruct (insert_utf8_all cs (buf_init m) [] (init_holds m) P) as (b' & E & R). eauto. }
  destruct m; try exact G.
  - exists b. split; [reflexivity|]. split; [exact H|reflexivity].
  - eexists. split; [reflexivity|]. split; [|reflexivity]. exact H.
Qed.

Lemma merge_ok : forall m2 cs b bs, holds b bs -> (m2 = Multibyte \/ m2 = b_mode b) -> forallb (plain (b_mode b)) cs = true ->
  exists b', buf_merge b (buf_init_value m2 (s_bytes (literal_text m2 cs)) (s_count (literal_text m2 cs))) = Ok b' /\
  holds b' (bs ++ flat_map (encoding (b_mode b)) cs) /\ b_mode b' = b_mode b.
Proof.
  intros m2 cs b bs H M P. assert (P32 : forallb (plain Unicode32) cs = true).
  { rewrite forallb_forall in *. intros c I. apply (plain_weaker (b_mode b)). auto. }
  assert (P2 : forallb (plain m2) cs = true) by (destruct M as [->| ->]; [exact P32|exact P]).
  pose proof (text_holds m2 cs P2) as S2. set (s := buf_init_value m2 _ _) in *.
  destruct (holds_contents s _ S2) as [C L]. unfold buf_merge. change (b_mode s) with m2.
  assert (BL : block s = flat_map (encoding m2) cs ++ repeat 0 (width m2)) by reflexivity.
  destruct m2.
  - rewrite C, L. now apply insert_utf8_all.
  - rewrite C, L. change (encoding Unicode8) with (encoding Multibyte). now apply insert_utf8_all.
  - assert (MB : b_mode b = Unicode16) by (destruct M; congruence). rewrite MB in *. rewrite BL, L.
    rewrite (text16 cs P2). rewrite (plain_elements 2 cs _ (or_introl eq_refl) P2). rewrite <- (text16 cs P2).
    now apply merge16_ok.
  - assert (MB : b_mode b = Unicode32) by (destruct M; congruence). rewrite MB in *. rewrite BL, L.
    change (encoding Unicode32) with (le 4). rewrite (plain_elements 4 cs _ (or_intror eq_refl) P2).
    change (le 4) with (encoding Unicode32). now apply merge32_ok.
  - assert (MB : b_mode b = Wide) by (destruct M; congruence). rewrite MB in *. rewrite BL, L.
    change (encoding Wide) with (le 4). rewrite (plain_elements 4 cs _ (or_intror eq_refl) P2).
    change (le 4) with (encoding Wide). now apply merge_wide_ok.
Qed.

(** Partial: for characters of the text, not for values written with escapes that are
    not well-formed in the encoding ([c44_escapes_refuted]), and in char16_t literals
    only below U+10000. *)
Theorem c44_join_partial :
  forall m1 m2 cs1 cs2 m, joined m1 m2 = Some m -> forallb (plain m) (cs1 ++ cs2) = true ->
  append_literal (literal_text m1 cs1) (literal_text m2 cs2) = Ok (literal_text m (cs1 ++ cs2)).
Proof.
  intros m1 m2 cs1 cs2 m J P. rewrite forallb_app in P. apply andb_true_iff in P as [P1 P2].
  assert (CASES : (m1 = Multibyte /\ m2 = m) \/ (m1 = m /\ (m2 = Multibyte \/ m2 = m))).
  { destruct m1, m2; cbn in J; try discriminate J; injection J as <-; auto. }
  assert (G : join_literals (literal_text m1 cs1) (literal_text m2 cs2) = Ok (literal_text m (cs1 ++ cs2))).
  { assert (START : exists b,
      match m1, m2 with
      | Multibyte, Multibyte => Ok (buf_init_value m1 (s_bytes (literal_text m1 cs1)) (s_count (literal_text m1 cs1)))
      | Multibyte, m => buf_convert (buf_init_value m1 (s_bytes (literal_text m1 cs1)) (s_count (literal_text m1 cs1))) m
      | _, _ => Ok (buf_init_value m1 (s_bytes (literal_text m1 cs1)) (s_count (literal_text m1 cs1)))
      end = Ok b /\ holds b (flat_map (encoding m) cs1) /\ b_mode b = m).
    { destruct CASES as [[-> ->]|[-> C2]].
      - destruct (convert_ok m cs1 P1) as (b & E & R). exists b. split; [|exact R]. destruct m; exact E.
      - pose proof (text_holds m cs1 P1) as H. destruct m; try (eexists; split; [reflexivity|]; split; [exact H|reflexivity]).
        destruct C2 as [->| ->]; eexists; (split; [reflexivity|]; split; [exact H|reflexivity]). }
    destruct START as (b & E & H & M). unfold join_literals.
    change (s_mode (literal_text m1 cs1)) with m1. change (s_mode (literal_text m2 cs2)) with m2. cbv zeta.
    match goal with |- bind ?x _ = _ => replace x with (Ok b) by (symmetry; destruct m1, m2; exact E) end. cbn [bind].
    destruct (merge_ok m2 cs2 b _ H) as (b' & E' & H' & M'); [rewrite M; tauto|now rewrite M|].
    rewrite E'. cbn [bind]. f_equal. rewrite M in *. apply holds_text; [exact M'|].
    now rewrite flat_map_app. }
  unfold append_literal. cbn [s_mode literal_text]. destruct m1, m2; try discriminate J; exact G.
Qed.

(** Literals with different prefixes stay apart. *)
Theorem c44_incompatible :
  forall l1 l2, joined (s_mode l1) (s_mode l2) = None -> append_literal l1 l2 = NoMatch.
Proof. intros [m1 b1 n1] [m2 b2 n2] J. unfold append_literal. cbn [s_mode] in *. destruct m1, m2; cbn in J; try discriminate J; reflexivity. Qed.

Example c44_example :
  append_literal (literal_text Multibyte [97; 0; 8364]) (literal_text Wide [128512; 98]) =
    Ok (literal_text Wide [97; 0; 8364; 128512; 98]) /\
  forallb (plain Wide) [97; 0; 8364; 128512; 98] = true /\ joined Multibyte Wide = Some Wide.
Proof. vm_compute. auto. Qed.

(** A byte written with an octal or hexadecimal escape makes the join fail though both
    literals are valid (6.4.4.4p9 allows \377): read ["\377"] and ["a"], then join. *)
Theorem c44_escapes_refuted :
  exists l1 l2, match_literal (text """\377"""%string) = Ok (l1, []) /\ match_literal (text """a"""%string) = Ok (l2, []) /\
  l1 = literal_with Multibyte [255] /\ append_literal l2 l1 = Error /\
  append_literal l1 l2 = Ok (literal_with Multibyte [255; 97]).
Proof. do 2 eexists. split; [vm_compute; reflexivity|]. split; [vm_compute; reflexivity|]. vm_compute. auto. Qed.

Print Assumptions c44_join_partial.
Print Assumptions c44_incompatible.
Print Assumptions c44_escapes_refuted.
