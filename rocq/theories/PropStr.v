(** C04: string buffers hold exactly what was appended and are terminated. *)

From Coq Require Import ZArith Bool List Lia PeanoNat ZifyBool ZifyNat.
From Verif Require Import LexModel LexCursor StrModel StrProofs.
Import ListNotations.
Open Scope Z_scope.

(** A client appends characters and raw values (the values of escape sequences). *)
Inductive op := Char (c : Z) | Raw (v : Z).
Definition append (b : buf) (o : op) : res buf :=
  match o with Char c => buf_insert b c | Raw v => buf_insert_raw b v end.
Fixpoint appends (b : buf) (os : list op) : res buf :=
  match os with [] => Ok b | o :: os => bind (append b o) (fun b => appends b os) end.

(** What can be represented: a Unicode scalar value, or a value that fits an element;
    a char32_t string takes any char32_t. *)
Definition representable (m : mode) (o : op) : bool :=
  match o with
  | Char c => match m with Unicode32 => (0 <=? c) && (c <? 2 ^ 32) | _ => scalar c end
  | Raw v => (0 <=? v) && (v <? 2 ^ (8 * Z.of_nat (width m)))
  end.
Definition covered (m : mode) (o : op) : bool :=
  match m, o with Unicode16, Char c => c <? 65536 | Wide, Raw v => v <? 2 ^ 31 | _, _ => true end.

Definition op_bytes (m : mode) (o : op) : list Z :=
  match o with Char c => encoding m c | Raw v => le (width m) v end.

(** The state a client sees: exact length, the bytes, and a terminator within the
    allocation. *)
Definition string_in (b : buf) (bs : list Z) : Prop :=
  b_len b = length bs /\ firstn (length bs) (block b) = bs /\
  (snd (buf_value b) * width (b_mode b) = length bs + width (b_mode b))%nat /\
  (length bs + width (b_mode b) <= capacity b)%nat /\
  firstn (width (b_mode b)) (skipn (length bs) (block b)) = repeat 0 (width (b_mode b)).

Lemma firstn_repeat : forall (A : Type) (x : A) n k, (n <= k)%nat -> firstn n (repeat x k) = repeat x n.
Proof. induction n as [|n IH]; intros [|k] H; cbn; auto; [lia|]. f_equal. apply IH. lia. Qed.

Lemma holds_string : forall b bs, holds b bs -> string_in b bs.
Proof.
  intros b bs (k & HB & HL & D1 & D2 & K). unfold string_in, capacity, buf_value. cbn [snd].
  rewrite HB, HL, firstn_exact, skipn_exact, app_length, repeat_length.
  split; [reflexivity|]. split; [reflexivity|]. split; [|split; [lia|now apply firstn_repeat]].
  destruct D1 as [x ->]. pose proof (width_pos (b_mode b)). rewrite Nat.div_mul by lia. lia.
Qed.

Lemma append_ok : forall b bs o, holds b bs -> representable (b_mode b) o = true -> covered (b_mode b) o = true ->
  exists b', append b o = Ok b' /\ holds b' (bs ++ op_bytes (b_mode b) o) /\ b_mode b' = b_mode b.
Proof.
  intros b bs [c|v] H R B; cbn [append op_bytes].
  - apply insert_ok; [exact H|]. destruct (b_mode b); cbn [representable covered] in *; auto. split; [auto|lia].
  - apply insert_raw_ok; [exact H|]. destruct (b_mode b); cbn in *; lia.
Qed.

Lemma appends_ok : forall os b bs, holds b bs -> forallb (representable (b_mode b)) os = true ->
  forallb (covered (b_mode b)) os = true ->
  exists b', appends b os = Ok b' /\ holds b' (bs ++ flat_map (op_bytes (b_mode b)) os) /\ b_mode b' = b_mode b.
Proof.
  induction os as [|o os IH]; intros b bs H R B.
  - exists b. rewrite app_nil_r. auto.
  - cbn [forallb] in *. apply andb_true_iff in R as [R1 R2]. apply andb_true_iff in B as [B1 B2].
    destruct (append_ok b bs o H R1 B1) as (b1 & E1 & H1 & M1). cbn [appends flat_map]. rewrite E1. cbn [bind].
    rewrite <- M1 in R2, B2. destruct (IH b1 _ H1 R2 B2) as (b2 & E2 & H2 & M2).
    exists b2. split; [exact E2|]. rewrite M1 in H2, M2. rewrite app_assoc. auto.
Qed.

(** Partial: characters outside the basic plane appended to a char16_t string are
    excluded, see [c04_surrogate_pair_refuted], and so are escapes that stand for a
    negative wchar_t, see [c04_wide_escape_refuted]. *)
Theorem c04_contents_partial :
  forall m os, forallb (representable m) os = true -> forallb (covered m) os = true ->
  exists b, appends (buf_init m) os = Ok b /\ b_mode b = m /\ string_in b (flat_map (op_bytes m) os).
Proof.
  intros m os R B. destruct (appends_ok os (buf_init m) [] (init_holds m) R B) as (b & E & H & M).
  exists b. split; [exact E|]. split; [exact M|]. apply holds_string. exact H.
Qed.

(** ** No write outside the allocation, whatever is appended *)

Definition safe (b : buf) (r : res buf) : Prop :=
  r = Error \/ exists b' bs', r = Ok b' /\ holds b' bs' /\ b_mode b' = b_mode b.

Lemma safe_bind : forall b r f, safe b r ->
  (forall b' bs', holds b' bs' -> b_mode b' = b_mode b -> safe b (f b')) -> safe b (bind r f).
Proof.
  intros b r f [->|(b' & bs' & -> & H & M)] F; cbn [bind]; [now left|eauto].
Qed.

Lemma insert_buffer_safe : forall b bs f, holds b bs -> Nat.divide (width (b_mode b)) (length f) ->
  safe b (insert_buffer b f).
Proof. intros b bs f H D. destruct (insert_buffer_ok b bs f H D) as (b' & E & H' & M). right. eauto 6. Qed.

Lemma safe_mode : forall b b' r, b_mode b' = b_mode b -> safe b' r -> safe b r.
Proof. intros b b' r M [->|(x & y & -> & H & E)]; [now left|]. right. exists x, y. repeat split; auto. congruence. Qed.

Lemma u16_safe : forall fuel b bs st bytes, holds b bs -> b_mode b = Unicode16 -> safe b (u16_loop fuel b st bytes).
Proof.
  induction fuel as [|fuel IH]; intros b bs st bytes H M; destruct bytes as [|x l]; cbn [u16_loop];
    try (right; exists b, bs; auto; fail); [now left|].
  assert (D : forall v, Nat.divide (width (b_mode b)) (length (le 2 v))).
  { intros v. rewrite M, le_length. apply Nat.divide_refl. }
  destruct (mbrtoc16 st (x :: l)) as [[|n] v st'|v|]; [| | |now left];
    (eapply safe_bind; [eapply insert_buffer_safe; [exact H|apply D]|]); intros b1 bs1 H1 M1;
    (apply (safe_mode b b1); [exact M1|]); eapply IH; eauto; congruence.
Qed.

Lemma wide_safe : forall fuel b bs bytes, holds b bs -> b_mode b = Wide -> safe b (wide_loop fuel b bytes).
Proof.
  induction fuel as [|fuel IH]; intros b bs bytes H M; destruct bytes as [|x l]; cbn [wide_loop];
    try (right; exists b, bs; auto; fail); [now left|].
  assert (D : forall v, Nat.divide (width (b_mode b)) (length (le 4 v))).
  { intros v. rewrite M, le_length. apply Nat.divide_refl. }
  destruct (mbrtoc32 (x :: l)) as [[v [|n]]|]; [| |now left];
    (eapply safe_bind; [eapply insert_buffer_safe; [exact H|apply D]|]); intros b1 bs1 H1 M1;
    (apply (safe_mode b b1); [exact M1|]); eapply IH; eauto; congruence.
Qed.

Lemma append_safe : forall b bs o, holds b bs -> safe b (append b o).
Proof.
  intros b bs [c|v] H; cbn [append].
  - unfold buf_insert. destruct (b_mode b) eqn:M.
    1, 2: destruct (c32rtomb c) as [e|]; [|now left]; eapply insert_buffer_safe; [exact H|]; rewrite M; exists (length e); cbn; lia.
    + destruct (c32rtomb c) as [e|]; [|now left]. eapply u16_safe; eauto.
    + eapply insert_buffer_safe; [exact H|]. rewrite M, le_length. apply Nat.divide_refl.
    + destruct (c32rtomb c) as [e|]; [|now left]. eapply wide_safe; eauto.
  - unfold buf_insert_raw. destruct (v <=? raw_max (b_mode b)); [|now left].
    eapply insert_buffer_safe; [exact H|]. rewrite le_length. apply Nat.divide_refl.
Qed.

(** After any sequence of appends whatsoever the buffer is terminated within its
    allocation, or an error was reported; no write leaves the allocation. *)
Theorem c04_memory_safe :
  forall m os, appends (buf_init m) os = Error \/
  exists b bs, appends (buf_init m) os = Ok b /\ b_mode b = m /\ string_in b bs.
Proof.
  intros m os.
  enough (G : forall os b bs, holds b bs -> safe b (appends b os)).
  { destruct (G os (buf_init m) [] (init_holds m)) as [E|(b & bs & E & H & M)]; [now left|].
    right. exists b, bs. split; [exact E|]. split; [exact M|]. now apply holds_string. }
  clear. induction os as [|o os IH]; intros b bs H; cbn [appends]; [right; exists b, bs; auto|].
  eapply safe_bind; [eapply append_safe; eauto|]. intros b' bs' H' M'. apply (safe_mode b b'); auto. eapply IH; eauto.
Qed.

(** What cannot be represented is rejected. *)
Theorem c04_rejects :
  forall b o, match o with Char c => c < 2 ^ 32 | Raw v => True end -> 0 <= match o with Char c => c | Raw v => v end ->
  representable (b_mode b) o = false -> append b o = Error.
Proof.
  intros b [c|v] L P R; cbn [append].
  - unfold buf_insert, c32rtomb.
    assert (N : scalar c = false -> utf8_encode c = None).
    { intros S. destruct (utf8_encode c) as [e|] eqn:E; [|reflexivity].
      assert (scalar c = true) by (apply encode_scalar; eauto). congruence. }
    destruct (b_mode b); cbn [representable] in R; try (now rewrite (N R)). lia.
  - unfold buf_insert_raw. destruct (v <=? raw_max (b_mode b)) eqn:E; [|reflexivity].
    destruct (b_mode b); cbn in *; lia.
Qed.

(** "ab" and a multi-byte character, then so many characters that the buffer grows. *)
Example c04_example :
  let os := [Char 97; Char 8364; Raw 255] ++ map Char (repeat 98 40) in
  forallb (representable Multibyte) os = true /\
  exists b, appends (buf_init Multibyte) os = Ok b /\
  block b = [97; 226; 130; 172; 255] ++ repeat 98 40 ++ repeat 0 51 /\ b_len b = 45%nat.
Proof. vm_compute. split; [reflexivity|]. eexists. split; [reflexivity|]. split; reflexivity. Qed.

Example c04_example32 :
  let os := map Char (repeat 128512 8) in
  forallb (representable Unicode32) os = true /\ forallb (covered Unicode32) os = true /\
  exists b, appends (buf_init Unicode32) os = Ok b /\ snd (buf_value b) = 9%nat /\ capacity b = 100%nat.
Proof. vm_compute. repeat split. eexists. split; [reflexivity|]. split; reflexivity. Qed.

(** A character outside the basic plane appended to a char16_t string: only the first
    half of the surrogate pair is stored, because the loop ends when the input bytes are
    used up and the second half is delivered only by a further call. *)
Theorem c04_surrogate_pair_refuted :
  forall b bs c, b_mode b = Unicode16 -> holds b bs -> scalar c = true -> 65536 <= c ->
  exists b', append b (Char c) = Ok b' /\
  contents b' = bs ++ le 2 (55296 + (c - 65536) / 1024) /\
  op_bytes Unicode16 (Char c) = le 2 (55296 + (c - 65536) / 1024) ++ le 2 (56320 + (c - 65536) mod 1024).
Proof.
  intros b bs c M H SC L. pose proof SC as SC'. apply encode_scalar in SC' as [e E].
  destruct (utf8_encode_first c e [] E) as [_ LE].
  pose proof (mb_first_encode c e [] E) as F. rewrite app_nil_r in F.
  set (hi := 55296 + (c - 65536) / 1024).
  destruct (insert_buffer_ok b bs (le 2 hi) H ltac:(rewrite M, le_length; apply Nat.divide_refl)) as (b' & B1 & B2 & B3).
  exists b'. split; [|split].
  - cbn [append]. unfold buf_insert, c32rtomb. rewrite M, E. destruct e as [|x e]; [cbn in LE; lia|].
    replace (2 * length (x :: e) + 2)%nat with (S (S (2 * length (x :: e))))%nat by lia.
    cbn [u16_loop]. generalize (S (2 * length (x :: e)))%nat. intros f.
    unfold mbrtoc16. rewrite F. replace (c =? 0) with false by lia. replace (c <? 65536) with false by lia.
    fold hi. cbn [length]. rewrite B1. cbn [bind skipn]. rewrite skipn_all. now destruct f.
  - destruct B2 as (k & HB & HL & _). unfold contents. rewrite HB, HL. apply firstn_exact.
  - cbn [op_bytes encoding]. unfold utf16. replace (c <? 65536) with false by lia. cbn [flat_map]. fold hi.
    now rewrite app_nil_r.
Qed.

Example c04_refuted_case :
  exists b, append (buf_init Unicode16) (Char 128512) = Ok b /\ contents b = [61; 216] /\
  op_bytes Unicode16 (Char 128512) = [61; 216; 0; 222].
Proof. vm_compute. eexists. split; [reflexivity|]. split; reflexivity. Qed.

(** The value of an escape sequence in a wide literal has to fit the unsigned type
    corresponding to wchar_t (C17 6.4.4.4p9), so L"\xffffffff" is valid; it is
    rejected. *)
Theorem c04_wide_escape_refuted :
  forall v, 2 ^ 31 <= v < 2 ^ 32 -> representable Wide (Raw v) = true /\
  append (buf_init Wide) (Raw v) = Error.
Proof.
  intros v H. cbn [representable append width]. unfold buf_insert_raw. cbn [b_mode buf_init raw_max].
  split; [lia|]. now replace (v <=? 2 ^ 31 - 1) with false by lia.
Qed.

Print Assumptions c04_wide_escape_refuted.
Print Assumptions c04_contents_partial.
Print Assumptions c04_memory_safe.
Print Assumptions c04_rejects.
Print Assumptions c04_surrogate_pair_refuted.
