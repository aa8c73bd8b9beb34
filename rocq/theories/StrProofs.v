(** Proofs about string buffers and UTF-8. *)

From Coq Require Import ZArith Bool List Lia PeanoNat ZifyBool ZifyNat.
From Verif Require Import LexModel LexCursor StrModel.
Import ListNotations.
Open Scope Z_scope.

(** ** Specification *)

(** A Unicode scalar value. *)
Definition scalar (c : Z) : bool := (0 <=? c) && (c <? 1114112) && negb ((55296 <=? c) && (c <? 57344)).

(** UTF-16 code units. *)
Definition utf16 (c : Z) : list Z :=
  if c <? 65536 then [c] else [55296 + (c - 65536) / 1024; 56320 + (c - 65536) mod 1024].

(** The object representation of one character in a string of the given kind. *)
Definition encoding (m : mode) (c : Z) : list Z :=
  match m with
  | Multibyte | Unicode8 => match utf8_encode c with Some e => e | None => [] end
  | Unicode16 => flat_map (le 2) (utf16 c)
  | Unicode32 | Wide => le 4 c
  end.

(** A buffer with the given contents: exact length, everything after the contents zero,
    room for a terminator. *)
Definition holds (b : buf) (bs : list Z) : Prop :=
  exists k, block b = bs ++ repeat 0 k /\ b_len b = length bs /\
  Nat.divide (width (b_mode b)) (length bs) /\ Nat.divide (width (b_mode b)) k /\
  (width (b_mode b) <= k)%nat.

(** ** Buffers *)

Lemma width_cases : forall m, width m = 1%nat \/ width m = 2%nat \/ width m = 4%nat.
Proof. destruct m; cbn; auto. Qed.

Lemma width_pos : forall m, (0 < width m)%nat.
Proof. destruct m; cbn; lia. Qed.

Lemma init_holds : forall m, holds (buf_init m) [].
Proof.
  intros m. exists 32%nat. cbn [block buf_init b_len b_mode]. repeat split.
  - exists 0%nat. reflexivity.
  - destruct m; cbn; [exists 32%nat|exists 32%nat|exists 16%nat|exists 8%nat|exists 8%nat]; reflexivity.
  - destruct m; cbn; lia.
Qed.

Lemma divide_le : forall w a b, (0 < w)%nat -> Nat.divide w a -> Nat.divide w b -> (a < b)%nat -> (a + w <= b)%nat.
Proof.
  intros w a b W [x ->] [y ->] L. assert (x < y)%nat by (apply (Nat.mul_lt_mono_pos_r w); auto).
  replace (x * w + w)%nat with ((S x) * w)%nat by lia. apply Nat.mul_le_mono_r. lia.
Qed.

Lemma firstn_exact : forall (A : Type) (a b : list A), firstn (length a) (a ++ b) = a.
Proof. intros. rewrite firstn_app, Nat.sub_diag, firstn_all. cbn. apply app_nil_r. Qed.

Lemma skipn_exact : forall (A : Type) (a b : list A), skipn (length a) (a ++ b) = b.
Proof. intros. rewrite skipn_app, Nat.sub_diag, skipn_all. reflexivity. Qed.

Lemma skipn_repeat : forall (A : Type) (x : A) n k, skipn n (repeat x k) = repeat x (k - n).
Proof. induction n as [|n IH]; intros [|k]; cbn; auto. Qed.

Lemma blit_zeros : forall bs k f, (length f <= k)%nat ->
  blit (bs ++ repeat 0 k) (length bs) f = Ok ((bs ++ f) ++ repeat 0 (k - length f)).
Proof.
  intros bs k f H. unfold blit. rewrite app_length, repeat_length.
  replace (length bs + length f <=? length bs + k)%nat with true by lia.
  rewrite firstn_exact, skipn_app. rewrite skipn_all2 by lia.
  replace (length bs + length f - length bs)%nat with (length f) by lia.
  rewrite skipn_repeat, <- app_assoc. reflexivity.
Qed.

Lemma insert_buffer_ok : forall b bs f, holds b bs -> Nat.divide (width (b_mode b)) (length f) ->
  exists b', insert_buffer b f = Ok b' /\ holds b' (bs ++ f) /\ b_mode b' = b_mode b.
Proof.
  intros b bs f (k & HB & HL & D1 & D2 & K) DF.
  destruct f as [|x f0]; [exists b; split; [reflexivity|]; rewrite app_nil_r; split; [exists k; auto|reflexivity]|].
  cbv beta iota delta [insert_buffer]. set (f := x :: f0) in *. assert (F1 : (1 <= length f)%nat) by (cbn; lia).
  clearbody f. clear x f0.
  pose proof (width_pos (b_mode b)) as W.
  unfold ensure_capacity, capacity. rewrite HB, HL, firstn_exact, app_length, repeat_length.
  destruct (length bs + k <=? length bs + length f + 1)%nat eqn:G.
  - pose proof (blit_zeros [] (length bs + length f + width (b_mode b) + 64) bs ltac:(lia)) as E.
    cbn [app length] in E. rewrite E. cbn [bind block b_len b_mode].
    rewrite blit_zeros by lia. cbn [bind]. eexists. split; [reflexivity|]. split; [|reflexivity].
    eexists. cbn [block b_len b_mode]. split; [reflexivity|]. rewrite app_length.
    split; [reflexivity|]. split; [now apply Nat.divide_add_r|].
    replace (length bs + length f + width (b_mode b) + 64 - length bs - length f)%nat
      with (width (b_mode b) + 64)%nat by lia.
    split; [|lia]. apply Nat.divide_add_r; [apply Nat.divide_refl|].
    destruct (b_mode b); cbn; [exists 64%nat|exists 64%nat|exists 32%nat|exists 16%nat|exists 16%nat]; reflexivity.
  - cbn [bind block b_len b_mode]. rewrite HB, HL.
    assert (L : (length f + width (b_mode b) <= k)%nat).
    { apply divide_le; auto. lia. }
    rewrite blit_zeros by lia. cbn [bind]. eexists. split; [reflexivity|]. split; [|reflexivity].
    eexists. cbn [block b_len b_mode]. split; [reflexivity|]. rewrite app_length.
    split; [reflexivity|]. split; [now apply Nat.divide_add_r|]. split; [|lia].
    destruct D2 as [y ->]. destruct DF as [z ->]. exists (y - z)%nat. now rewrite Nat.mul_sub_distr_r.
Qed.

(** ** UTF-8 *)

Lemma encode_scalar : forall c, scalar c = true <-> exists e, utf8_encode c = Some e.
Proof.
  intros c. unfold scalar, utf8_encode. split.
  - intros H. repeat match goal with |- context [if ?b then _ else _] => destruct b eqn:?; try lia end; eauto.
  - intros [e H]. repeat match type of H with context [if ?b then _ else _] => destruct b eqn:?; try discriminate H end; lia.
Qed.

Lemma zlist_eqb_eq : forall a b, zlist_eqb a b = true <-> a = b.
Proof.
  induction a as [|x a IH]; intros [|y b]; cbn; split; intros H; try discriminate; auto.
  - apply andb_true_iff in H as [H1 H2]. apply IH in H2. f_equal; [lia|auto].
  - injection H as -> H. apply IH in H. rewrite H. now rewrite Z.eqb_refl.
Qed.

Ltac Zdm :=
  repeat match goal with
  | |- context [?a / ?b] => lazymatch goal with H : context [a = b * (a / b) + _] |- _ => fail | _ =>
      pose proof (Z.div_mod a b ltac:(lia)); pose proof (Z.mod_pos_bound a b ltac:(lia)) end
  | |- context [?a mod ?b] => lazymatch goal with H : context [a = b * (a / b) + _] |- _ => fail | _ =>
      pose proof (Z.div_mod a b ltac:(lia)); pose proof (Z.mod_pos_bound a b ltac:(lia)) end
  end; lia.

Lemma utf8_1 : forall a r, 0 <= a < 128 -> utf8 (a :: r) = Some (a, 1%nat).
Proof. intros. cbn [utf8]. now replace ((0 <=? a) && (a <? 128)) with true by lia. Qed.

Lemma utf8_2 : forall a b r, 194 <= a < 224 -> 128 <= b < 192 ->
  utf8 (a :: b :: r) = Some ((a - 192) * 64 + (b - 128), 2%nat).
Proof.
  intros. cbn [utf8]. unfold cont. replace ((0 <=? a) && (a <? 128)) with false by lia.
  replace ((194 <=? a) && (a <? 224)) with true by lia.
  now replace ((128 <=? b) && (b <? 192)) with true by lia.
Qed.

Lemma utf8_3 : forall a b c r, 224 <= a < 240 -> 128 <= b < 192 -> 128 <= c < 192 ->
  utf8 (a :: b :: c :: r) = Some ((a - 224) * 4096 + (b - 128) * 64 + (c - 128), 3%nat).
Proof.
  intros. cbn [utf8]. unfold cont. replace ((0 <=? a) && (a <? 128)) with false by lia.
  replace ((194 <=? a) && (a <? 224)) with false by lia.
  replace ((224 <=? a) && (a <? 240)) with true by lia.
  now replace ((128 <=? b) && (b <? 192) && ((128 <=? c) && (c <? 192))) with true by lia.
Qed.

Lemma utf8_4 : forall a b c d r, 240 <= a < 245 -> 128 <= b < 192 -> 128 <= c < 192 -> 128 <= d < 192 ->
  utf8 (a :: b :: c :: d :: r) =
  Some ((a - 240) * 262144 + (b - 128) * 4096 + (c - 128) * 64 + (d - 128), 4%nat).
Proof.
  intros. cbn [utf8]. unfold cont. replace ((0 <=? a) && (a <? 128)) with false by lia.
  replace ((194 <=? a) && (a <? 224)) with false by lia.
  replace ((224 <=? a) && (a <? 240)) with false by lia.
  now replace ((240 <=? a) && (a <? 245) && ((128 <=? b) && (b <? 192)) && ((128 <=? c) && (c <? 192)) &&
    ((128 <=? d) && (d <? 192))) with true by lia.
Qed.

Lemma some_inj : forall (A : Type) (x y : A), Some x = Some y -> x = y.
Proof. congruence. Qed.

Lemma utf8_encode_first : forall c e r, utf8_encode c = Some e ->
  utf8 (e ++ r) = Some (c, length e) /\ (1 <= length e <= 4)%nat.
Proof.
  intros c e r H. unfold utf8_encode in H.
  destruct (c <? 0) eqn:C0; [discriminate|].
  destruct (c <? 128) eqn:C1.
  { apply some_inj in H; subst e. cbn [app length]. rewrite utf8_1 by lia. split; [reflexivity|lia]. }
  destruct (c <? 2048) eqn:C2.
  { apply some_inj in H; subst e. cbn [app length].
    assert (Q : 2 <= c / 64 < 32) by Zdm. assert (R : 0 <= c mod 64 < 64) by Zdm.
    pose proof (Z.div_mod c 64 ltac:(lia)) as D.
    rewrite utf8_2 by lia. split; [|lia]. f_equal. apply f_equal2; lia. }
  destruct (c <? 65536) eqn:C3.
  { destruct ((55296 <=? c) && (c <? 57344)); [discriminate|]. apply some_inj in H; subst e. cbn [app length].
    assert (Q : 0 <= c / 4096 < 16) by Zdm. assert (R : 0 <= c / 64 mod 64 < 64) by Zdm.
    assert (S : 0 <= c mod 64 < 64) by Zdm.
    assert (D : c = c / 4096 * 4096 + c / 64 mod 64 * 64 + c mod 64).
    { pose proof (Z.div_mod c 64 ltac:(lia)). pose proof (Z.div_mod (c / 64) 64 ltac:(lia)) as E.
      rewrite Z.div_div in E by lia. change (64 * 64) with 4096 in E. lia. }
    rewrite utf8_3 by lia. split; [|lia]. f_equal. apply f_equal2; lia. }
  destruct (c <? 1114112) eqn:C4; [|discriminate].
  apply some_inj in H; subst e. cbn [app length].
  assert (Q : 0 <= c / 262144 < 5) by Zdm. assert (R : 0 <= c / 4096 mod 64 < 64) by Zdm.
  assert (S : 0 <= c / 64 mod 64 < 64) by Zdm. assert (T : 0 <= c mod 64 < 64) by Zdm.
  assert (D : c = c / 262144 * 262144 + c / 4096 mod 64 * 4096 + c / 64 mod 64 * 64 + c mod 64).
  { pose proof (Z.div_mod c 64 ltac:(lia)). pose proof (Z.div_mod (c / 64) 64 ltac:(lia)) as E.
    rewrite Z.div_div in E by lia. change (64 * 64) with 4096 in E.
    pose proof (Z.div_mod (c / 4096) 64 ltac:(lia)) as F.
    rewrite Z.div_div in F by lia. change (4096 * 64) with 262144 in F. lia. }
  rewrite utf8_4 by lia. split; [|lia]. f_equal. apply f_equal2; lia.
Qed.

Lemma mb_first_encode : forall c e r, utf8_encode c = Some e -> mb_first (e ++ r) = Some (c, length e).
Proof.
  intros c e r H. destruct (utf8_encode_first c e r H) as [U _]. unfold mb_first. rewrite U, H, firstn_exact.
  now rewrite (proj2 (zlist_eqb_eq e e) eq_refl).
Qed.

Lemma encode_nul : forall c e, utf8_encode c = Some e -> c = 0 -> e = [0].
Proof. intros c e H ->. cbn in H. congruence. Qed.

Lemma le_length : forall n v, length (le n v) = n.
Proof. induction n as [|n IH]; intros; cbn; auto. Qed.

(** ** Insertion of a character *)

Definition bmp (m : mode) (c : Z) : bool := match m with Unicode16 => c <? 65536 | _ => true end.

Lemma insert_ok : forall b bs c, holds b bs ->
  match b_mode b with
  | Unicode32 => True
  | Unicode16 => scalar c = true /\ c < 65536
  | _ => scalar c = true
  end ->
  exists b', buf_insert b c = Ok b' /\ holds b' (bs ++ encoding (b_mode b) c) /\ b_mode b' = b_mode b.
Proof.
  intros b bs c H HC. unfold buf_insert, c32rtomb.
  destruct (b_mode b) eqn:M.
  - apply encode_scalar in HC as [e E]. rewrite E. cbn [encoding]. rewrite E. rewrite <- M.
    apply insert_buffer_ok; [exact H|]. rewrite M. exists (length e). cbn. lia.
  - apply encode_scalar in HC as [e E]. rewrite E. cbn [encoding]. rewrite E. rewrite <- M.
    apply insert_buffer_ok; [exact H|]. rewrite M. exists (length e). cbn. lia.
  - destruct HC as [HC L]. pose proof HC as HS. apply encode_scalar in HC as [e E]. rewrite E.
    destruct (utf8_encode_first c e [] E) as [_ LE].
    pose proof (mb_first_encode c e [] E) as F. rewrite app_nil_r in F.
    destruct (insert_buffer_ok b bs (le 2 c) H ltac:(rewrite M, le_length; apply Nat.divide_refl)) as (b' & B1 & B2 & B3).
    exists b'. split; [|split; [|congruence]].
    + destruct e as [|x e]; [cbn in LE; lia|]. replace (2 * length (x :: e) + 2)%nat with (S (S (2 * length (x :: e))))%nat by lia.
      cbn [u16_loop]. set (f := S (2 * length (x :: e))) in *.
      unfold mbrtoc16. rewrite F. destruct (c =? 0) eqn:Z0.
      * apply Z.eqb_eq in Z0. subst c. change (Rc16 0 0 None) with (Rc16 0 0 None). rewrite B1. cbn [bind]. now destruct f.
      * replace (c <? 65536) with true by lia. cbn [length]. rewrite B1. cbn [bind].
        cbn [skipn]. rewrite skipn_all. now destruct f.
    + cbn [encoding]. unfold utf16. replace (c <? 65536) with true by lia. cbn [flat_map]. rewrite app_nil_r. exact B2.
  - cbn [encoding]. rewrite <- M. apply insert_buffer_ok; [exact H|]. rewrite M, le_length. apply Nat.divide_refl.
  - apply encode_scalar in HC as [e E]. rewrite E.
    destruct (utf8_encode_first c e [] E) as [_ LE].
    pose proof (mb_first_encode c e [] E) as F. rewrite app_nil_r in F.
    destruct (insert_buffer_ok b bs (le 4 c) H ltac:(rewrite M, le_length; apply Nat.divide_refl)) as (b' & B1 & B2 & B3).
    exists b'. split; [|split; [exact B2|congruence]].
    destruct e as [|x e]; [cbn in LE; lia|]. replace (length (x :: e) + 1)%nat with (S (length (x :: e))) by lia.
    cbn [wide_loop]. generalize (length (x :: e)) at 1. intros f. unfold mbrtoc32. rewrite F. destruct (c =? 0) eqn:Z0.
    + rewrite B1. cbn [bind]. now destruct f.
    + cbn [length]. rewrite B1. cbn [bind skipn]. rewrite skipn_all. now destruct f.
Qed.

Lemma insert_raw_ok : forall b bs v, holds b bs -> v <= raw_max (b_mode b) ->
  exists b', buf_insert_raw b v = Ok b' /\ holds b' (bs ++ le (width (b_mode b)) v) /\ b_mode b' = b_mode b.
Proof.
  intros b bs v H L. unfold buf_insert_raw. replace (v <=? raw_max (b_mode b)) with true by lia.
  apply insert_buffer_ok; [exact H|]. rewrite le_length. apply Nat.divide_refl.
Qed.
