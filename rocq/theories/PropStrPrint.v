(** C09: printed string literals and character constants are read back unchanged. *)

From Coq Require Import ZArith Bool List Lia PeanoNat ZifyBool ZifyNat.
From Verif Require Import LexModel LexCursor StrModel StrProofs PropStr.
Import ListNotations.
Open Scope Z_scope.

(** A string literal token with the given elements. *)
Definition literal_with (m : mode) (vs : list Z) : literal :=
  {| s_mode := m; s_bytes := flat_map (le (width m)) vs ++ repeat 0 (width m); s_count := S (length vs) |}.

(** ** Escapes *)

(** The forms of a printed byte. *)
Definition byte_form (b : Z) : bool :=
  match format_char b with
  | [c] => (c =? b) && negb ((c =? 34) || (c =? 0) || (c =? 10) || (c =? 92) || (c =? 39))
  | [c; e] => (c =? 92) && match zassoc e simple_escapes with
              | Some v => (v =? b) && negb (v =? 0) && negb (e =? 120)
              | None => (e =? 48) && (b =? 0)
              end
  | [c; x; y; z] => (c =? 92) && is_octal x && is_octal y && is_octal z &&
      (Z.lor (Z.lor (Z.shiftl (oct x) 6) (Z.shiftl (oct y) 3)) (oct z) =? b) &&
      match zassoc x simple_escapes with None => true | Some _ => false end
  | _ => false
  end.

Lemma byte_forms : forall b, 0 <= b < 128 -> byte_form b = true.
Proof.
  intros b H. assert (F : forallb byte_form (map Z.of_nat (seq 0 128)) = true) by (vm_compute; reflexivity).
  rewrite forallb_forall in F. apply F. apply in_map_iff. exists (Z.to_nat b). split; [lia|].
  apply in_seq. lia.
Qed.

(** Reading a printed byte. *)
Lemma read_byte : forall b s, 0 <= b < 128 -> (b = 0 -> is_octal (char_at s 0) = false) ->
  (format_char b = [b] /\ b <> 34 /\ b <> 0 /\ b <> 10 /\ b <> 92 /\ b <> 39) \/
  (exists r, format_char b = 92 :: r /\ next_escape (format_char b ++ s) = Ok (b, s)).
Proof.
  intros b s H N. pose proof (byte_forms b H) as F. unfold byte_form in F.
  destruct (format_char b) as [|c [|x [|y [|z [|]]]]]; try discriminate F.
  - apply andb_true_iff in F as [F1 F2]. assert (c = b) by lia. subst c. left. split; [reflexivity|]. lia.
  - apply andb_true_iff in F as [F1 F2]. assert (c = 92) by lia. subst c. right. eexists. split; [reflexivity|].
    unfold next_escape. cbn [app char_at nth]. change (92 =? 92) with true. cbv iota.
    unfold next_simple. cbn [char_at nth skipn].
    destruct (zassoc x simple_escapes) as [v|] eqn:E.
    + cbn [or_else]. assert (v = b) by lia. now subst.
    + assert (x = 48) by lia. assert (b = 0) by lia. subst. cbn [or_else]. unfold next_octal_escape.
      specialize (N eq_refl). cbn [char_at nth skipn]. cbn [char_at] in N.
      change (nth 0 s 0) with (char_at s 0) in N.
      replace (nth 0 s 0) with (char_at s 0) by reflexivity. rewrite N.
      change (is_octal 48) with true. cbn [andb or_else]. reflexivity.
  - repeat (apply andb_true_iff in F as [F ?]). assert (c = 92) by lia. subst c. right. eexists. split; [reflexivity|].
    unfold next_escape. cbn [app char_at nth]. change (92 =? 92) with true. cbv iota.
    unfold next_simple. cbn [char_at nth skipn]. destruct (zassoc x simple_escapes); [discriminate|].
    cbn [or_else]. unfold next_octal_escape. cbn [char_at nth skipn].
    repeat match goal with E : is_octal ?q = true |- _ => rewrite E; clear E end. cbn [andb or_else].
    f_equal. f_equal. lia.
Qed.

Lemma digit_hex : forall d, 0 <= d < 16 ->
  is_hex (if d <? 10 then 48 + d else 87 + d) = true /\ hex_value (if d <? 10 then 48 + d else 87 + d) = d.
Proof.
  intros d H. unfold is_hex, hex_value, is_digit. destruct (d <? 10) eqn:E.
  - replace ((48 <=? 48 + d) && (48 + d <=? 57)) with true by lia. cbn [orb]. split; [reflexivity|lia].
  - replace ((48 <=? 87 + d) && (87 + d <=? 57)) with false by lia.
    replace ((97 <=? 87 + d) && (87 + d <=? 102)) with true by lia. cbn [orb]. split; [reflexivity|].
    replace (97 <=? 87 + d) with true by lia. lia.
Qed.

Lemma hex_digits : forall n v s, 0 <= v < 16 ^ Z.of_nat (S n) -> v < 2 ^ 32 ->
  hex_loop 0 (digits n 16 v ++ s) = hex_loop v s /\
  exists c r, digits n 16 v ++ s = c :: r /\ is_hex c = true.
Proof.
  induction n as [|n IH]; intros v s H L.
  - cbn [digits]. change (16 ^ Z.of_nat 1) with 16 in H. rewrite Z.mod_small by lia.
    destruct (digit_hex v H) as [D1 D2]. cbn [app hex_loop]. rewrite D1, D2.
    rewrite Z.mul_0_l, Z.add_0_l, Z.mod_small by lia. split; [reflexivity|]. eauto.
  - cbn [digits]. set (c := if v mod 16 <? 10 then 48 + v mod 16 else 87 + v mod 16).
    pose proof (Z.mod_pos_bound v 16 ltac:(lia)) as MB. destruct (digit_hex _ MB) as [D1 D2]. fold c in D1, D2.
    destruct (v <? 16) eqn:E.
    + rewrite Z.mod_small in * by lia. cbn [app hex_loop]. rewrite D1, D2.
      rewrite Z.mul_0_l, Z.add_0_l, Z.mod_small by lia. split; [reflexivity|]. eauto.
    + rewrite <- app_assoc. cbn [app].
      pose proof (Z.div_mod v 16 ltac:(lia)) as DM.
      assert (P : 16 ^ Z.of_nat (S (S n)) = 16 * 16 ^ Z.of_nat (S n)).
      { rewrite (Nat2Z.inj_succ (S n)). rewrite Z.pow_succ_r by lia. reflexivity. }
      rewrite P in H. assert (V : 0 <= v / 16 < 16 ^ Z.of_nat (S n)) by lia.
      destruct (IH (v / 16) (c :: s) V ltac:(lia)) as [H1 H2]. split; [|exact H2].
      rewrite H1. cbn [hex_loop]. rewrite D1, D2. f_equal. rewrite Z.mod_small; lia.
Qed.

Lemma hex_stop : forall v s, is_hex (char_at s 0) = false -> hex_loop v s = (v, s).
Proof. intros v [|c s] H; [reflexivity|]. cbn [char_at nth] in H. cbn [hex_loop]. now rewrite H. Qed.

Lemma read_hex : forall v s, 0 <= v < 2 ^ 32 -> is_hex (char_at s 0) = false ->
  next_escape (92 :: 120 :: print_hex v ++ s) = Ok (v, s).
Proof.
  intros v s H N. unfold next_escape. cbn [char_at nth]. change (92 =? 92) with true. cbv iota.
  unfold next_simple. cbn [char_at nth]. change (zassoc 120 simple_escapes) with (@None Z). cbv iota. cbn [or_else].
  unfold next_octal_escape. cbn [char_at nth]. change (is_octal 120) with false. cbn [andb or_else].
  unfold next_hex_escape. cbn [char_at nth skipn]. change (120 =? 120) with true. cbv iota.
  change (16 ^ Z.of_nat 8) with (2 ^ 32) in *.
  destruct (hex_digits 7 v s ltac:(change (16 ^ Z.of_nat 8) with (2 ^ 32); lia) ltac:(lia)) as [H1 (c & r & H2 & H3)].
  unfold print_hex. rewrite H1. rewrite H2. cbn [nth]. rewrite H3. cbn [or_else]. now rewrite hex_stop.
Qed.

(** ** One element *)

Lemma le1 : forall v, 0 <= v < 128 -> le 1 v = [v].
Proof. intros v H. cbn [le]. now rewrite Z.mod_small by lia. Qed.

Lemma utf8_ascii : forall v, 0 <= v < 128 -> utf8_encode v = Some [v].
Proof.
  intros v H. unfold utf8_encode. replace (v <? 0) with false by lia. now replace (v <? 128) with true by lia.
Qed.

Lemma scalar_ascii : forall v, 0 <= v < 128 -> scalar v = true.
Proof. intros v H. apply encode_scalar. rewrite utf8_ascii by exact H. eauto. Qed.

Lemma flat_le_length : forall w vs, length (flat_map (le w) vs) = (length vs * w)%nat.
Proof. induction vs as [|v vs IH]; cbn; [reflexivity|]. rewrite app_length, le_length, IH. lia. Qed.

Lemma unle_le : forall n v, 0 <= v < 256 ^ Z.of_nat n -> unle (le n v) = v.
Proof.
  induction n as [|n IH]; intros v H.
  - cbn in *. lia.
  - cbn [le unle]. rewrite Nat2Z.inj_succ, Z.pow_succ_r in H by lia.
    pose proof (Z.div_mod v 256 ltac:(lia)). pose proof (Z.mod_pos_bound v 256 ltac:(lia)).
    rewrite IH; lia.
Qed.

Lemma elements_le : forall w vs r, Forall (fun v => 0 <= v < 256 ^ Z.of_nat w) vs ->
  elements (length vs) w (flat_map (le w) vs ++ r) = vs.
Proof.
  induction vs as [|v vs IH]; intros r H; [reflexivity|]. inversion_clear H as [|? ? H1 H2].
  cbn [length elements flat_map]. rewrite <- app_assoc.
  pose proof (firstn_exact _ (le w v) (flat_map (le w) vs ++ r)) as E1.
  pose proof (skipn_exact _ (le w v) (flat_map (le w) vs ++ r)) as E2. rewrite le_length in E1, E2.
  rewrite E1, E2, unle_le by exact H1. f_equal. now apply IH.
Qed.

Lemma scalar_range : forall v, scalar v = true -> 0 <= v < 1114112.
Proof. intros v H. unfold scalar in H. lia. Qed.

Lemma literal_of_holds : forall b m vs, b_mode b = m -> holds b (flat_map (le (width m)) vs) ->
  literal_of b = literal_with m vs.
Proof.
  intros b m vs M (k & HB & HL & D1 & D2 & K). unfold literal_of, buf_value, literal_with.
  rewrite M in *. rewrite HL, HB, flat_le_length. pose proof (width_pos m).
  rewrite Nat.div_mul by lia. f_equal; [|lia].
  rewrite firstn_app, flat_le_length. rewrite firstn_all2 by (rewrite flat_le_length; lia).
  f_equal. replace ((length vs + 1) * width m - length vs * width m)%nat with (width m) by lia.
  now apply firstn_repeat.
Qed.

Lemma starts_with_app : forall p s, starts_with p (p ++ s) = true.
Proof. induction p as [|c p IH]; intros s; cbn [starts_with app char_at nth skipn]; [reflexivity|]. now rewrite Z.eqb_refl, IH. Qed.

Section Print.

Variable iswprint : Z -> bool.

(** Elements that survive printing, given the element that follows. *)
Definition survives (m : mode) (v : Z) (next : option Z) : bool :=
  match m with
  | Multibyte | Unicode8 =>
    (0 <=? v) && (v <? 128) &&
    (negb (v =? 0) || match next with Some n => negb (is_octal n) | None => true end)
  | Unicode16 => (0 <=? v) && (v <? 2 ^ 16)
  | Unicode32 => (0 <=? v) && (v <? 2 ^ 32)
  | Wide =>
    if iswprint v then scalar v && negb ((v =? 34) || (v =? 92) || (v =? 10) || (v =? 0))
    else (0 <=? v) && (v <? 2 ^ 31) &&
         match next with Some n => negb (iswprint n && is_hex n) | None => true end
  end.
Fixpoint all_survive (m : mode) (vs : list Z) : bool :=
  match vs with
  | [] => true
  | v :: vs => survives m v (hd_error vs) && all_survive m vs
  end.

(** What follows an element in the text. *)
Definition follows (m : mode) (v c : Z) : bool :=
  match m with
  | Multibyte | Unicode8 => negb (v =? 0) || negb (is_octal c)
  | Unicode16 | Unicode32 => negb (is_hex c)
  | Wide => iswprint v || negb (is_hex c)
  end.

Lemma read_element : forall m v next s b bs f, b_mode b = m -> holds b bs -> survives m v next = true ->
  follows m v (char_at s 0) = true ->
  exists b', string_loop (S f) b (format_element iswprint m v ++ s) = string_loop f b' s /\
  holds b' (bs ++ le (width m) v) /\ b_mode b' = m.
Proof.
  intros m v next s b bs f M H SV FL.
  assert (BYTE : (m = Multibyte \/ m = Unicode8) ->
    exists b', string_loop (S f) b (format_char v ++ s) = string_loop f b' s /\
    holds b' (bs ++ le (width m) v) /\ b_mode b' = m).
  { intros HM. assert (W : width m = 1%nat) by (destruct HM; subst m; rewrite H0; reflexivity).
    assert (V : 0 <= v < 128 /\ (v = 0 -> is_octal (char_at s 0) = false)).
    { destruct HM as [HM|HM]; rewrite HM in SV, FL; cbn [survives follows] in SV, FL; split; try lia;
        intros ->; change (0 =? 0) with true in FL; destruct (is_octal (char_at s 0)); auto; discriminate FL. }
    destruct V as [V N].
    destruct (insert_ok b bs v H) as (b1 & B1 & B2 & B3).
    { pose proof (scalar_ascii v V). destruct HM as [HM|HM]; rewrite M, HM; auto. }
    destruct (insert_raw_ok b bs v H) as (b2 & C1 & C2 & C3).
    { destruct HM as [HM|HM]; rewrite M, HM; cbn; lia. }
    assert (E1 : encoding (b_mode b) v = le (width m) v).
    { rewrite W, le1 by exact V. destruct HM as [HM|HM]; rewrite M, HM; cbn [encoding]; now rewrite utf8_ascii by exact V. }
    rewrite E1 in B2. rewrite M in C2.
    destruct (read_byte v s V N) as [(E & Q)|(r & E & Q)].
    - exists b1. rewrite E. cbn [app string_loop char_at nth skipn].
      replace (v =? 34) with false by lia. replace ((v =? 0) || (v =? 10)) with false by lia.
      replace (v =? 92) with false by lia. rewrite B1. cbn [bind]. repeat split; auto; congruence.
    - cbn [string_loop]. rewrite Q. rewrite E. cbn [app char_at nth]. change (92 =? 34) with false. change (92 =? 92) with true.
      change ((92 =? 0) || (92 =? 10)) with false. cbv iota. cbn [bind fst snd].
      match goal with |- context [bind (if ?x then _ else _)] => destruct x end.
      + rewrite C1. cbn [bind]. exists b2. repeat split; auto; congruence.
      + rewrite B1. cbn [bind]. exists b1. repeat split; auto; congruence. }
  assert (HEX : 0 <= v < 2 ^ 32 -> v <= raw_max m -> is_hex (char_at s 0) = false ->
    exists b', string_loop (S f) b ((92 :: 120 :: print_hex v) ++ s) = string_loop f b' s /\
    holds b' (bs ++ le (width m) v) /\ b_mode b' = m).
  { intros V R N. destruct (insert_raw_ok b bs v H ltac:(rewrite M; exact R)) as (b2 & C1 & C2 & C3).
    pose proof (read_hex v s V N) as Q. cbn [app]. cbn [string_loop]. rewrite Q. cbn [char_at nth].
    change (92 =? 34) with false. change (92 =? 92) with true. change ((92 =? 0) || (92 =? 10)) with false.
    change (120 =? 120) with true. cbn [orb]. cbv iota. cbn [bind fst snd]. rewrite C1. cbn [bind]. exists b2.
    rewrite M in C2. repeat split; auto; congruence. }
  destruct m; cbn [format_element].
  - apply BYTE. auto.
  - apply BYTE. auto.
  - cbn [survives follows raw_max] in *. apply HEX; [lia|lia|]. destruct (is_hex (char_at s 0)); [discriminate|reflexivity].
  - cbn [survives follows raw_max] in *. apply HEX; [lia|lia|]. destruct (is_hex (char_at s 0)); [discriminate|reflexivity].
  - cbn [survives follows raw_max] in *. destruct (iswprint v).
    + apply andb_true_iff in SV as [SC NQ]. destruct (insert_ok b bs v H ltac:(rewrite M; exact SC)) as (b1 & B1 & B2 & B3).
      exists b1. cbn [app string_loop char_at nth skipn].
      replace (v =? 34) with false by lia. replace ((v =? 0) || (v =? 10)) with false by lia.
      replace (v =? 92) with false by lia. rewrite B1. cbn [bind]. rewrite M in B2. repeat split; auto; congruence.
    + apply HEX; [lia|lia|]. cbn [orb] in FL. destruct (is_hex (char_at s 0)); [discriminate|reflexivity].
Qed.

(** The first character of what is printed after an element. *)
Lemma next_char : forall m v vs s, survives m v (hd_error vs) = true -> all_survive m vs = true ->
  follows m v (char_at (flat_map (format_element iswprint m) vs ++ 34 :: s) 0) = true.
Proof.
  intros m v vs s SV ALL. destruct vs as [|w vs].
  - cbn [flat_map app char_at nth]. destruct m; cbn [follows]; change (is_octal 34) with false;
      change (is_hex 34) with false; try apply orb_true_r; reflexivity.
  - cbn [hd_error all_survive flat_map] in *. apply andb_true_iff in ALL as [SW _].
    assert (BYTE : 0 <= w < 128 -> (negb (v =? 0) || negb (is_octal w)) = true ->
       (negb (v =? 0) || negb (is_octal (char_at ((format_char w ++ flat_map (format_element iswprint m) vs) ++ 34 :: s) 0))) = true).
    { intros W HV. destruct (negb (v =? 0)); [reflexivity|]. cbn [orb] in *.
      pose proof (byte_forms w W) as F. unfold byte_form in F.
      destruct (format_char w) as [|c [|x [|y [|z [|]]]]]; try discriminate F; cbn [app char_at nth];
        [|assert (c = 92) as -> by lia; reflexivity|assert (c = 92) as -> by lia; reflexivity].
      apply andb_true_iff in F as [F _]. assert (c = w) as -> by lia. exact HV. }
    destruct m; cbn [follows format_element survives] in *.
    + apply BYTE; lia.
    + apply BYTE; lia.
    + reflexivity.
    + reflexivity.
    + destruct (iswprint v); [reflexivity|]. cbn [orb]. destruct (iswprint w); [|reflexivity].
      cbn [app char_at nth]. apply andb_true_iff in SV as [_ SV]. exact SV.
Qed.

Lemma element_nonempty : forall m v next, survives m v next = true -> (1 <= length (format_element iswprint m v))%nat.
Proof.
  intros m v next SV. assert (BYTE : 0 <= v < 128 -> (1 <= length (format_char v))%nat).
  { intros V. pose proof (byte_forms v V) as F. unfold byte_form in F. destruct (format_char v); [discriminate F|cbn; lia]. }
  destruct m; cbn [format_element survives] in *; try (apply BYTE; lia); try (cbn [length]; lia).
  destruct (iswprint v); cbn [length]; lia.
Qed.

Lemma read_elements : forall m vs b bs s fuel, b_mode b = m -> holds b bs -> all_survive m vs = true ->
  (length (flat_map (format_element iswprint m) vs) < fuel)%nat ->
  exists b', string_loop fuel b (flat_map (format_element iswprint m) vs ++ 34 :: s) = Ok (b', s) /\
  holds b' (bs ++ flat_map (le (width m)) vs) /\ b_mode b' = m.
Proof.
  intros m. induction vs as [|v vs IH]; intros b bs s fuel M H ALL F; destruct fuel as [|fuel]; [cbn in F; lia| |cbn in F; lia|].
  - exists b. cbn [flat_map app string_loop char_at nth skipn]. change (34 =? 34) with true. cbv iota.
    rewrite app_nil_r. auto.
  - cbn [all_survive] in ALL. apply andb_true_iff in ALL as [SV ALL].
    cbn [flat_map] in F. rewrite app_length in F. pose proof (element_nonempty m v _ SV).
    pose proof (next_char m v vs s SV ALL) as FL.
    destruct (read_element m v _ _ b bs fuel M H SV FL) as (b1 & E1 & H1 & M1).
    destruct (IH b1 _ s fuel M1 H1 ALL ltac:(lia)) as (b2 & E2 & H2 & M2).
    exists b2. cbn [flat_map]. rewrite <- app_assoc. rewrite E1. split; [exact E2|]. split; [|exact M2].
    now rewrite app_assoc.
Qed.

(** ** Literals *)

Lemma survive_range : forall m vs, all_survive m vs = true -> Forall (fun v => 0 <= v < 256 ^ Z.of_nat (width m)) vs.
Proof.
  intros m. induction vs as [|v vs IH]; intros H; constructor; cbn [all_survive] in H; apply andb_true_iff in H as [H1 H2]; [|auto].
  destruct m; cbn [survives width] in *; try (change (256 ^ Z.of_nat 1) with 256; lia);
    try (change (256 ^ Z.of_nat 2) with (2 ^ 16); lia); change (256 ^ Z.of_nat 4) with (2 ^ 32); try lia.
  destruct (iswprint v); [|lia]. apply andb_true_iff in H1 as [H1 _]. pose proof (scalar_range v H1). lia.
Qed.

(** Partial: the literals excluded by [all_survive] are not all read back unchanged,
    see [c09_round_trip_refuted]. *)
Theorem c09_round_trip_partial :
  forall m vs s, all_survive m vs = true ->
  match_literal (format_literal iswprint (literal_with m vs) ++ s) = Ok (literal_with m vs, s).
Proof.
  intros m vs s ALL. unfold format_literal, literal_with. cbn [s_mode s_bytes s_count].
  rewrite Nat.sub_succ, Nat.sub_0_r, elements_le by (now apply survive_range).
  assert (N : next_literal m ((prefix m ++ flat_map (format_element iswprint m) vs ++ [34]) ++ s) =
              Ok (literal_with m vs, s)).
  { unfold next_literal. rewrite <- !app_assoc, starts_with_app, skipn_exact. cbn [app].
    destruct (read_elements m vs (buf_init m) [] s (S (length (flat_map (format_element iswprint m) vs ++ 34 :: s)))
      eq_refl (init_holds m) ALL ltac:(rewrite app_length; cbn; lia)) as (b & E & H & M).
    rewrite E. cbn [bind fst snd]. now rewrite (literal_of_holds b m vs M H). }
  unfold match_literal. fold (literal_with m vs) in *.
  destruct m; rewrite N; reflexivity.
Qed.

End Print.

(** Bytes 1 to 127 in ordinary literals, all char16_t and char32_t literals. *)
Corollary c09_ascii : forall isw m bs s, m = Multibyte \/ m = Unicode8 -> Forall (fun b => 1 <= b < 128) bs ->
  match_literal (format_literal isw (literal_with m bs) ++ s) = Ok (literal_with m bs, s).
Proof.
  intros isw m bs s HM F. apply c09_round_trip_partial. induction F as [|b bs H F IH]; [reflexivity|].
  cbn [all_survive]. rewrite IH, andb_true_r. destruct HM; subst m; cbn [survives]; lia.
Qed.

Corollary c09_unicode : forall isw vs s,
  (Forall (fun v => 0 <= v < 2 ^ 16) vs ->
   match_literal (format_literal isw (literal_with Unicode16 vs) ++ s) = Ok (literal_with Unicode16 vs, s)) /\
  (Forall (fun v => 0 <= v < 2 ^ 32) vs ->
   match_literal (format_literal isw (literal_with Unicode32 vs) ++ s) = Ok (literal_with Unicode32 vs, s)).
Proof.
  intros isw vs s. split; intros F; apply c09_round_trip_partial; induction F as [|b bs H F IH]; try reflexivity;
    cbn [all_survive]; rewrite IH, andb_true_r; cbn [survives]; lia.
Qed.

Definition ascii_print (v : Z) : bool := (32 <=? v) && (v <? 127).

(** a, double quote, newline, byte 1, digit 7, backslash, NUL, x *)
Example c09_example :
  format_literal ascii_print (literal_with Multibyte [97; 34; 10; 1; 55; 92; 0; 120]) =
    [34; 97; 92; 34; 92; 110; 92; 48; 48; 49; 55; 92; 92; 92; 48; 120; 34] /\
  all_survive ascii_print Multibyte [97; 34; 10; 1; 55; 92; 0; 120] = true /\
  all_survive ascii_print Wide [97; 9; 120; 8364] = true /\
  match_literal (format_literal ascii_print (literal_with Unicode16 [55357; 56832; 97]) ++ [59]) =
    Ok (literal_with Unicode16 [55357; 56832; 97], [59]).
Proof. vm_compute. auto. Qed.

(** The general claim is false: NUL followed by an octal digit, a byte above 127, a wide
    literal with a quote, a backslash or a digit after an unprintable character. *)
Theorem c09_round_trip_refuted :
  match_literal (format_literal ascii_print (literal_with Multibyte [0; 49])) = Ok (literal_with Multibyte [1], []) /\
  match_literal (format_literal ascii_print (literal_with Multibyte [195])) =
    Ok (literal_with Multibyte [255; 55; 55; 55; 55; 55; 55; 48; 51], []) /\
  match_literal (format_literal ascii_print (literal_with Wide [97; 34])) = Ok (literal_with Wide [97], [34]) /\
  match_literal (format_literal ascii_print (literal_with Wide [92; 110])) = Ok (literal_with Wide [10], []) /\
  match_literal (format_literal ascii_print (literal_with Wide [1; 97])) = Ok (literal_with Wide [26], []).
Proof. vm_compute. repeat split. Qed.

(** ** Character constants *)

Theorem c45_narrow_partial :
  forall isw v s, 0 <= v < 128 ->
  match_char_constant (format_constant isw (CNarrow (Some v)) ++ s) = Ok (CNarrow (Some v), s).
Proof.
  intros isw v s V. cbn [format_constant]. rewrite Z.mod_small by lia. rewrite <- !app_assoc. cbn [app].
  unfold match_char_constant.
  enough (E : next_char_constant (39 :: format_char v ++ 39 :: s) = Ok (Some v, s)) by (rewrite E; reflexivity).
  unfold next_char_constant. cbn [char_at nth]. change (39 =? 39) with true. cbv iota. cbn [skipn].
  assert (N : v = 0 -> is_octal (char_at (39 :: s) 0) = false) by reflexivity.
  assert (ADD : add_byte (Some 0) v = Some v).
  { unfold add_byte, schar. replace (v <? 128) with true by lia. change (0 * 256) with 0. rewrite Z.add_0_l.
    now replace ((0 <=? 0) && (v <? 2 ^ 31)) with true by lia. }
  assert (ENC : c32rtomb v = Some [v]) by (apply utf8_ascii; exact V).
  destruct (read_byte v (39 :: s) V N) as [(E & Q)|(r & E & Q)].
  - rewrite E. cbn [app nth length]. replace (v =? 39) with false by lia. cbn [char_loop char_at nth skipn].
    replace (v =? 92) with false by lia. replace (v =? 39) with false by lia. rewrite ENC. cbn [fold_left]. rewrite ADD.
    reflexivity.
  - assert (C0 : nth 0 (format_char v ++ 39 :: s) 0 = 92) by (rewrite E; reflexivity).
    change (nth 0 (format_char v ++ 39 :: s) 0) with (char_at (format_char v ++ 39 :: s) 0) in C0.
    replace (nth 0 (format_char v ++ 39 :: s) 0) with 92 by (symmetry; exact C0). change (92 =? 39) with false. cbv iota.
    cbn [length]. rewrite app_length. cbn [length]. replace (length (format_char v) + S (length s))%nat
      with (S (length (format_char v) + length s)) by lia.
    cbn [char_loop]. rewrite C0. change (92 =? 92) with true. cbv iota. rewrite Q. cbn [bind fst snd].
    replace (v <=? 255) with true by lia. rewrite ENC. cbn [fold_left]. rewrite ADD.
    match goal with |- (if ?x then _ else _) = _ => destruct x end; reflexivity.
Qed.

(** Constants above 127 and multi-character constants are printed wrongly; a wide
    constant never comes back as a wide constant, a char16_t or char32_t constant is
    printed as a bare character. *)
Theorem c45_refuted :
  (forall isw v s r t, match_char_constant (format_constant isw (CWide v) ++ s) <> Ok (CWide r, t)) /\
  (forall isw, format_constant isw (CUnicode16 97) = [97]) /\
  match_char_constant [39; 97; 98; 39] = Ok (CNarrow (Some 24930), []) /\
  (forall isw, format_constant isw (CNarrow (Some 24930)) = [39; 98; 39]) /\
  match_char_constant [39; 92; 120; 102; 102; 39] = Ok (CNarrow (Some (-1)), []) /\
  (forall isw, match_char_constant (format_constant isw (CNarrow (Some (-1)))) = Ok (CNarrow None, [])).
Proof.
  split; [|repeat split; reflexivity].
  intros isw v s r t. cbn [format_constant]. rewrite <- !app_assoc. cbn [app].
  unfold match_char_constant. set (x := format_wchar isw v ++ 39 :: s).
  destruct (next_char_constant (39 :: x)) as [[v' t']| | |]; cbn [bind or_else fst snd]; try discriminate.
Qed.

Print Assumptions c09_round_trip_partial.
Print Assumptions c09_ascii.
Print Assumptions c09_unicode.
Print Assumptions c09_round_trip_refuted.
Print Assumptions c45_narrow_partial.
Print Assumptions c45_refuted.
