(** C08: value and type of integer constants. *)

From Coq Require Import ZArith Bool List String Lia.
From Verif Require Import CTypes LexModel.
Import ListNotations.
Open Scope Z_scope.

(** ** Specification: C17 6.4.4.1 *)

(** Value of a digit in bases up to 16. *)
Definition digit_value (c : Z) : option Z :=
  if (48 <=? c) && (c <=? 57) then Some (c - 48)
  else if (97 <=? c) && (c <=? 102) then Some (c - 97 + 10)
  else if (65 <=? c) && (c <=? 70) then Some (c - 65 + 10)
  else None.
(** [number b w v]: [w] is a string of base [b] digits that denotes [v]. *)
Inductive number (b : Z) : list Z -> Z -> Prop :=
| num_nil : number b [] 0
| num_snoc : forall w v c d, number b w v -> digit_value c = Some d -> d < b -> number b (w ++ [c]) (v * b + d).

(** [constant dec w v]: [w] is an integer constant without suffix, decimal or not. *)
Inductive constant : bool -> list Z -> Z -> Prop :=
| const_dec : forall c w v, number 10 (c :: w) v -> c <> 48 -> constant true (c :: w) v
| const_oct : forall w v, number 8 (48 :: w) v -> constant false (48 :: w) v
| const_hex : forall x w v, number 16 w v -> w <> [] -> In x (text "xX") -> constant false (48 :: x :: w) v.

(** [suffix w u n]: suffix with or without u, with n letters l. *)
Definition unsigned_suffix (w : list Z) := In [hd 0 w] (map text ["u"; "U"]%string) /\ List.length w = 1%nat.
Definition long_suffix (w : list Z) (n : nat) :=
  In w (map text ["l"; "L"]%string) /\ n = 1%nat \/ In w (map text ["ll"; "LL"]%string) /\ n = 2%nat.
Inductive suffix : list Z -> bool -> nat -> Prop :=
| suf_none : suffix [] false 0
| suf_u : forall w, unsigned_suffix w -> suffix w true 0
| suf_l : forall w n, long_suffix w n -> suffix w false n
| suf_ul : forall w x n, unsigned_suffix w -> long_suffix x n -> suffix (w ++ x) true n
| suf_lu : forall w x n, unsigned_suffix w -> long_suffix x n -> suffix (x ++ w) true n.

(** The table of 6.4.4.1p5, row by row: int, long and long long from the length of the
    suffix on; unsigned types unless decimal without u; signed types unless u. *)
Definition longness (t : ity) : nat :=
  match t with ILong | IULong => 1 | ILLong | IULLong => 2 | _ => 0 end.
Definition candidates (u : bool) (n : nat) (dec : bool) : list ity :=
  filter (fun t => Nat.leb n (longness t) && (if isigned t then negb u else u || negb dec))
         [IInt; IUInt; ILong; IULong; ILLong; IULLong].
Definition constant_type (u : bool) (n : nat) (dec : bool) (v : Z) : option ity :=
  find (fun t => in_rangeb t v) (candidates u n dec).

(** The constant ends there: no letter or digit follows. *)
Definition ends (rest : list Z) : Prop :=
  let c := hd 0 rest in ~ (48 <= c <= 57) /\ ~ (65 <= c <= 90) /\ ~ (97 <= c <= 122).

(** ** Proofs *)

Lemma wrap_step : forall a b d, wrap64 (wrap64 (wrap64 a * b) + d) = wrap64 (a * b + d).
Proof.
  intros. unfold wrap64. rewrite Zplus_mod_idemp_l, Zplus_mod, Zmult_mod_idemp_l, <- Zplus_mod. reflexivity.
Qed.

(** The loop over the digits of [w] followed by [rest]. *)
Lemma digits_spec : forall ok val b, 
  (forall c, ok c = true <-> exists d, digit_value c = Some d /\ d < b) ->
  (forall c d, digit_value c = Some d -> d < b -> val c = d) ->
  forall w v, number b w v -> forall rest acc, 
  exists k, digits_loop ok val b (w ++ rest) (wrap64 acc) =
            digits_loop ok val b rest (wrap64 (acc * k + v)) /\ (acc = 0 -> True).
Proof.
  intros ok val b Hok Hval w v H. induction H as [|w v c d Hn IH Hd Hb]; intros rest acc.
  - exists 1. split; [|auto]. rewrite Z.mul_1_r, Z.add_0_r. reflexivity.
  - rewrite <- app_assoc. destruct (IH ([c] ++ rest) acc) as [k [E _]]. exists (k * b). split; [|auto].
    rewrite E. cbn [app digits_loop]. assert (O : ok c = true) by (apply Hok; eauto). rewrite O.
    rewrite (Hval _ _ Hd Hb). rewrite wrap_step. f_equal. f_equal. ring.
Qed.

Lemma digits_stop : forall ok val b rest v, ok (hd 0 rest) = false -> digits_loop ok val b rest v = (v, rest).
Proof. intros ok val b [|c r] v H; cbn in *; [reflexivity|]. rewrite H. reflexivity. Qed.

Ltac digit := unfold hex_value, is_hex in *; unfold digit_value, is_digit, is_octal in *.
Ltac bools := repeat match goal with
  | H : context [?a <=? ?b] |- _ => destruct (Z.leb_spec a b)
  | |- context [?a <=? ?b] => destruct (Z.leb_spec a b) end.

Lemma is_digit_spec : forall c, is_digit c = true <-> exists d, digit_value c = Some d /\ d < 10.
Proof.
  intro c. digit. bools; cbn; split; intro H'; try discriminate; try lia;
    try (eexists; split; [reflexivity|lia]); destruct H' as [d [E L]]; inversion E; lia.
Qed.
Lemma is_octal_spec : forall c, is_octal c = true <-> exists d, digit_value c = Some d /\ d < 8.
Proof.
  intro c. digit. bools; cbn; split; intro H'; try discriminate; try lia;
    try (eexists; split; [reflexivity|lia]); destruct H' as [d [E L]]; inversion E; lia.
Qed.
Lemma is_hex_spec : forall c, is_hex c = true <-> exists d, digit_value c = Some d /\ d < 16.
Proof.
  intro c. digit. bools; cbn; split; intro H'; try discriminate; try lia;
    try (eexists; split; [reflexivity|lia]); try reflexivity; destruct H' as [d [E L]]; inversion E; lia.
Qed.
Lemma val_small : forall b, b <= 10 -> forall c d, digit_value c = Some d -> d < b -> c - 48 = d.
Proof. intros b Hb c d H L. digit. bools; cbn in H; inversion H; lia. Qed.
Lemma val_hex : forall c d, digit_value c = Some d -> d < 16 -> hex_value c = d.
Proof. intros c d H L. digit. bools; cbn [andb orb] in *; inversion H; lia. Qed.

Lemma number_head : forall b w v, number b w v -> forall c, In c w -> exists d, digit_value c = Some d /\ d < b.
Proof.
  intros b w v H. induction H as [|w v c d Hn IH Hd Hb]; intros x Hx; [destruct Hx|].
  apply in_app_iff in Hx. destruct Hx as [Hx|[<-|[]]]; eauto.
Qed.

(** The three scanners on a constant. *)
Definition scan_digits (s : list Z) : option (bool * Z * list Z) :=
  match next_decimal s with
  | Some (v, r) => Some (true, v, r)
  | None => match next_hexadecimal s with
            | Some (v, r) => Some (false, v, r)
            | None => match next_octal s with Some (v, r) => Some (false, v, r) | None => None end
            end
  end.
Lemma scan_integer_digits : forall s, scan_integer s =
  match scan_digits s with Some (dec, v, r) => scan_suffix r dec v | None => IcNoMatch end.
Proof.
  intro s. unfold scan_integer, scan_digits.
  destruct (next_decimal s) as [[]|]; [reflexivity|]. destruct (next_hexadecimal s) as [[]|]; [reflexivity|].
  destruct (next_octal s) as [[]|]; reflexivity.
Qed.

Lemma digits_all : forall ok val b w v rest,
  (forall c, ok c = true <-> exists d, digit_value c = Some d /\ d < b) ->
  (forall c d, digit_value c = Some d -> d < b -> val c = d) ->
  number b w v -> ok (hd 0 rest) = false ->
  digits_loop ok val b (w ++ rest) 0 = (wrap64 v, rest).
Proof.
  intros ok val b w v rest H1 H2 Hn Hr.
  destruct (digits_spec ok val b H1 H2 w v Hn rest 0) as [k [E _]].
  change (wrap64 0) with 0 in E. rewrite E, Z.mul_0_l, Z.add_0_l. apply digits_stop. exact Hr.
Qed.

(** [tail] starts a suffix or the rest: no digit, and no x after 0. *)
Definition no_digit (s : list Z) := is_hex (hd 0 s) = false /\ hd 0 s <> 120 /\ hd 0 s <> 88.

Lemma scan_digits_spec : forall dec w v s, constant dec w v -> no_digit s ->
  scan_digits (w ++ s) = Some (dec, wrap64 v, s).
Proof.
  intros dec w v s H (N1 & N2 & N3). unfold scan_digits.
  assert (Nd : is_digit (hd 0 s) = false). { unfold is_hex in N1. destruct (is_digit (hd 0 s)); [discriminate|reflexivity]. }
  assert (No : is_octal (hd 0 s) = false). { clear -Nd. digit. bools; cbn in *; auto; discriminate || lia. }
  destruct H as [c w v Hn Hc|w v Hn|x w v Hn Hw Hx].
  - assert (D : is_digit c = true). { apply is_digit_spec. eapply number_head; eauto. left; reflexivity. }
    unfold next_decimal, char_at. cbn [app nth]. rewrite D. apply Z.eqb_neq in Hc. rewrite Hc. cbn [negb andb].
    change (c :: w ++ s) with ((c :: w) ++ s).
    rewrite (digits_all _ _ _ _ _ s is_digit_spec (val_small 10 ltac:(lia)) Hn Nd). reflexivity.
  - assert (X : next_hexadecimal ((48 :: w) ++ s) = None).
    { unfold next_hexadecimal, char_at. cbn [app nth].
      assert (E : (nth 0 (w ++ s) 0 =? 120) || (nth 0 (w ++ s) 0 =? 88) = false).
      { destruct w as [|c w].
        - cbn [app]. replace (nth 0 s 0) with (hd 0 s) by (destruct s; reflexivity).
          apply orb_false_iff. split; apply Z.eqb_neq; assumption.
        - cbn. destruct (number_head _ _ _ Hn c) as (d & Hd & Hl); [right; left; reflexivity|].
          clear -Hd. digit. apply orb_false_iff. split; apply Z.eqb_neq; intros ->; discriminate. }
      rewrite E. reflexivity. }
    rewrite X. unfold next_decimal, next_octal, char_at. cbn [app nth]. cbn [is_digit Z.eqb Pos.eqb negb andb].
    change (48 :: w ++ s) with ((48 :: w) ++ s).
    rewrite (digits_all _ _ _ _ _ s is_octal_spec (val_small 8 ltac:(lia)) Hn No). 
    destruct (is_digit 48 && false) eqn:E; [discriminate|]. reflexivity.
  - unfold next_decimal, next_hexadecimal, char_at. cbn [app nth].
    assert (E : (x =? 120) || (x =? 88) = true). { destruct Hx as [<-|[<-|[]]]; reflexivity. }
    rewrite E.
    assert (Eh : is_hex (nth 0 (w ++ s) 0) = true).
    { destruct w as [|c w]; [congruence|]. apply is_hex_spec. eapply number_head; [exact Hn|left; reflexivity]. }
    rewrite Eh. cbn [is_digit Z.eqb Pos.eqb negb andb skipn].
    rewrite (digits_all _ _ _ _ _ s is_hex_spec val_hex Hn N1).
    destruct (is_digit 48 && false) eqn:E2; [discriminate|]. reflexivity.
Qed.

(** ** Suffixes *)

Lemma suffix_list : forall w u n, suffix w u n ->
  In (w, u, n) ([([], false, 0%nat)] ++ map (fun x => (fst x, true, 0%nat)) [(text "u", 0); (text "U", 0)] ++
    [(text "l", false, 1%nat); (text "L", false, 1%nat); (text "ll", false, 2%nat); (text "LL", false, 2%nat);
     (text "ul", true, 1%nat); (text "uL", true, 1%nat); (text "Ul", true, 1%nat); (text "UL", true, 1%nat);
     (text "ull", true, 2%nat); (text "uLL", true, 2%nat); (text "Ull", true, 2%nat); (text "ULL", true, 2%nat);
     (text "lu", true, 1%nat); (text "lU", true, 1%nat); (text "Lu", true, 1%nat); (text "LU", true, 1%nat);
     (text "llu", true, 2%nat); (text "llU", true, 2%nat); (text "LLu", true, 2%nat); (text "LLU", true, 2%nat)]).
Proof.
  assert (U : forall w, unsigned_suffix w -> w = text "u" \/ w = text "U").
  { intros w [H L]. destruct w as [|c [|? ?]]; try discriminate. cbn in H. destruct H as [H|[H|[]]]; injection H as <-; auto. }
  assert (L : forall w n, long_suffix w n -> (n = 1%nat /\ (w = text "l" \/ w = text "L")) \/
                                             (n = 2%nat /\ (w = text "ll" \/ w = text "LL"))).
  { intros w n [[H ->]|[H ->]]; [left|right]; (split; [reflexivity|]); destruct H as [<-|[<-|[]]]; auto. }
  intros w u n H. destruct H as [|w H|w n H|w x n H H'|w x n H H'];
    repeat match goal with
    | H : unsigned_suffix _ |- _ => apply U in H; destruct H as [-> | ->]
    | H : long_suffix _ _ |- _ => apply L in H; destruct H as [[-> [-> | ->]]|[-> [-> | ->]]]
    end; cbn; tauto.
Qed.

Lemma ends_facts : forall rest, ends rest ->
  let c := char_at rest 0 in
  (c =? 117) = false /\ (c =? 85) = false /\ (c =? 108) = false /\ (c =? 76) = false /\ no_digit rest.
Proof.
  intros rest (H1 & H2 & H3).
  assert (E : char_at rest 0 = hd 0 rest) by (destruct rest; reflexivity). cbv zeta. rewrite E.
  repeat split; try (apply Z.eqb_neq; lia); try lia.
  digit. bools; cbn; try reflexivity; lia.
Qed.

Lemma build_spec : forall t u n dec v,
  In (t, u, n) [(IInt, false, 0%nat); (IUInt, true, 0%nat); (ILong, false, 1%nat); (IULong, true, 1%nat);
                (ILLong, false, 2%nat); (IULLong, true, 2%nat)] ->
  0 <= v -> build (permitted t dec) v = constant_type u n dec v.
Proof.
  intros t u n dec v H Hv.
  assert (B : forall t, In t [IInt; IUInt; ILong; IULong; ILLong; IULLong] -> (v <=? limit t) = in_rangeb t v).
  { intros t' H'. unfold in_rangeb. assert (E : imin t' <= 0 /\ limit t' = imax t').
    { cbn in H'. destruct H' as [<-|[<-|[<-|[<-|[<-|[<-|[]]]]]]]; split; vm_compute; congruence. }
    destruct E as [E1 E2]. rewrite E2. destruct (imin t' <=? v) eqn:E; [reflexivity|lia]. }
  unfold constant_type. cbn [In] in H.
  destruct H as [H|[H|[H|[H|[H|[H|[]]]]]]]; injection H as <- <- <-; destruct dec;
    cbn [permitted candidates filter longness isigned Nat.leb negb andb orb find build];
    repeat rewrite B by (cbn; tauto); reflexivity.
Qed.

Lemma scan_suffix_spec : forall w u n rest dec v, suffix w u n -> ends rest -> 0 <= v ->
  scan_suffix (w ++ rest) dec v =
  match constant_type u n dec v with Some t => IcOk t v rest | None => IcOutOfBounds end.
Proof.
  intros w u n rest dec v Hs He Hv. apply suffix_list in Hs. apply ends_facts in He.
  destruct He as (E1 & E2 & E3 & E4 & _).
  assert (T0 : forall s, match_string s [] = true) by reflexivity.
  unfold scan_suffix.
  assert (F : exists t, In (t, u, n) [(IInt, false, 0%nat); (IUInt, true, 0%nat); (ILong, false, 1%nat);
                (IULong, true, 1%nat); (ILLong, false, 2%nat); (IULLong, true, 2%nat)] /\
      match find_suffix suffixes (w ++ rest) with Some x => x | None => ([], IInt) end = (w, t)).
  { vm_compute in Hs. let x := eval vm_compute in suffixes in change suffixes with x.
    repeat (destruct Hs as [Hs|Hs]; [injection Hs as <- <- <-|]); try contradiction;
    (eexists; split; [|
      cbn [app find_suffix match_string char_at nth tl];
      change (nth 0 rest 0) with (char_at rest 0); rewrite ?E1, ?E2, ?E3, ?E4;
      cbn [Z.eqb Pos.eqb andb]; reflexivity]); cbn; tauto. }
  destruct F as (t & Ft & Fe). rewrite Fe. rewrite (build_spec _ _ _ _ _ Ft Hv).
  destruct (constant_type u n dec v); [|reflexivity].
  rewrite skipn_app, skipn_all, Nat.sub_diag. reflexivity.
Qed.

Lemma suffix_no_digit : forall w u n rest, suffix w u n -> ends rest -> no_digit (w ++ rest).
Proof.
  intros w u n rest H He. apply suffix_list in H.
  apply ends_facts in He. destruct He as (_ & _ & _ & _ & He).
  vm_compute in H. repeat (destruct H as [H|H]; [injection H as <- _ _|]); try contradiction;
    [exact He|..]; unfold no_digit; cbn; repeat split; discriminate.
Qed.

(** ** Theorems *)

(** Everything the scanner does on a constant: it behaves as if the value were reduced
    modulo 2^64. *)
Theorem c08_scan : forall dec w v sfx u n rest,
  constant dec w v -> suffix sfx u n -> ends rest ->
  scan_integer (w ++ sfx ++ rest) =
  match constant_type u n dec (v mod 2 ^ 64) with
  | Some t => IcOk t (v mod 2 ^ 64) rest
  | None => IcOutOfBounds
  end.
Proof.
  intros dec w v sfx u n rest Hc Hs He. rewrite scan_integer_digits.
  rewrite (scan_digits_spec _ _ _ _ Hc (suffix_no_digit _ _ _ _ Hs He)).
  apply scan_suffix_spec; auto. apply Z.mod_pos_bound. reflexivity.
Qed.

(** Full statement: the same without the bound on the value.  Refuted below. *)
Theorem c08_value_and_type_partial : forall dec w v sfx u n rest,
  constant dec w v -> suffix sfx u n -> ends rest -> v < 2 ^ 64 ->
  scan_integer (w ++ sfx ++ rest) =
  match constant_type u n dec v with
  | Some t => IcOk t v rest
  | None => IcOutOfBounds
  end.
Proof.
  intros dec w v sfx u n rest Hc Hs He Hv. rewrite (c08_scan _ _ _ _ _ _ _ Hc Hs He).
  assert (P : forall b x y, 0 < b -> number b x y -> 0 <= y).
  { clear. intros b x y Hb H. induction H as [|x y c d Hn IH Hd Hl]; [lia|].
    assert (0 <= d). { digit. bools; cbn in Hd; inversion Hd; lia. } nia. }
  assert (0 <= v) by (destruct Hc; eapply P; eauto; lia).
  rewrite Z.mod_small by lia. reflexivity.
Qed.

(** A constant that fits no type is not rejected but gets a wrong value. *)
Theorem c08_value_and_type_refuted : exists dec w v sfx u n rest,
  constant dec w v /\ suffix sfx u n /\ ends rest /\
  constant_type u n dec v = None /\ scan_integer (w ++ sfx ++ rest) = IcOk IInt 0 rest.
Proof.
  exists true, (text "18446744073709551616"), 18446744073709551616, [], false, 0%nat, (text ";").
  split.
  { change (text "18446744073709551616") with (49 :: tl (text "18446744073709551616")).
    apply const_dec; [|discriminate].
    assert (N : forall w v, number 10 w v -> forall c d v', digit_value c = Some d -> d < 10 -> v' = v * 10 + d ->
                number 10 (w ++ [c]) v') by (intros; subst; econstructor; eauto).
    change (49 :: tl (text "18446744073709551616")) with
      ((((((((((((((((((((([] ++ [49]) ++ [56]) ++ [52]) ++ [52]) ++ [54]) ++ [55]) ++ [52]) ++ [52]) ++ [48]) ++ [55])
        ++ [51]) ++ [55]) ++ [48]) ++ [57]) ++ [53]) ++ [53]) ++ [49]) ++ [54]) ++ [49]) ++ [54])).
    change 18446744073709551616 with (1844674407370955161 * 10 + 6).
    repeat match goal with
    | |- number _ [] _ => apply num_nil
    | |- number _ (_ ++ _) (?v * 10 + ?d) => apply num_snoc; [|reflexivity|lia];
        let q := eval vm_compute in (v / 10) in let r := eval vm_compute in (v mod 10) in
        try change v with (q * 10 + r)
    end. }
  split; [constructor|]. split; [vm_compute; repeat split; intros [H1 H2]; try (apply H1; reflexivity); apply H2; reflexivity|].
  split; vm_compute; reflexivity.
Qed.

Example c08_example :
  scan_integer (text "0xFFFFFFFF+1") = IcOk IUInt 4294967295 (text "+1") /\
  scan_integer (text "2147483648") = IcOk ILong 2147483648 [] /\
  scan_integer (text "017uL;") = IcOk IULong 15 (text ";") /\
  constant false (text "0x1f") 31 /\ suffix (text "uL") true 1 /\ ends (text ";").
Proof.
  split; [vm_compute; reflexivity|]. split; [vm_compute; reflexivity|]. split; [vm_compute; reflexivity|].
  split. { apply (const_hex 120 [49; 102] 31); [|discriminate|cbn; auto].
           apply (num_snoc 16 [49] 1 102 15); [|reflexivity|lia]. apply (num_snoc 16 [] 0 49 1); [constructor|reflexivity|lia]. }
  split. { apply (suf_ul (text "u") (text "L") 1); [split; [left|]; reflexivity|left; split; [right; left|]; reflexivity]. }
  vm_compute; repeat split; intros [H1 H2]; try (apply H1; reflexivity); apply H2; reflexivity.
Qed.

Print Assumptions c08_scan.
Print Assumptions c08_value_and_type_partial.
Print Assumptions c08_value_and_type_refuted.
