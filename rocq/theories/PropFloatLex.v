(** C69: preprocessing numbers become the floating and integer constants they spell. *)
From Coq Require Import ZArith Bool List Lia String.
From Verif Require Import CTypes LexModel FloatLexModel FloatLexSpec FloatLexProofs.
From Verif Require PropIntConst.
Import ListNotations.
Open Scope Z_scope.

(** A preprocessing number becomes a floating constant exactly if it is one, as a whole: with the
    type of its suffix and the text before it.  (Partial: two forms are taken for floating constants
    that are none, see below.) *)
Theorem c69_floating_partial : forall s t ty,
  ~ no_exponent s t ty -> ~ behind_prefix s t ty ->
  convert_number s = Some (Floating t ty) <-> floating_constant s t ty.
Proof.
  intros s t ty N B. unfold convert_number. split.
  - intros H. destruct (scan_floating s) as [t' ty' r|r|] eqn:E; [|destruct (scan_integer s) as [| |? ? []]; discriminate H|discriminate H].
    destruct r; [|discriminate H]. injection H as -> ->. apply scan_exact in E. tauto.
  - intros H. assert (E : scan_floating s = Match t ty []) by (apply scan_exact; auto). now rewrite E.
Qed.

(** No floating constant is missed, whatever else is accepted. *)
Theorem c69_floating_accepted : forall s t ty, floating_constant s t ty -> convert_number s = Some (Floating t ty).
Proof.
  intros s t ty H. unfold convert_number. assert (E : scan_floating s = Match t ty []) by (apply scan_exact; auto). now rewrite E.
Qed.

(** So no text is a floating constant in two ways. *)
Theorem c69_floating_unique : forall s t ty t' ty', floating_constant s t ty -> floating_constant s t' ty' -> t = t' /\ ty = ty'.
Proof. intros * A B. apply c69_floating_accepted in A, B. rewrite A in B. injection B as -> ->. auto. Qed.

(** Integer constants (of C08) do not fall into the hands of the scanner of floating ones. *)
Lemma number_digits : forall b w v (p : Z -> bool), PropIntConst.number b w v ->
  (forall c d, PropIntConst.digit_value c = Some d -> d < b -> p c = true) -> Forall (fun c => p c = true) w.
Proof.
  intros * N H. induction N as [|w v c d N IH D L]; [constructor|]. apply Forall_app. split; [auto|]. constructor; [eauto|constructor].
Qed.
Lemma digit_value_range : forall c d, PropIntConst.digit_value c = Some d ->
  (48 <= c <= 57 /\ d = c - 48) \/ (97 <= c <= 102 /\ d = c - 87) \/ (65 <= c <= 70 /\ d = c - 55).
Proof.
  intros c d. unfold PropIntConst.digit_value.
  destruct (Z.leb_spec 48 c), (Z.leb_spec c 57), (Z.leb_spec 97 c), (Z.leb_spec c 102), (Z.leb_spec 65 c), (Z.leb_spec c 70);
    cbn [andb]; intros E; try discriminate E; injection E as <-; lia.
Qed.
Lemma decimal_value : forall c d, PropIntConst.digit_value c = Some d -> d < 10 -> FloatLexModel.is_digit c = true.
Proof. intros c d D L. apply is_digit_spec. apply digit_value_range in D. unfold digit. lia. Qed.
Lemma hexadecimal_value : forall c d, PropIntConst.digit_value c = Some d -> is_hexdigit c = true.
Proof. intros c d D. apply is_hexdigit_spec. apply digit_value_range in D. unfold hexdigit, digit. lia. Qed.

Lemma suffix_start : forall x u n, PropIntConst.suffix x u n -> x = [] \/ exists c r, x = c :: r /\ In c [117; 85; 108; 76].
Proof.
  assert (U : forall w, PropIntConst.unsigned_suffix w -> exists c r, w = c :: r /\ In c [117; 85; 108; 76]).
  { intros [|c r] (A & B); [discriminate B|]. exists c, r. split; [auto|]. cbn in A. destruct A as [A|[A|[]]]; injection A as <-; cbn; auto. }
  assert (L : forall w n, PropIntConst.long_suffix w n -> exists c r, w = c :: r /\ In c [117; 85; 108; 76]).
  { intros w n [(A & _)|(A & _)]; cbn in A; destruct A as [<-|[<-|[]]]; eexists _, _; (split; [reflexivity|cbn; auto]). }
  intros x u n S. destruct S as [|w W|w n W|w y n W Y|w y n W Y]; [auto|right; auto|right; eauto| |].
  - right. destruct (U _ W) as (c & r & -> & I). eexists _, _. split; [reflexivity|auto].
  - right. destruct (L _ _ Y) as (c & r & -> & I). eexists _, _. split; [reflexivity|auto].
Qed.

Lemma no_constant : forall D E w x, (forall c, In c [117; 85; 108; 76] -> D c = false /\ E c = false) ->
  Forall (fun c => D c = true) w -> (x = [] \/ exists c r, x = c :: r /\ In c [117; 85; 108; 76]) -> FloatLexModel.constant D E (w ++ x) = NoMatch x.
Proof.
  intros * H F X. unfold FloatLexModel.constant, fractional_part. rewrite digits_complete; [|auto|].
  - destruct X as [->|(c & r & -> & I)]; [reflexivity|]. destruct (H c I) as (_ & ->).
    destruct (Z.eqb_spec c 46) as [->|_]; [cbn in I; lia|]. now rewrite andb_false_r.
  - destruct X as [->|(c & r & -> & I)]; [exact Logic.I|]. now apply H.
Qed.

Theorem c69_integer : forall dec w v x u n,
  PropIntConst.constant dec w v -> PropIntConst.suffix x u n -> v < 2 ^ 64 ->
  convert_number (w ++ x) = option_map (fun ty => Integral ty v) (PropIntConst.constant_type u n dec v).
Proof.
  intros * C S V. pose proof (suffix_start _ _ _ S) as X.
  assert (DD : forall c, In c [117; 85; 108; 76] -> FloatLexModel.is_digit c = false /\ is_e c = false)
    by (intros c I; cbn in I; destruct I as [<-|[<-|[<-|[<-|[]]]]]; split; reflexivity).
  assert (HH : forall c, In c [117; 85; 108; 76] -> is_hexdigit c = false /\ is_p c = false)
    by (intros c I; cbn in I; destruct I as [<-|[<-|[<-|[<-|[]]]]]; split; reflexivity).
  assert (DE : Forall (fun c => FloatLexModel.is_digit c = true) w -> exists r, scan_floating (w ++ x) = NoMatch r).
  { intros F. unfold scan_floating. destruct (prefix_split (w ++ x)) as [(y & r & E & Y)|N].
    - exfalso. destruct w as [|a [|b w]]; cbn [app] in E.
      + subst x. destruct X as [X|(c & r' & X & I)]; [discriminate X|]. injection X as <- _. cbn in I. lia.
      + injection E as _ ->. destruct X as [X|(c & r' & X & I)]; [discriminate X|]. injection X as <- _. cbn in I, Y. lia.
      + injection E as _ -> _. inversion F as [|? ? _ F2]; subst. inversion F2 as [|? ? F3 _]; subst.
        apply is_digit_spec in F3. cbn in Y. unfold digit in F3. lia.
    - rewrite N. exists x. now apply no_constant. }
  assert (NF : exists r, scan_floating (w ++ x) = NoMatch r).
  { destruct C as [c w v N C|w v N|y w v N NE Y].
    - apply DE. eapply number_digits; eauto. apply decimal_value.
    - apply DE. eapply number_digits; eauto. intros c d D L. apply (decimal_value c d D). lia.
    - unfold scan_floating. cbn [app]. rewrite hex_prefix by (cbn in Y; cbn; tauto).
      rewrite no_constant; [|auto|eapply number_digits; eauto; intros c d D _; eapply hexadecimal_value; eauto|auto].
      exists x. now apply (no_constant _ _ [] x). }
  destruct NF as (r & NF). unfold convert_number. rewrite NF.
  assert (EN : PropIntConst.ends []) by (unfold PropIntConst.ends; cbn; lia).
  pose proof (PropIntConst.c08_value_and_type_partial dec w v x u n [] C S EN V) as Q. rewrite app_nil_r in Q. rewrite Q.
  now destruct (PropIntConst.constant_type u n dec v).
Qed.

(** 1.5e+3f and 0x.8p1 *)
Example c69_case : floating_constant (text "1.5e+3f") (text "1.5e+3") Float /\ convert_number (text "1.5e+3f") = Some (Floating (text "1.5e+3") Float)
  /\ ~ no_exponent (text "1.5e+3f") (text "1.5e+3") Float /\ ~ behind_prefix (text "1.5e+3f") (text "1.5e+3") Float.
Proof.
  repeat split.
  - exists [102]. split; [reflexivity|]. split; [left|constructor; now left].
    apply (d_fraction_exp (text "1.5") (text "e+3")).
    + apply (f_both digit [49] [53]); (split; [discriminate|]); repeat constructor; vm_compute; discriminate.
    + apply (e_exp 101 69 101 [43] [51]); [auto|cbn; auto|]. split; [discriminate|]. repeat constructor; vm_compute; discriminate.
  - intros (x & f & u & _ & E & _). discriminate E.
  - intros (x & s & t & E & _). discriminate E.
Qed.
Example c69_hex_case : floating_constant (text "0x.8p1") (text "0x.8p1") Double.
Proof.
  exists []. split; [reflexivity|]. split; [right|constructor]. apply (h_fraction 120 (text ".8") (text "p1")); [cbn; auto| |].
  - apply (f_fraction hexdigit [56]). split; [discriminate|]. repeat constructor. vm_compute. discriminate. vm_compute. discriminate.
  - apply (e_exp 112 80 112 [] [49]); [auto|cbn; auto|]. split; [discriminate|]. repeat constructor; vm_compute; discriminate.
Qed.
Example c69_rejected_cases : map (fun x => convert_number (text x)) ["1e"; "1.5x"; "1.2.3"; "0x1p"; "0x.p1"; "1.0fl"]%string = repeat None 6.
Proof. reflexivity. Qed.
Example c69_integer_case : convert_number (text "0x1eu") = Some (Integral IUInt 30).
Proof. reflexivity. Qed.

Lemma constant_not : forall s t ty, floating_constant s t ty -> forall t' ty', convert_number s = Some (Floating t' ty') -> t = t' /\ ty = ty'.
Proof. intros * A t' ty' B. apply c69_floating_accepted in A. rewrite A in B. injection B as -> ->. auto. Qed.

(** A hexadecimal constant without exponent is accepted: 0x1.8 *)
Theorem c69_no_exponent_refuted :
  convert_number (text "0x1.8") = Some (Floating (text "0x1.8") Double) /\ forall t ty, ~ floating_constant (text "0x1.8") t ty.
Proof.
  split; [reflexivity|]. intros t ty F. destruct (constant_not _ _ _ F _ _ eq_refl) as (-> & ->).
  destruct F as (u & E & [Dt|H] & _).
  - destruct (decimal_head _ Dt) as (c & r & T & _ & d & r' & -> & Q). cbn in T. injection T as _ <- _. unfold digit, dot in Q. lia.
  - assert (P : forall l e, exponent 112 80 e -> In 112 (l ++ e) \/ In 80 (l ++ e)).
    { intros l e X. destruct X as [c sg d [-> | ->] _ _]; [left|right]; apply in_or_app; right; now left. }
    inversion H as [x a e X FR EX EQ|x a e X FR EX EQ]; destruct (P a e EX) as [I|I];
      match type of I with In _ ?l => replace l with (text "1.8") in I by (cbn in EQ; congruence) end; cbn in I; lia.
Qed.

(** The cursor is not restored between the attempts: 0x..5 is taken for .5 *)
Theorem c69_not_restored_refuted :
  convert_number (text "0x..5") = Some (Floating (text ".5") Double) /\ forall t ty, ~ floating_constant (text "0x..5") t ty.
Proof.
  split; [reflexivity|]. intros t ty F. destruct (constant_not _ _ _ F _ _ eq_refl) as (-> & ->).
  destruct F as (u & E & _). discriminate E.
Qed.

Print Assumptions c69_floating_partial.
Print Assumptions c69_floating_accepted.
Print Assumptions c69_floating_unique.
Print Assumptions c69_integer.
Print Assumptions c69_no_exponent_refuted.
Print Assumptions c69_not_restored_refuted.
