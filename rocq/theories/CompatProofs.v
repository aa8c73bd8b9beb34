(** Facts about type compatibility: fuel, reflexivity, agreement of the two directions. *)
From Coq Require Import ZArith List Bool String Lia.
From Verif Require Import CompatModel.
Import ListNotations.
Open Scope Z_scope.

Section All.
Context {A : Type} (P : A -> Prop).
Fixpoint all (l : list A) : Prop := match l with [] => True | a :: r => P a /\ all r end.
End All.

Lemma all_in : forall A (P : A -> Prop) l x, all P l -> In x l -> P x.
Proof. induction l as [|a l IH]; intros x H I; [destruct I|]. destruct H as (H & H'). destruct I; [now subst|now apply IH]. Qed.

Definition is_qual (t : ty) : bool := match t with TQual _ _ => true | _ => false end.

(** What the constructors guarantee: no qualification of a qualified type (qualified.c 87-93), parameters of a
    prototype have types (function.c 51-63), members of a union have distinct names (struct.c 391-393). *)
Fixpoint wf (t : ty) : Prop :=
  match t with
  | TBasic _ | TEnum _ _ _ _ => True
  | TPtr a | TArr _ _ a => wf a
  | TQual _ a => wf a /\ is_qual a = false
  | TFun r m ps _ => wf r /\ all (fun p => match p with Param (Some a) _ => wf a | Param None _ => m <> ModeParameters end) ps
  | TStruct _ _ fs => all (fun f => match f with Field _ a _ _ => wf a end) fs
  | TUnion _ _ fs => NoDup (named fs) /\ all (fun f => match f with Field _ a _ _ => wf a end) fs
  end.

Lemma size_pos : forall t, (0 < size t)%nat.
Proof. destruct t; cbn [size]; lia. Qed.

Lemma sum_in : forall A (g : A -> nat) l x, In x l -> (g x <= list_sum (map g l))%nat.
Proof.
  induction l as [|a l IH]; intros x I; [destruct I|]; destruct I as [H|H]; cbn [map list_sum fold_right]; fold (list_sum (map g l)).
  - subst. lia.
  - apply IH in H. lia.
Qed.

Lemma size_struct : forall c i fs f, In f fs -> (size (f_type f) < size (TStruct c i fs))%nat.
Proof.
  intros c i fs f H. apply (sum_in _ (fun f => match f with Field _ a _ _ => S (size a) end)) in H.
  destruct f. cbn [size f_type] in *. lia.
Qed.

Lemma size_union : forall c i fs f, In f fs -> (size (f_type f) < size (TUnion c i fs))%nat.
Proof. intros c i fs f H. exact (size_struct c i fs f H). Qed.

Lemma size_param : forall r m ps e p x, In p ps -> p_type p = Some x -> (S (size x) < size (TFun r m ps e))%nat.
Proof.
  intros r m ps e p x H E.
  apply (sum_in _ (fun p => match p with Param (Some a) _ => S (S (size a)) | _ => 1 end)%nat) in H.
  destruct p as [[a|] s]; cbn [p_type] in E; [injection E as ->|discriminate]. cbn [size] in *. pose proof (size_pos r). lia.
Qed.

Lemma wf_field : forall fs f, all (fun f => match f with Field _ a _ _ => wf a end) fs -> In f fs -> wf (f_type f).
Proof. intros fs f W H. pose proof (all_in _ _ _ _ W H) as K. destruct f. exact K. Qed.

Lemma wf_param : forall m ps p x,
  all (fun p => match p with Param (Some a) _ => wf a | Param None _ => m <> ModeParameters end) ps ->
  In p ps -> p_type p = Some x -> wf x.
Proof.
  intros m ps p x W H E. pose proof (all_in _ _ _ _ W H) as K. destruct p as [[a|] s]; cbn [p_type] in E; [|discriminate].
  injection E as ->. exact K.
Qed.

(** ** Loops *)
Lemma of_bool_defined : forall b, of_bool b <> Ub /\ of_bool b <> NoFuel.
Proof. destruct b; split; discriminate. Qed.

Lemma andr_yes : forall a b, andr a b = Yes <-> a = Yes /\ b = Yes.
Proof. destruct a, b; cbn; intuition discriminate. Qed.

Lemma of_bool_yes : forall b, of_bool b = Yes <-> b = true.
Proof. destruct b; cbn; intuition discriminate. Qed.

Lemma both_ext : forall A (f g : A -> A -> res) l1 l2,
  (forall a b, In a l1 -> In b l2 -> f a b = g a b) -> both f l1 l2 = both g l1 l2.
Proof.
  induction l1 as [|a l1 IH]; intros [|b l2] H; try reflexivity. cbn [both].
  rewrite (H a b) by (now left). f_equal. apply IH. intros; apply H; now right.
Qed.

Lemma each_ext : forall A (f g : A -> res) l, (forall a, In a l -> f a = g a) -> each f l = each g l.
Proof.
  induction l as [|a l IH]; intros H; try reflexivity. cbn [each].
  rewrite (H a) by (now left). f_equal. apply IH. intros; apply H; now right.
Qed.

Lemma both_yes_refl : forall A (f : A -> A -> res) l, (forall a, In a l -> f a a = Yes) -> both f l l = Yes.
Proof.
  induction l as [|a l IH]; intros H; [reflexivity|]. cbn [both]. rewrite (H a) by (now left).
  apply IH. intros; apply H; now right.
Qed.

Lemma each_yes : forall A (f : A -> res) l, each f l = Yes <-> (forall a, In a l -> f a = Yes).
Proof.
  induction l as [|a l IH]; cbn [each].
  - split; [intros _ a []|reflexivity].
  - rewrite andr_yes, IH. split.
    + intros (H & H') x [<-|I]; auto.
    + intros H. split; [apply H; now left|]. intros x I. apply H. now right.
Qed.

Lemma both_yes : forall A (f : A -> A -> res) l1 l2, List.length l1 = List.length l2 ->
  both f l1 l2 = Yes -> Forall2 (fun a b => f a b = Yes) l1 l2.
Proof.
  induction l1 as [|a l1 IH]; intros [|b l2] L H; try discriminate L; [constructor|].
  cbn [both] in H. apply andr_yes in H. destruct H. constructor; [assumption|]. apply IH; [now injection L|assumption].
Qed.

Lemma both_not : forall A (f : A -> A -> res) (r : res) l1 l2, r <> Yes ->
  (forall a b, In a l1 -> In b l2 -> f a b <> r) -> both f l1 l2 <> r.
Proof.
  induction l1 as [|a l1 IH]; intros [|b l2] R H; try (cbn; congruence). cbn [both].
  pose proof (H a b (or_introl eq_refl) (or_introl eq_refl)) as K.
  assert (T : both f l1 l2 <> r) by (apply IH; [assumption|]; intros; apply H; now right).
  destruct (f a b); cbn [andr]; congruence.
Qed.

Lemma each_not : forall A (f : A -> res) (r : res) l, r <> Yes ->
  (forall a, In a l -> f a <> r) -> each f l <> r.
Proof.
  induction l as [|a l IH]; intros R H; [cbn; congruence|]. cbn [each].
  pose proof (H a (or_introl eq_refl)) as K.
  assert (T : each f l <> r) by (apply IH; [assumption|]; intros; apply H; now right).
  destruct (f a); cbn [andr]; congruence.
Qed.

Lemma andr_not : forall a b r, r <> Yes -> a <> r -> b <> r -> andr a b <> r.
Proof. destruct a; cbn; congruence. Qed.
Lemma orr_not : forall a b r, a <> r -> b <> r -> orr a b <> r.
Proof. destruct a; cbn; congruence. Qed.

(** ** Identity *)
Lemma basic_eqb_refl : forall b, basic_eqb b b = true.
Proof. intros. unfold basic_eqb. destruct (basic_eq_dec b b); congruence. Qed.
Lemma basic_eqb_sym : forall a b, basic_eqb a b = basic_eqb b a.
Proof. intros. unfold basic_eqb. destruct (basic_eq_dec a b), (basic_eq_dec b a); congruence. Qed.
Lemma qual_eqb_refl : forall q, qual_eqb q q = true.
Proof. intros []. unfold qual_eqb. cbn. now rewrite !Bool.eqb_reflx. Qed.
Lemma qual_eqb_eq : forall a b, qual_eqb a b = true -> a = b.
Proof.
  intros [] [] H. unfold qual_eqb in H. cbn in H. apply andb_prop in H. destruct H as [H C]. apply andb_prop in H.
  destruct H as [A B]. apply Bool.eqb_prop in A, B, C. now subst.
Qed.
Lemma bool_eqb_sym : forall a b, Bool.eqb a b = Bool.eqb b a.
Proof. intros [] []; reflexivity. Qed.
Lemma qual_eqb_sym : forall a b, qual_eqb a b = qual_eqb b a.
Proof.
  intros a b. unfold qual_eqb. now rewrite (bool_eqb_sym (q_const a)), (bool_eqb_sym (q_restrict a)), (bool_eqb_sym (q_volatile a)).
Qed.
Lemma fmode_eqb_refl : forall m, fmode_eqb m m = true. Proof. intros []; reflexivity. Qed.
Lemma fmode_eqb_sym : forall a b, fmode_eqb a b = fmode_eqb b a. Proof. intros [] []; reflexivity. Qed.
Lemma bound_same_refl : forall b, bound_same b b = Yes.
Proof. intros [|n|n|l|l]; cbn [bound_same]; rewrite ?Z.eqb_refl, ?Bool.eqb_reflx; reflexivity. Qed.
Lemma bound_same_sym : forall a b, bound_same a b = bound_same b a.
Proof.
  intros [|n|n|l|l] [|n'|n'|l'|l']; cbn [bound_same]; try reflexivity; try (now rewrite Z.eqb_sym); now rewrite bool_eqb_sym.
Qed.
Lemma bound_compatible_refl : forall b, bound_compatible b b = Yes.
Proof. intros [|n|n|l|l]; cbn [bound_compatible]; rewrite ?Z.eqb_refl; reflexivity. Qed.
Lemma bound_compatible_sym : forall a b, bound_compatible a b = bound_compatible b a.
Proof. intros [|n|n|l|l] [|n'|n'|l'|l']; cbn [bound_compatible]; try reflexivity; now rewrite Z.eqb_sym. Qed.
Lemma enum_ids_refl : forall a, enum_ids a a = Yes.
Proof. intros [s|]; cbn; [now rewrite String.eqb_refl|reflexivity]. Qed.
Lemma enum_ids_sym : forall a b, enum_ids a b = enum_ids b a.
Proof. intros [s|] [s'|]; cbn; try reflexivity. now rewrite String.eqb_sym. Qed.
Lemma strings_same_refl : forall a, strings_same a a = true.
Proof. intros [s|]; cbn; [apply String.eqb_refl|reflexivity]. Qed.
Lemma strings_same_sym : forall a b, strings_same a b = strings_same b a.
Proof. intros [s|] [s'|]; cbn; try reflexivity. apply String.eqb_sym. Qed.
Lemma strings_same_eq : forall a b, strings_same a b = true -> a = b.
Proof. intros [s|] [s'|] H; try discriminate H; [|reflexivity]. apply String.eqb_eq in H. now subst. Qed.
Lemma widths_refl : forall a, widths a a = Yes.
Proof. intros [s|]; cbn; [now rewrite Z.eqb_refl|reflexivity]. Qed.
Lemma widths_sym : forall a b, widths a b = widths b a.
Proof. intros [s|] [s'|]; cbn; try reflexivity. now rewrite Z.eqb_sym. Qed.
Lemma widths_yes : forall a b, widths a b = Yes -> a = b.
Proof. intros [s|] [s'|] H; try discriminate H; [|reflexivity]. cbn in H. apply of_bool_yes, Z.eqb_eq in H. now subst. Qed.
Lemma storage_same_refl : forall a, storage_same a a = true.
Proof. intros [s|]; cbn; [apply Z.eqb_refl|reflexivity]. Qed.
Lemma storage_same_sym : forall a b, storage_same a b = storage_same b a.
Proof. intros [s|] [s'|]; cbn; try reflexivity. apply Z.eqb_sym. Qed.
Lemma enumerator_same_refl : forall a, enumerator_same a a = Yes.
Proof. intros [s [v|]]; unfold enumerator_same; cbn; rewrite String.eqb_refl; cbn; [now rewrite Z.eqb_refl|reflexivity]. Qed.
Lemma enumerator_same_sym : forall a b, enumerator_same a b = enumerator_same b a.
Proof.
  intros [s v] [s' v']; unfold enumerator_same; cbn [fst snd]. rewrite String.eqb_sym.
  destruct v, v'; try reflexivity. now rewrite Z.eqb_sym.
Qed.
Lemma same_length_refl : forall A (l : list A), same_length l l = Yes.
Proof. intros. unfold same_length. now rewrite Nat.eqb_refl. Qed.
Lemma same_length_sym : forall A (l l' : list A), same_length l l' = same_length l' l.
Proof. intros. unfold same_length. now rewrite Nat.eqb_sym. Qed.

(** ** Members of a union by name *)
Lemma field_at_self : forall fs f n, NoDup (named fs) -> In f fs -> f_name f = Some n -> field_at fs n = Some f.
Proof.
  induction fs as [|g fs IH]; intros f n D II E; [destruct II|]; destruct II as [<-|I]; cbn [field_at].
  - rewrite E, String.eqb_refl. reflexivity.
  - unfold named in D. cbn [flat_map] in D. fold (named fs) in D. destruct (f_name g) as [x|] eqn:G.
    + cbn [app] in D. inversion D as [|? ? N D']; subst. destruct (String.eqb x n) eqn:X.
      * apply String.eqb_eq in X. subst. exfalso. apply N. unfold named. apply in_flat_map. exists f. split; [assumption|].
        rewrite E. now left.
      * now apply IH.
    + now apply IH.
Qed.

Lemma field_at_some : forall fs n f, field_at fs n = Some f -> In f fs /\ f_name f = Some n.
Proof.
  induction fs as [|g fs IH]; intros n f H; [discriminate|]. cbn [field_at] in H.
  destruct (f_name g) as [x|] eqn:G.
  - destruct (String.eqb x n) eqn:X.
    + apply String.eqb_eq in X. subst. injection H as <-. split; [now left|assumption].
    + apply IH in H. destruct H. split; [now right|assumption].
  - apply IH in H. destruct H. split; [now right|assumption].
Qed.

Lemma field_at_in : forall fs n, In n (named fs) -> exists f, field_at fs n = Some f.
Proof.
  induction fs as [|g fs IH]; intros n H; [destruct H|]. unfold named in H. cbn [flat_map] in H. fold (named fs) in H.
  cbn [field_at]. destruct (f_name g) as [x|]; cbn [app] in H.
  - destruct (String.eqb x n) eqn:X; [eauto|]. apply String.eqb_neq in X. destruct H as [H|H]; [congruence|]. now apply IH.
  - now apply IH.
Qed.

Lemma named_in : forall fs f n, In f fs -> f_name f = Some n -> In n (named fs).
Proof. intros fs f n I E. unfold named. apply in_flat_map. exists f. split; [assumption|]. rewrite E. now left. Qed.

(** ** "same" *)
Lemma same_nofuel : forall n t1 t2, (size t1 < n)%nat -> same t1 t2 <> NoFuel.
Proof.
  induction n as [|n IH]; intros t1 t2 L; [lia|].
  assert (NF : NoFuel <> Yes) by discriminate.
  assert (OB : forall b, of_bool b <> NoFuel) by (intros; apply of_bool_defined).
  destruct t1 as [b|a|b q a|q a|r m ps e|c i es u|c i fs|c i fs], t2 as [b'|a'|b' q' a'|q' a'|r' m' ps' e'|c' i' es' u'|c' i' fs'|c' i' fs'];
    try (cbn; discriminate); cbn [same].
  - apply OB.
  - apply IH. cbn [size] in L. lia.
  - cbn [size] in L. apply andr_not; [assumption| |apply IH; lia]. destruct b, b'; cbn [bound_same]; try apply OB; discriminate.
  - cbn [size] in L. apply andr_not; [assumption|apply OB|apply IH; lia].
  - repeat apply andr_not; try assumption; try apply OB.
    + apply IH. cbn [size] in L. lia.
    + apply both_not; [assumption|]. intros p p' I I'. apply andr_not; [assumption| |apply OB].
      destruct p as [[x|] s], p' as [[x'|] s']; try discriminate. apply IH.
      pose proof (size_param r m ps e _ x I eq_refl). lia.
  - repeat apply andr_not; try assumption; try apply OB.
    + destruct i, i'; cbn; try discriminate. apply OB.
    + destruct c; [|discriminate]. apply andr_not; [assumption|apply OB|]. apply both_not; [assumption|].
      intros [s v] [s' v'] _ _. unfold enumerator_same. apply andr_not; [assumption|apply OB|].
      destruct v, v'; cbn; try discriminate. apply OB.
  - repeat apply andr_not; try assumption; try apply OB.
    destruct c; [|discriminate]. apply andr_not; [assumption|apply OB|]. apply both_not; [assumption|].
    intros [n1 x1 a1 w1] [n2 x2 a2 w2] I I'. cbn [f_name f_align f_width f_type].
    repeat apply andr_not; try assumption; try apply OB.
    + destruct w1, w2; cbn; try discriminate. apply OB.
    + apply IH. pose proof (size_struct true i fs _ I). cbn [f_type] in *. lia.
  - repeat apply andr_not; try assumption; try apply OB.
    destruct c; [|discriminate]. apply andr_not; [assumption| |apply OB]. apply each_not; [assumption|].
    intros [[n1|] x1 a1 w1] I; [|discriminate]. destruct (field_at fs' n1) as [f2|]; [|discriminate].
    apply andr_not; [assumption| |].
    + destruct w1, (f_width f2); cbn; try discriminate. apply OB.
    + apply IH. pose proof (size_union true i fs _ I). cbn [f_type] in *. lia.
Qed.

Lemma same_refl_n : forall n t, (size t < n)%nat -> wf t -> same t t = Yes.
Proof.
  induction n as [|n IH]; intros t L W; [lia|].
  destruct t as [b|a|b q a|q a|r m ps e|c i es u|c i fs|c i fs]; cbn [same].
  - now rewrite basic_eqb_refl.
  - apply IH; [cbn [size] in L; lia|exact W].
  - rewrite bound_same_refl. cbn [size] in L. cbn [andr]. apply IH; [lia|exact W].
  - rewrite qual_eqb_refl. cbn [size] in L. cbn [andr of_bool]. apply IH; [lia|apply W].
  - destruct W as (Wr & Wp). rewrite IH; [|cbn [size] in L; lia|assumption].
    rewrite fmode_eqb_refl, same_length_refl, Bool.eqb_reflx. cbn [andr of_bool].
    rewrite both_yes_refl; [reflexivity|]. intros [[x|] s] I; cbn [p_storage]; rewrite storage_same_refl; [|reflexivity].
    rewrite IH; [reflexivity| |eapply wf_param; eauto; reflexivity]. pose proof (size_param r m ps e _ x I eq_refl). lia.
  - rewrite Bool.eqb_reflx, enum_ids_refl. cbn [andr of_bool]. destruct c; [|reflexivity].
    rewrite same_length_refl. cbn [andr]. apply both_yes_refl. intros; apply enumerator_same_refl.
  - rewrite Bool.eqb_reflx, strings_same_refl. cbn [andr of_bool]. destruct c; [|reflexivity].
    rewrite same_length_refl. cbn [andr]. apply both_yes_refl. intros [n1 x1 a1 w1] I. cbn [f_name f_align f_width f_type].
    rewrite strings_same_refl, Z.eqb_refl, widths_refl. cbn [andr of_bool]. apply IH.
    + pose proof (size_struct true i fs _ I). cbn [f_type] in *. lia.
    + exact (wf_field fs _ W I).
  - destruct W as (D & W). rewrite Bool.eqb_reflx, strings_same_refl. cbn [andr of_bool]. destruct c; [|reflexivity].
    rewrite Nat.eqb_refl. rewrite (proj2 (each_yes _ _ fs)); [reflexivity|].
    intros [[n1|] x1 a1 w1] I; [|reflexivity].
    rewrite (field_at_self fs _ n1 D I eq_refl). cbn [f_width f_type]. rewrite widths_refl. cbn [andr]. apply IH.
    + pose proof (size_union true i fs _ I). cbn [f_type] in *. lia.
    + exact (wf_field fs _ W I).
Qed.

Lemma same_refl : forall t, wf t -> same t t = Yes.
Proof. intros t. apply (same_refl_n (S (size t))). lia. Qed.

(** ** Agreement of two defined outcomes *)
Definition agree (a b : res) : Prop := a <> Ub -> b <> Ub -> a = b.
Lemma agree_refl : forall a, agree a a. Proof. intros a _ _. reflexivity. Qed.
Lemma agree_eq : forall a b, a = b -> agree a b. Proof. intros a b -> _ _. reflexivity. Qed.
Lemma agree_cases : forall a b, agree a b -> a = Ub \/ b = Ub \/ a = b.
Proof. unfold agree. intros [] [] H; auto; right; right; apply H; discriminate. Qed.
Lemma agree_andr : forall a a' b b', agree a a' -> agree b b' -> agree (andr a b) (andr a' b').
Proof.
  intros a a' b b' HA HB. destruct (agree_cases _ _ HA) as [E | [E | E]]; [rewrite E|rewrite E|rewrite E]; unfold agree in *; cbn [andr]; try congruence.
  destruct a'; cbn [andr]; try congruence. exact HB.
Qed.
Lemma agree_orr : forall a a' b b', agree a a' -> agree b b' -> agree (orr a b) (orr a' b').
Proof.
  intros a a' b b' HA HB. destruct (agree_cases _ _ HA) as [E | [E | E]]; [rewrite E|rewrite E|rewrite E]; unfold agree in *; cbn [orr]; try congruence.
  destruct a'; cbn [orr]; try congruence. exact HB.
Qed.
Lemma agree_both : forall A (f g : A -> A -> res) l1 l2,
  (forall a b, In a l1 -> In b l2 -> agree (f a b) (g b a)) -> agree (both f l1 l2) (both g l2 l1).
Proof.
  induction l1 as [|a l1 IH]; intros [|b l2] H; try apply agree_refl. cbn [both].
  apply agree_andr; [apply H; now left|]. apply IH. intros; apply H; now right.
Qed.
Lemma agree_same_length : forall A (l l' : list A), agree (same_length l l') (same_length l' l).
Proof. intros. apply agree_eq, same_length_sym. Qed.

Lemma each_ub : forall A (f : A -> res) l a, each f l <> Ub -> each f l <> No -> each f l <> NoFuel -> In a l -> f a = Yes.
Proof.
  intros A f l a U N F I. assert (E : each f l = Yes) by (destruct (each f l); congruence).
  rewrite each_yes in E. auto.
Qed.

(** One direction of the comparison of unions *)
Definition member_same (fs2 : list field) (f1 : field) : res :=
  match f1 with
  | Field None _ _ _ => Yes
  | Field (Some n) x1 _ w1 =>
    match field_at fs2 n with
    | None => No
    | Some f2 => andr (widths w1 (f_width f2)) (same x1 (f_type f2))
    end
  end.

Lemma members_turn : forall fs1 fs2, NoDup (named fs1) -> NoDup (named fs2) ->
  (forall f1 f2, In f1 fs1 -> In f2 fs2 -> agree (same (f_type f2) (f_type f1)) (same (f_type f1) (f_type f2))) ->
  each (member_same fs2) fs1 = Yes -> List.length (named fs1) = List.length (named fs2) ->
  each (member_same fs1) fs2 <> Ub -> each (member_same fs1) fs2 = Yes.
Proof.
  intros fs1 fs2 D1 D2 A H L U. rewrite each_yes in H.
  assert (Inc : incl (named fs1) (named fs2)).
  { intros n I. destruct (field_at_in _ _ I) as (f & E). destruct (field_at_some _ _ _ E) as (If & Nf).
    specialize (H f If). destruct f as [nm x a w]. cbn [f_name] in Nf. subst nm. cbn [member_same] in H.
    destruct (field_at fs2 n) as [f2|] eqn:E2; [|discriminate]. destruct (field_at_some _ _ _ E2) as (I2 & N2).
    exact (named_in _ _ _ I2 N2). }
  assert (Inc' : incl (named fs2) (named fs1)).
  { apply NoDup_length_incl; [assumption| |assumption]. rewrite L. apply le_n. }
  assert (Go : forall l, incl l fs2 -> each (member_same fs1) l <> Ub -> each (member_same fs1) l = Yes).
  { induction l as [|f2 l IH]; intros I Ul; [reflexivity|]. cbn [each] in *.
    assert (I2 : In f2 fs2) by (apply I; now left).
    assert (F : member_same fs1 f2 = Yes).
    { assert (Uf : member_same fs1 f2 <> Ub) by (destruct (member_same fs1 f2); cbn [andr] in Ul; congruence).
      destruct f2 as [[n|] x2 a2 w2]; [|reflexivity]. cbn [member_same] in *.
      destruct (field_at_in fs1 n) as (f1 & E1); [apply Inc'; eapply named_in; [exact I2|reflexivity]|].
      rewrite E1 in *. destruct (field_at_some _ _ _ E1) as (I1 & N1).
      specialize (H f1 I1). destruct f1 as [nm x1 a1 w1]. cbn [f_name] in N1. subst nm. cbn [member_same] in H.
      rewrite (field_at_self fs2 _ n D2 I2 eq_refl) in H. cbn [f_width f_type] in *.
      apply andr_yes in H. destruct H as (Hw & Hs). rewrite widths_sym, Hw in Uf |- *. cbn [andr] in *.
      pose proof (A _ _ I1 I2) as Q. cbn [f_type] in Q. rewrite Q; [exact Hs|exact Uf|congruence]. }
    rewrite F in *. cbn [andr] in *. apply IH; [|assumption]. intros z Iz. apply I. now right. }
  apply Go; [apply incl_refl|assumption].
Qed.

Lemma same_agree_n : forall n t1 t2, (size t1 + size t2 < n)%nat -> wf t1 -> wf t2 -> agree (same t1 t2) (same t2 t1).
Proof.
  induction n as [|n IH]; intros t1 t2 L W1 W2; [lia|].
  destruct t1 as [b|a|b q a|q a|r m ps e|c i es u|c i fs|c i fs], t2 as [b'|a'|b' q' a'|q' a'|r' m' ps' e'|c' i' es' u'|c' i' fs'|c' i' fs'];
    try (apply agree_refl).
  - cbn [same]. rewrite basic_eqb_sym. apply agree_refl.
  - cbn [same]. cbn [size] in L. apply IH; [lia|exact W1|exact W2].
  - cbn [same]. cbn [size] in L. apply agree_andr; [apply agree_eq, bound_same_sym|]. apply IH; [lia|exact W1|exact W2].
  - cbn [same]. cbn [size] in L. rewrite qual_eqb_sym. apply agree_andr; [apply agree_refl|]. apply IH; [lia|apply W1|apply W2].
  - cbn [same]. destruct W1 as (Wr1 & Wp1), W2 as (Wr2 & Wp2).
    apply agree_andr; [apply IH; [cbn [size] in L; lia|assumption|assumption]|].
    rewrite fmode_eqb_sym. apply agree_andr; [apply agree_refl|]. apply agree_andr; [apply agree_same_length|].
    rewrite bool_eqb_sym. apply agree_andr; [|apply agree_refl].
    apply agree_both. intros p p' I I'. rewrite storage_same_sym. apply agree_andr; [|apply agree_refl].
    destruct p as [[x|] s], p' as [[x'|] s']; try apply agree_refl. apply IH.
    + pose proof (size_param r m ps e _ x I eq_refl). pose proof (size_param r' m' ps' e' _ x' I' eq_refl). lia.
    + exact (wf_param _ _ _ _ Wp1 I eq_refl).
    + exact (wf_param _ _ _ _ Wp2 I' eq_refl).
  - apply agree_eq. cbn [same]. rewrite bool_eqb_sym, enum_ids_sym.
    destruct c, c'; try reflexivity. cbn [Bool.eqb of_bool andr]. f_equal. rewrite same_length_sym. f_equal.
    clear. revert es'. induction es as [|x es IHe]; intros [|x' es']; try reflexivity. cbn [both].
    now rewrite enumerator_same_sym, IHe.
  - cbn [same]. rewrite bool_eqb_sym, strings_same_sym.
    destruct c, c'; try apply agree_refl. cbn [Bool.eqb of_bool andr]. apply agree_andr; [apply agree_refl|].
    apply agree_andr; [apply agree_same_length|]. apply agree_both. intros [n1 x1 a1 w1] [n2 x2 a2 w2] I I'.
    cbn [f_name f_align f_width f_type]. rewrite strings_same_sym, Z.eqb_sym, widths_sym.
    repeat (apply agree_andr; [apply agree_refl|]). apply IH.
    + pose proof (size_struct true i fs _ I). pose proof (size_struct true i' fs' _ I'). cbn [f_type] in *. lia.
    + exact (wf_field fs _ W1 I).
    + exact (wf_field fs' _ W2 I').
  - destruct W1 as (D1 & Wf1), W2 as (D2 & Wf2).
    cbn [same]. rewrite bool_eqb_sym, strings_same_sym.
    destruct c, c'; try apply agree_refl. cbn [Bool.eqb of_bool andr]. apply agree_andr; [apply agree_refl|].
    change (agree (andr (each (member_same fs') fs) (of_bool (Nat.eqb (List.length (named fs)) (List.length (named fs')))))
                  (andr (each (member_same fs) fs') (of_bool (Nat.eqb (List.length (named fs')) (List.length (named fs)))))).
    assert (A : forall f1 f2, In f1 fs -> In f2 fs' ->
              agree (same (f_type f2) (f_type f1)) (same (f_type f1) (f_type f2))).
    { intros f1 f2 I1 I2. apply IH.
      - pose proof (size_union true i fs _ I1). pose proof (size_union true i' fs' _ I2). lia.
      - exact (wf_field fs' _ Wf2 I2).
      - exact (wf_field fs _ Wf1 I1). }
    assert (A' : forall f1 f2, In f1 fs' -> In f2 fs ->
              agree (same (f_type f2) (f_type f1)) (same (f_type f1) (f_type f2))).
    { intros f1 f2 I1 I2. apply IH.
      - pose proof (size_union true i fs _ I2). pose proof (size_union true i' fs' _ I1). lia.
      - exact (wf_field fs _ Wf1 I2).
      - exact (wf_field fs' _ Wf2 I1). }
    assert (NF : forall l l', incl l' fs \/ incl l' fs' -> each (member_same l) l' <> NoFuel).
    { intros l l' _. apply each_not; [discriminate|]. intros [[n1|] x1 a1 w1] _; [|discriminate]. cbn [member_same].
      destruct (field_at l n1) as [f2|]; [|discriminate]. apply andr_not; [discriminate| |].
      - destruct w1, (f_width f2); cbn; try discriminate. apply of_bool_defined.
      - apply (same_nofuel (S (size x1))). lia. }
    pose proof (NF fs' fs (or_introl (incl_refl _))) as NF1. pose proof (NF fs fs' (or_intror (incl_refl _))) as NF2.
    rewrite (Nat.eqb_sym (List.length (named fs'))).
    destruct (Nat.eqb (List.length (named fs)) (List.length (named fs'))) eqn:EL.
    + apply Nat.eqb_eq in EL. intros U1 U2.
      assert (V1 : each (member_same fs') fs <> Ub) by (destruct (each (member_same fs') fs); cbn [andr] in U1; congruence).
      assert (V2 : each (member_same fs) fs' <> Ub) by (destruct (each (member_same fs) fs'); cbn [andr] in U2; congruence).
      pose proof (members_turn fs fs' D1 D2 A) as T1. pose proof (members_turn fs' fs D2 D1 A') as T2.
      destruct (each (member_same fs') fs), (each (member_same fs) fs'); try congruence; try reflexivity; exfalso.
      * assert (X : No = Yes) by (apply T1; [reflexivity|assumption|discriminate]). discriminate X.
      * assert (X : No = Yes) by (apply T2; [reflexivity|now symmetry|discriminate]). discriminate X.
    + cbn [of_bool]. intros U1 U2.
      destruct (each (member_same fs') fs), (each (member_same fs) fs'); cbn [andr] in *; congruence.
Qed.

Lemma same_agree : forall t1 t2, wf t1 -> wf t2 -> agree (same t1 t2) (same t2 t1).
Proof. intros t1 t2. apply (same_agree_n (S (size t1 + size t2))). lia. Qed.
