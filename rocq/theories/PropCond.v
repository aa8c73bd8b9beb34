(** C10: conditional inclusion selects exactly the right groups. *)
From Coq Require Import ZArith List Bool Lia String.
From Verif Require Import LexModel CondModel CondProofs.
Import ListNotations.
Open Scope Z_scope.

(** * Specification: the group grammar of C17 6.10p1, how it is spelled, and what it means. *)

(** A directive line: blanks, '#', blanks, the name, the operands. *)
Record dline := DL { pre : list Z; mid : list Z; operands : list Z }.

Inductive items :=
| INil
| ICons (i : item) (s : items)
with item :=
| Text (l : list Z)                                     (* a text line *)
| Null (x : dline)                                      (* # *)
| Unknown (x : dline) (w : list Z)                      (* # non-directive; w is its name *)
| Include (x : dline) | Define (x : dline) | Undef (x : dline) | Error (x : dline) | Line (x : dline)
| If (x : dline) (g : items) (t : tail)
| Ifdef (x : dline) (g : items) (t : tail)
| Ifndef (x : dline) (g : items) (t : tail)
with tail :=
| Elif (x : dline) (g : items) (t : tail)
| Else (x : dline) (g : items) (y : dline)              (* y is the #endif line *)
| Endif (y : dline).

Scheme items_rec2 := Induction for items Sort Prop
with item_rec2 := Induction for item Sort Prop
with tail_rec2 := Induction for tail Sort Prop.
Combined Scheme items_mut from items_rec2, item_rec2, tail_rec2.

(** Characters of a line *)
Definition inline (l : list Z) : Prop := Forall (fun c => c <> newline /\ c <> 0) l.
Definition blank (l : list Z) : Prop := Forall (fun c => is_space c = true /\ c <> newline) l.

Definition spelled (name : string) (x : dline) : list Z :=
  pre x ++ [35] ++ mid x ++ text name ++ operands x ++ [newline].

Fixpoint spell (s : items) : list Z :=
  match s with INil => [] | ICons i s' => spell1 i ++ spell s' end
with spell1 (i : item) : list Z :=
  match i with
  | Text l => l ++ [newline]
  | Null x => pre x ++ [35] ++ mid x ++ [newline]
  | Unknown x w => pre x ++ [35] ++ mid x ++ w ++ operands x ++ [newline]
  | Include x => spelled "include" x | Define x => spelled "define" x | Undef x => spelled "undef" x
  | Error x => spelled "error" x | Line x => spelled "line" x
  | If x g t => spelled "if" x ++ spell g ++ spellt t
  | Ifdef x g t => spelled "ifdef" x ++ spell g ++ spellt t
  | Ifndef x g t => spelled "ifndef" x ++ spell g ++ spellt t
  end
with spellt (t : tail) : list Z :=
  match t with
  | Elif x g t' => spelled "elif" x ++ spell g ++ spellt t'
  | Else x g y => spelled "else" x ++ spell g ++ spelled "endif" y
  | Endif y => spelled "endif" y
  end.

(** The lines are what they claim to be: operands start after the name, text does not start with '#'. *)
Definition separated (l : list Z) : Prop := match l with [] => True | c :: _ => is_nondigit c = false end.
Definition good (x : dline) : Prop := blank (pre x) /\ blank (mid x) /\ inline (operands x) /\ separated (operands x).
Definition no_hash (l : list Z) : Prop := forall b r, l = b ++ 35 :: r -> ~ blank b.

(** [plain]: in addition, no #elif or #else has an operand that starts with '#'. *)
Fixpoint wf (s : items) : Prop :=
  match s with INil => True | ICons i s' => wf1 i /\ wf s' end
with wf1 (i : item) : Prop :=
  match i with
  | Text l => inline l /\ no_hash l
  | Null x => blank (pre x) /\ blank (mid x)
  | Unknown x w => good x /\ Forall (fun c => is_nondigit c = true) w
      /\ ~ In w (map text ["if"; "ifdef"; "ifndef"; "elif"; "else"; "endif"; "include"; "define"; "undef"; "error"; "line"])%string
      /\ (w = [] -> exists c r, operands x = c :: r /\ is_space c = false)
  | Include x | Define x | Undef x | Error x | Line x => good x
  | If x g t | Ifdef x g t | Ifndef x g t => good x /\ wf g /\ wft t
  end
with wft (t : tail) : Prop :=
  match t with
  | Elif x g t' => good x /\ no_hash (operands x) /\ wf g /\ wft t'
  | Else x g y => good x /\ no_hash (operands x) /\ wf g /\ good y
  | Endif y => good y
  end.

Section Meaning.
Variables M Out : Type.
Variable txt : M -> list Z -> Out.
Variable eval : M -> list Z -> option bool.
Variable defd : M -> list Z -> option bool.
Variable step : M -> dtype -> list Z -> option (M * list Out).
Variable line_ok : M -> list Z -> bool.

(** Scope afterwards, output, and everything evaluated or executed on the way. *)
Definition res : Type := option (M * list Out * list (event M)).
Definition andthen (r : res) (f : M -> res) : res :=
  match r with
  | None => None
  | Some (m, o, l) => match f m with None => None | Some (m', o', l') => Some (m', o ++ o', l ++ l') end
  end.
Definition skipping (m : M) : res := Some (m, [], []).
Definition ask (q : M -> list Z -> option bool) (d : dtype) (m : M) (x : list Z) (yes no : res) : res :=
  match q m x with
  | None => None
  | Some b => andthen (Some (m, [], [Asked m d x])) (fun _ => if b then yes else no)
  end.
Definition doit (d : dtype) (m : M) (x : list Z) : res :=
  match step m d x with None => None | Some (m', o) => Some (m', o, [Did m d x]) end.

(** C17 6.10.1p6: conditions are checked in order; the first group with a true condition is processed,
    otherwise the #else group; nothing else is. *)
Fixpoint mean (s : items) (m : M) : res :=
  match s with INil => skipping m | ICons i s' => andthen (mean1 i m) (mean s') end
with mean1 (i : item) (m : M) : res :=
  match i with
  | Text l => Some (m, [txt m l], [])
  | Null _ => Some (m, [txt m []], [])
  | Unknown _ _ => skipping m
  | Include x => doit DInclude m (operands x)
  | Define x => doit DDefine m (operands x)
  | Undef x => doit DUndef m (operands x)
  | Error _ => None
  | Line x => if line_ok m (operands x) then Some (m, [], [Did m DLine (operands x)]) else None
  | If x g t => ask eval DIf m (operands x) (mean g m) (meant t m)
  | Ifdef x g t => ask defd DIfdef m (operands x) (mean g m) (meant t m)
  | Ifndef x g t => ask defd DIfndef m (operands x) (meant t m) (mean g m)
  end
with meant (t : tail) (m : M) : res :=
  match t with
  | Elif x g t' => ask eval DElif m (operands x) (mean g m) (meant t' m)
  | Else _ g _ => mean g m
  | Endif _ => skipping m
  end.
End Meaning.

(** * Scanning the lines of the specification *)

Lemma skip_ws_blank : forall b l, blank b -> skip_ws (b ++ l) = skip_ws l.
Proof.
  induction b as [|c b IH]; intros l H; [reflexivity|]. inversion H as [|? ? [A B] H']; subst.
  cbn [app skip_ws]. rewrite A, (proj2 (Z.eqb_neq _ _) B). cbn [andb negb]. now apply IH.
Qed.

Lemma take_inline : forall l r, inline l -> take_line (l ++ newline :: r) = l.
Proof.
  induction l as [|c l IH]; intros r H.
  - reflexivity.
  - inversion H as [|? ? [A B] H']; subst. cbn [app take_line].
    rewrite (proj2 (Z.eqb_neq _ _) A), (proj2 (Z.eqb_neq _ _) B). cbn [orb]. now rewrite IH.
Qed.

Lemma skip_inline : forall l r, inline l -> skip_line (l ++ newline :: r) = r.
Proof.
  induction l as [|c l IH]; intros r H.
  - reflexivity.
  - inversion H as [|? ? [A B] H']; subst. cbn [app skip_line].
    rewrite (proj2 (Z.eqb_neq _ _) A), (proj2 (Z.eqb_neq _ _) B). now apply IH.
Qed.

Lemma scan_word : forall w n r, Forall (fun c => is_nondigit c = true) w -> separated r -> (List.length w <= n)%nat ->
  scan_name n (w ++ r) = (w, r).
Proof.
  induction w as [|c w IH]; intros n r H S L.
  - cbn [app]. destruct n; [reflexivity|]. destruct r as [|c r]; [reflexivity|]. cbn [scan_name]. cbn in S. now rewrite S.
  - inversion H; subst. cbn [List.length] in L. destruct n as [|n]; [lia|]. cbn [app scan_name].
    rewrite H2, IH; [reflexivity|assumption|assumption|lia].
Qed.

Lemma scan_long : forall w n r, Forall (fun c => is_nondigit c = true) w -> (n < List.length w)%nat ->
  List.length (fst (scan_name n (w ++ r))) = n.
Proof.
  induction w as [|c w IH]; intros n r H L; [cbn in L; lia|].
  inversion H; subst. destruct n as [|n]; [reflexivity|]. cbn [List.length] in L. cbn [app scan_name]. rewrite H2.
  specialize (IH n r H3 ltac:(lia)). destruct (scan_name n (w ++ r)) as [a b]. cbn [fst List.length] in *. lia.
Qed.

Lemma separated_nl : forall x r, separated x -> separated (x ++ newline :: r).
Proof. intros [|c x] r H; [reflexivity|exact H]. Qed.

Definition kw (name : string) (d : dtype) : Prop :=
  Forall (fun c => is_nondigit c = true) (text name) /\ find_known known (text name) = Some d
  /\ (0 < List.length (text name) <= 63)%nat.

Ltac kwt := split; [repeat constructor|split; [reflexivity|cbn; lia]].
Lemma kw_if : kw "if" DIf. Proof. kwt. Qed.
Lemma kw_ifdef : kw "ifdef" DIfdef. Proof. kwt. Qed.
Lemma kw_ifndef : kw "ifndef" DIfndef. Proof. kwt. Qed.
Lemma kw_elif : kw "elif" DElif. Proof. kwt. Qed.
Lemma kw_else : kw "else" DElse. Proof. kwt. Qed.
Lemma kw_endif : kw "endif" DEndif. Proof. kwt. Qed.
Lemma kw_include : kw "include" DInclude. Proof. kwt. Qed.
Lemma kw_define : kw "define" DDefine. Proof. kwt. Qed.
Lemma kw_undef : kw "undef" DUndef. Proof. kwt. Qed.
Lemma kw_error : kw "error" DError. Proof. kwt. Qed.
Lemma kw_line : kw "line" DLine. Proof. kwt. Qed.

Lemma nondigit_not_space : forall c, is_nondigit c = true -> is_space c = false /\ c <> newline.
Proof.
  intros c H. unfold is_nondigit in H. unfold is_space, newline. split; [|lia].
  repeat (apply orb_false_iff; split); lia.
Qed.

Lemma match_spelled : forall name d x r, kw name d -> good x ->
  match_directive (spelled name x ++ r) = (d, operands x ++ newline :: r).
Proof.
  intros name d x r (W & F & L) (P & Q & I & S). unfold match_directive, spelled.
  rewrite <- !app_assoc. rewrite skip_ws_blank by assumption.
  change (skip_ws ([35] ++ ?z)) with (35 :: z). cbv beta iota. cbn [app].
  change (35 =? 0) with false. change (negb (35 =? 35)) with false. cbv beta iota.
  rewrite skip_ws_blank by assumption.
  destruct (text name) as [|c w] eqn:E; [cbn in L; lia|].
  pose proof (Forall_inv W) as C. destruct (nondigit_not_space c C) as (C1 & C2).
  cbn [app skip_ws]. rewrite C1. cbn [andb]. cbn [char_at nth].
  rewrite (proj2 (Z.eqb_neq _ _) C2).
  change (c :: w ++ operands x ++ newline :: r) with ((c :: w) ++ (operands x ++ newline :: r)).
  rewrite scan_word; [now rewrite F|assumption|now apply separated_nl|lia].
Qed.

Lemma take_spelled : forall x r, good x -> take_line (operands x ++ newline :: r) = operands x.
Proof. intros x r (_ & _ & I & _). now apply take_inline. Qed.

Lemma skip_spelled : forall x r, good x -> skip_line (operands x ++ newline :: r) = r.
Proof. intros x r (_ & _ & I & _). now apply skip_inline. Qed.

Lemma match_null : forall x r, blank (pre x) -> blank (mid x) ->
  match_directive ((pre x ++ [35] ++ mid x ++ [newline]) ++ r) = (DEmpty, newline :: r).
Proof.
  intros x r P Q. unfold match_directive.
  rewrite <- !app_assoc. rewrite skip_ws_blank by assumption.
  change (skip_ws ([35] ++ ?z)) with (35 :: z). cbv beta iota. cbn [app].
  change (35 =? 0) with false. change (negb (35 =? 35)) with false. cbv beta iota.
  rewrite skip_ws_blank by assumption. reflexivity.
Qed.

(** The first character that is no blank *)
Lemma skip_ws_split : forall l, exists b, l = b ++ skip_ws l /\ blank b.
Proof.
  induction l as [|c l (b & E & B)].
  - exists []. split; [reflexivity|constructor].
  - cbn [skip_ws]. destruct (is_space c) eqn:C; cbn [andb]; [destruct (c =? newline) eqn:N|]; cbn [negb].
    + exists []. split; [reflexivity|constructor].
    + exists (c :: b). split; [cbn [app]; now rewrite <- E|]. constructor; [|exact B].
      split; [exact C|now apply Z.eqb_neq].
    + exists []. split; [reflexivity|constructor].
Qed.

Lemma match_text : forall l r, inline l -> no_hash l ->
  match_directive (l ++ newline :: r) = (DPpToken, l ++ newline :: r).
Proof.
  intros l r I N. unfold match_directive.
  destruct (skip_ws_split l) as (b & E & B).
  assert (Eq : skip_ws (l ++ newline :: r) = skip_ws l ++ newline :: r).
  { rewrite E at 1. rewrite <- app_assoc, skip_ws_blank by assumption.
    remember (skip_ws l) as q eqn:Q. destruct q as [|c q]; [reflexivity|].
    assert (H : is_space c && negb (c =? newline) = false).
    { clear - Q. revert Q. induction l as [|c' l IH]; cbn [skip_ws]; [discriminate|].
      destruct (is_space c' && negb (c' =? newline)) eqn:X; [exact IH|]. injection 1 as -> ->. exact X. }
    cbn [app skip_ws]. now rewrite H. }
  rewrite Eq. destruct (skip_ws l) as [|c q].
  - reflexivity.
  - cbn [app]. assert (C0 : c <> 0).
    { rewrite E in I. unfold inline in I. rewrite Forall_app in I. destruct I as [_ I]. inversion I as [|? ? [_ ?] _]. assumption. }
    rewrite (proj2 (Z.eqb_neq _ _) C0).
    destruct (c =? 35) eqn:C; [|reflexivity]. apply Z.eqb_eq in C. rewrite C in E. destruct (N _ _ E B).
Qed.

Lemma same_text_eq : forall a b, same_text a b = true -> a = b.
Proof.
  induction a as [|x a IH]; intros [|y b] H; cbn [same_text] in H; try discriminate; [reflexivity|].
  apply andb_prop in H. destruct H as [A B]. apply Z.eqb_eq in A. subst. now rewrite (IH b).
Qed.

Lemma find_known_in : forall l w, (forall k d, In (k, d) l -> k <> w) -> find_known l w = None.
Proof.
  induction l as [|[k d] l IH]; intros w H; [reflexivity|]. cbn [find_known].
  destruct (same_text k w) eqn:E.
  - apply same_text_eq in E. exfalso. exact (H k d (or_introl eq_refl) E).
  - apply IH. intros k' d' I. apply (H k' d'). now right.
Qed.

Lemma match_unknown : forall x w r, good x -> Forall (fun c => is_nondigit c = true) w ->
  ~ In w (map text ["if"; "ifdef"; "ifndef"; "elif"; "else"; "endif"; "include"; "define"; "undef"; "error"; "line"])%string ->
  (w = [] -> exists c q, operands x = c :: q /\ is_space c = false) ->
  match_directive ((pre x ++ [35] ++ mid x ++ w ++ operands x ++ [newline]) ++ r)
    = (DNon, 35 :: mid x ++ w ++ operands x ++ newline :: r).
Proof.
  intros x w r (P & Q & I & S) W N E0. unfold match_directive.
  rewrite <- !app_assoc. rewrite skip_ws_blank by assumption.
  change (skip_ws ([35] ++ ?z)) with (35 :: z). cbv beta iota. cbn [app].
  change (35 =? 0) with false. change (negb (35 =? 35)) with false. cbv beta iota.
  rewrite skip_ws_blank by assumption.
  assert (H : exists c q, w ++ operands x ++ newline :: r = c :: q /\ is_space c = false).
  { destruct w as [|c w].
    - destruct (E0 eq_refl) as (c & q & -> & C). cbn [app]. eauto.
    - pose proof (Forall_inv W) as C. destruct (nondigit_not_space c C) as (C1 & C2). cbn [app]. eauto. }
  destruct H as (c & q & H & C).
  assert (K : skip_ws (w ++ operands x ++ newline :: r) = w ++ operands x ++ newline :: r).
  { rewrite H. cbn [skip_ws]. now rewrite C. }
  rewrite K. rewrite H at 1. cbn [char_at nth].
  assert (CN : c <> newline) by (intros ->; discriminate C).
  rewrite (proj2 (Z.eqb_neq _ _) CN).
  assert (F : find_known known (fst (scan_name 63 (w ++ operands x ++ newline :: r))) = None).
  { apply find_known_in. intros k d Ik Ek.
    destruct (Nat.le_gt_cases (List.length w) 63) as [L|L].
    - rewrite scan_word in Ek; [|assumption|now apply separated_nl|lia]. cbn [fst] in Ek. subst k.
      apply N. unfold known in Ik. cbn [In map] in Ik |- *.
      repeat (destruct Ik as [Ik|Ik]; [injection Ik as <- _; tauto|]). destruct Ik.
    - pose proof (scan_long w 63 (operands x ++ newline :: r) W L) as Ln. rewrite <- Ek in Ln.
      cbn [In known] in Ik. unfold known in Ik. cbn [In] in Ik.
      repeat (destruct Ik as [Ik|Ik]; [injection Ik as <- _; discriminate Ln|]). destruct Ik. }
  destruct (scan_name 63 (w ++ operands x ++ newline :: r)) as [a b]. cbn [fst] in F. now rewrite F.
Qed.

Lemma skip_unknown : forall x w r, good x -> Forall (fun c => is_nondigit c = true) w ->
  skip_line (35 :: mid x ++ w ++ operands x ++ newline :: r) = r.
Proof.
  intros x w r (P & Q & I & S) W.
  replace (35 :: mid x ++ w ++ operands x ++ newline :: r) with ((35 :: mid x ++ w ++ operands x) ++ newline :: r)
    by (cbn [app]; now rewrite <- !app_assoc).
  apply skip_inline. constructor; [unfold newline; lia|].
  apply Forall_app. split; [|apply Forall_app; split; [|exact I]].
  - eapply Forall_impl; [|exact Q]. cbn. intros c (A & B). split; [exact B|]. intros ->. discriminate A.
  - eapply Forall_impl; [|exact W]. cbn. intros c A. destruct (nondigit_not_space c A). split; [assumption|].
    intros ->. discriminate A.
Qed.

(** * Skipping a group *)

Lemma skip_all :
  (forall s, wf s -> forall k r, skip k (spell s ++ r) = skip k r) /\
  (forall i, wf1 i -> forall k r, skip k (spell1 i ++ r) = skip k r) /\
  (forall t, wft t -> (forall k r, skip (S k) (spellt t ++ r) = skip k r)
                      /\ forall r, skip 0 (spellt t ++ r) = Done (spellt t ++ r)).
Proof.
  assert (Cond : forall name d x g t, kw name d -> match d with DIf | DIfdef | DIfndef => True | _ => False end -> good x ->
            (forall k r, skip k (spell g ++ r) = skip k r) ->
            (forall k r, skip (S k) (spellt t ++ r) = skip k r) ->
            forall k r, skip k ((spelled name x ++ spell g ++ spellt t) ++ r) = skip k r).
  { intros name d x g t K D G Hg Ht k r. rewrite <- !app_assoc. rewrite skip_eq.
    rewrite (match_spelled name d) by assumption. rewrite skip_spelled by assumption.
    destruct d; try contradiction; now rewrite Hg, Ht. }
  assert (Plain : forall name d x, kw name d ->
            match d with DInclude | DDefine | DUndef | DError | DLine => True | _ => False end -> good x ->
            forall k r, skip k (spelled name x ++ r) = skip k r).
  { intros name d x K D G k r. rewrite skip_eq.
    rewrite (match_spelled name d) by assumption. rewrite skip_spelled by assumption.
    destruct d; try contradiction; reflexivity. }
  assert (Rest : forall x k r, good x -> no_hash (operands x) -> skip k (operands x ++ newline :: r) = skip k r).
  { intros x k r (_ & _ & I & _) N. rewrite skip_eq, match_text by assumption. now rewrite skip_inline. }
  apply items_mut.
  - intros _ k r. reflexivity.
  - intros i Hi s Hs (Wi & Ws) k r. cbn [spell]. rewrite <- app_assoc, Hi, Hs; auto.
  - intros l (I & N) k r. cbn [spell1]. rewrite <- app_assoc. cbn [app]. rewrite skip_eq, match_text by assumption.
    now rewrite skip_inline.
  - intros x (P & Q) k r. cbn [spell1]. rewrite skip_eq, match_null by assumption. reflexivity.
  - intros x w (G & W & N & E) k r. cbn [spell1]. rewrite skip_eq, match_unknown by assumption.
    now rewrite skip_unknown.
  - intros x G. apply (Plain "include"%string DInclude); auto using kw_include.
  - intros x G. apply (Plain "define"%string DDefine); auto using kw_define.
  - intros x G. apply (Plain "undef"%string DUndef); auto using kw_undef.
  - intros x G. apply (Plain "error"%string DError); auto using kw_error.
  - intros x G. apply (Plain "line"%string DLine); auto using kw_line.
  - intros x g Hg t Ht (G & Wg & Wt). apply (Cond "if"%string DIf); auto using kw_if. now apply Ht.
  - intros x g Hg t Ht (G & Wg & Wt). apply (Cond "ifdef"%string DIfdef); auto using kw_ifdef. now apply Ht.
  - intros x g Hg t Ht (G & Wg & Wt). apply (Cond "ifndef"%string DIfndef); auto using kw_ifndef. now apply Ht.
  - intros x g Hg t Ht (G & N & Wg & Wt). cbn [spellt]. split.
    + intros k r. rewrite <- !app_assoc. rewrite skip_eq, (match_spelled _ DElif) by auto using kw_elif.
      rewrite Rest, Hg by assumption. now apply Ht.
    + intros r. rewrite <- !app_assoc. rewrite skip_eq, (match_spelled _ DElif) by auto using kw_elif. reflexivity.
  - intros x g Hg y (G & N & Wg & Gy). cbn [spellt]. split.
    + intros k r. rewrite <- !app_assoc. rewrite skip_eq, (match_spelled _ DElse) by auto using kw_else.
      rewrite Rest, Hg by assumption.
      rewrite skip_eq, (match_spelled _ DEndif) by auto using kw_endif. now rewrite skip_spelled.
    + intros r. rewrite <- !app_assoc. rewrite skip_eq, (match_spelled _ DElse) by auto using kw_else. reflexivity.
  - intros y Gy. cbn [wft] in Gy. cbn [spellt]. split.
    + intros k r. rewrite skip_eq, (match_spelled _ DEndif) by auto using kw_endif. now rewrite skip_spelled.
    + intros r. rewrite skip_eq, (match_spelled _ DEndif) by auto using kw_endif. reflexivity.
Qed.

Lemma skip_tail : forall g t r, wf g -> wft t -> skip 0 (spell g ++ spellt t ++ r) = Done (spellt t ++ r).
Proof. intros g t r Wg Wt. rewrite (proj1 skip_all) by assumption. now apply (proj2 (proj2 skip_all)). Qed.

(** * Running *)
Section Theorems.
Variables M Out : Type.
Variable txt : M -> list Z -> Out.
Variable eval : M -> list Z -> option bool.
Variable defd : M -> list Z -> option bool.
Variable step : M -> dtype -> list Z -> option (M * list Out).
Variable line_ok : M -> list Z -> bool.
Notation loop := (loop M Out txt eval defd step line_ok).
Notation mean := (mean M Out txt eval defd step line_ok).
Notation mean1 := (mean1 M Out txt eval defd step line_ok).
Notation meant := (meant M Out txt eval defd step line_ok).

Lemma mean_cons : forall i s m, mean (ICons i s) m = andthen M Out (mean1 i m) (mean s).
Proof. reflexivity. Qed.
Lemma mean_if : forall x g t m, mean1 (If x g t) m = ask M Out eval DIf m (operands x) (mean g m) (meant t m).
Proof. reflexivity. Qed.
Lemma mean_ifdef : forall x g t m, mean1 (Ifdef x g t) m = ask M Out defd DIfdef m (operands x) (mean g m) (meant t m).
Proof. reflexivity. Qed.
Lemma mean_ifndef : forall x g t m, mean1 (Ifndef x g t) m = ask M Out defd DIfndef m (operands x) (meant t m) (mean g m).
Proof. reflexivity. Qed.
Lemma mean_elif : forall x g t m, meant (Elif x g t) m = ask M Out eval DElif m (operands x) (mean g m) (meant t m).
Proof. reflexivity. Qed.
Lemma mean_else : forall x g y m, meant (Else x g y) m = mean g m.
Proof. reflexivity. Qed.

Definition goon (c : cstate) (x : res M Out) (r : list Z) (out : list Out) (log : list (event M)) : outcome (pstate M Out) :=
  match x with None => Fail | Some (m, o, l) => loop c [] r m (out ++ o) (log ++ l) end.

Lemma flush_nil : forall m out, flush M Out txt m out [] = out.
Proof. intros. unfold flush. cbn [map]. apply app_nil_r. Qed.

Lemma goon_andthen : forall a f c r out log,
  goon c (andthen M Out a f) r out log
  = match a with None => Fail | Some (m, o, l) => goon c (f m) r (out ++ o) (log ++ l) end.
Proof.
  intros [[[m o] l]|] f c r out log; [|reflexivity]. cbn [andthen].
  destruct (f m) as [[[m' o'] l']|]; [|reflexivity]. cbn [goon]. now rewrite <- !app_assoc.
Qed.

(** A group stops at the tail of its conditional. *)
Lemma loop_stop : forall t r m out log, wft t ->
  loop CNone [] (spellt t ++ r) m out log = Done (spellt t ++ r, m, out, log).
Proof.
  intros t r m out log W. rewrite loop_eq. rewrite flush_nil. destruct t as [x g t|x g y|y]; cbn [spellt wft] in *.
  - rewrite <- !app_assoc, (match_spelled _ DElif) by (try apply kw_elif; tauto). reflexivity.
  - rewrite <- !app_assoc, (match_spelled _ DElse) by (try apply kw_else; tauto). reflexivity.
  - rewrite (match_spelled _ DEndif) by (try apply kw_endif; tauto). reflexivity.
Qed.

Lemma loop_all :
  (forall s, wf s -> forall r m out log,
     loop CNone [] (spell s ++ r) m out log = goon CNone (mean s m) r out log) /\
  (forall i, wf1 i -> forall r m out log,
     loop CNone [] (spell1 i ++ r) m out log = goon CNone (mean1 i m) r out log) /\
  (forall t, wft t ->
     (forall r m out log, loop CFail [] (spellt t ++ r) m out log = goon CNone (meant t m) r out log) /\
     (forall r m out log, loop CSuccess [] (spellt t ++ r) m out log = loop CNone [] r m out log)).
Proof.
  assert (Take : forall g t r m out lg, wf g -> wft t ->
     (forall r m out log, loop CNone [] (spell g ++ r) m out log = goon CNone (mean g m) r out log) ->
     (forall r m out log, loop CSuccess [] (spellt t ++ r) m out log = loop CNone [] r m out log) ->
     take_group M Out txt eval defd step line_ok [] m out (spell g ++ spellt t ++ r) lg = goon CNone (mean g m) r out lg).
  { intros g t r m out lg Wg Wt Hg Ht. unfold take_group. rewrite flush_nil, Hg.
    destruct (mean g m) as [[[m' o] l]|]; [|reflexivity]. cbn [goon].
    rewrite loop_stop by assumption. cbn [bindO]. apply Ht. }
  assert (Skip : forall c g t r m out lg, wf g -> wft t ->
     skip_then M Out txt eval defd step line_ok c [] (spell g ++ spellt t ++ r) m out lg
     = loop c [] (spellt t ++ r) m out lg).
  { intros c g t r m out lg Wg Wt. unfold skip_then. rewrite skip_tail by assumption. reflexivity. }
  assert (Eff : forall name d x r m out log, kw name d ->
     match d with DInclude | DDefine | DUndef => True | _ => False end -> good x ->
     loop CNone [] (spelled name x ++ r) m out log = goon CNone (doit M Out step d m (operands x)) r out log).
  { intros name d x r m out log K D G. rewrite loop_eq, (match_spelled name d) by assumption. cbv zeta.
    rewrite take_spelled, skip_spelled by assumption. rewrite flush_nil.
    destruct d; try contradiction; unfold doit;
      match goal with |- context [step ?a ?b ?c] => destruct (step a b c) as [[m' o]|] end; reflexivity. }
  apply items_mut.
  - intros _ r m out log. cbn [spell PropCond.mean skipping goon]. now rewrite !app_nil_r.
  - intros i Hi s Hs (Wi & Ws) r m out log. rewrite mean_cons. cbn [spell]. rewrite goon_andthen, <- app_assoc, Hi by assumption.
    destruct (mean1 i m) as [[[m' o] l]|]; [|reflexivity]. cbn [goon]. now apply Hs.
  - intros l (I & N) r m out log. cbn [spell1 PropCond.mean1 goon]. rewrite <- app_assoc. cbn [app].
    rewrite loop_eq, match_text by assumption. cbv zeta. rewrite take_inline, skip_inline by assumption.
    rewrite (loop_flush M Out txt eval defd step line_ok (S (List.length r))) by lia. rewrite app_nil_r. reflexivity.
  - intros x (P & Q) r m out log. cbn [spell1 PropCond.mean1 goon]. rewrite loop_eq, match_null by assumption. cbv zeta.
    rewrite loop_eq. change (newline :: r) with ([] ++ newline :: r). rewrite match_text.
    + cbv zeta. cbn [app]. change (take_line (newline :: r)) with (@nil Z). change (skip_line (newline :: r)) with r.
      rewrite (loop_flush M Out txt eval defd step line_ok (S (List.length r))) by lia. rewrite app_nil_r. reflexivity.
    + constructor.
    + intros [|b b'] q H; discriminate H.
  - intros x w (G & W & N & E) r m out log. cbn [spell1 PropCond.mean1 skipping goon].
    rewrite loop_eq, match_unknown by assumption. cbv zeta. rewrite skip_unknown by assumption. now rewrite !app_nil_r.
  - intros x G r m out log. apply (Eff "include"%string DInclude); auto using kw_include.
  - intros x G r m out log. apply (Eff "define"%string DDefine); auto using kw_define.
  - intros x G r m out log. apply (Eff "undef"%string DUndef); auto using kw_undef.
  - intros x G r m out log. cbn [spell1 PropCond.mean1 goon]. cbn [wf1] in G.
    rewrite loop_eq, (match_spelled _ DError) by auto using kw_error. reflexivity.
  - intros x G r m out log. cbn [spell1 PropCond.mean1]. cbn [wf1] in G.
    rewrite loop_eq, (match_spelled _ DLine) by auto using kw_line. cbv zeta.
    rewrite take_spelled, skip_spelled by assumption.
    destruct (line_ok m (operands x)); [|reflexivity]. cbn [goon]. now rewrite app_nil_r.
  - intros x g Hg t Ht (G & Wg & Wt) r m out log. rewrite mean_if. cbn [spell1]. rewrite <- !app_assoc.
    specialize (Hg Wg). destruct (Ht Wt) as (Hf & Hs).
    rewrite loop_eq, (match_spelled _ DIf) by auto using kw_if. cbv zeta.
    rewrite take_spelled, skip_spelled by assumption. unfold ask.
    destruct (eval m (operands x)) as [[|]|]; [| |reflexivity]; rewrite goon_andthen, app_nil_r.
    + now apply Take.
    + rewrite flush_nil, Skip by assumption. apply Hf.
  - intros x g Hg t Ht (G & Wg & Wt) r m out log. rewrite mean_ifdef. cbn [spell1]. rewrite <- !app_assoc.
    specialize (Hg Wg). destruct (Ht Wt) as (Hf & Hs).
    rewrite loop_eq, (match_spelled _ DIfdef) by auto using kw_ifdef. cbv zeta.
    rewrite take_spelled, skip_spelled by assumption. unfold ask.
    destruct (defd m (operands x)) as [[|]|]; [| |reflexivity]; rewrite goon_andthen, app_nil_r.
    + now apply Take.
    + rewrite Skip by assumption. apply Hf.
  - intros x g Hg t Ht (G & Wg & Wt) r m out log. rewrite mean_ifndef. cbn [spell1]. rewrite <- !app_assoc.
    specialize (Hg Wg). destruct (Ht Wt) as (Hf & Hs).
    rewrite loop_eq, (match_spelled _ DIfndef) by auto using kw_ifndef. cbv zeta.
    rewrite take_spelled, skip_spelled by assumption. unfold ask.
    destruct (defd m (operands x)) as [[|]|]; [| |reflexivity]; rewrite goon_andthen, app_nil_r.
    + cbn [negb]. rewrite Skip by assumption. apply Hf.
    + cbn [negb]. now apply Take.
  - intros x g Hg t Ht (G & N & Wg & Wt). specialize (Hg Wg). destruct (Ht Wt) as (Hf & Hs).
    split; intros r m out log; rewrite ?mean_elif; cbn [spellt]; rewrite <- !app_assoc; rewrite loop_eq, (match_spelled _ DElif) by auto using kw_elif;
      cbv zeta; rewrite ?take_spelled, skip_spelled by assumption.
    + unfold ask. destruct (eval m (operands x)) as [[|]|]; [| |reflexivity]; rewrite goon_andthen, app_nil_r.
      * now apply Take.
      * rewrite flush_nil, Skip by assumption. apply Hf.
    + rewrite flush_nil, Skip by assumption. apply Hs.
  - intros x g Hg y (G & N & Wg & Gy). specialize (Hg Wg).
    assert (HE : forall r m out log, loop CSuccess [] (spellt (Endif y) ++ r) m out log = loop CNone [] r m out log).
    { intros. cbn [spellt]. rewrite loop_eq, (match_spelled _ DEndif) by auto using kw_endif. cbv zeta.
      now rewrite skip_spelled. }
    split; intros r m out log; rewrite ?mean_else; cbn [spellt]; rewrite <- !app_assoc; rewrite loop_eq, (match_spelled _ DElse) by auto using kw_else;
      cbv zeta; rewrite skip_spelled by assumption.
    + now apply (Take g (Endif y)).
    + change (spelled "endif" y) with (spellt (Endif y)). rewrite Skip by assumption. apply HE.
  - intros y Gy. cbn [wft] in Gy. cbn [spellt PropCond.meant skipping goon]. split; intros r m out log;
      rewrite loop_eq, (match_spelled _ DEndif) by auto using kw_endif; cbv zeta; rewrite skip_spelled by assumption;
      [now rewrite !app_nil_r|reflexivity].
Qed.

(** For a well-nested file the preprocessor produces, in every macro scope and whatever the conditions,
    exactly the text, effects and evaluations the standard prescribes; in particular a skipped group
    contributes nothing and conditions after the taken group are not evaluated. *)
Theorem c10_conditional_inclusion_partial : forall s m, wf s ->
  run M Out txt eval defd step line_ok (spell s) m
  = match mean s m with None => Fail | Some r => Done r end.
Proof.
  intros s m W. unfold run. rewrite <- (app_nil_r (spell s)).
  change (group M Out txt eval defd step line_ok (S (List.length (spell s ++ []))) CNone [] (spell s ++ []) m [] [])
    with (loop CNone [] (spell s ++ []) m [] []).
  rewrite (proj1 loop_all) by assumption.
  destruct (mean s m) as [[[m' o] l]|]; [|reflexivity]. cbn [goon].
  rewrite loop_eq. change (match_directive []) with (DSentinel, @nil Z). cbv beta iota zeta.
  rewrite flush_nil. reflexivity.
Qed.

(** The loops terminate on every character sequence. *)
Theorem c10_terminates : forall src m, run M Out txt eval defd step line_ok src m <> NoFuel.
Proof.
  intros src m. unfold run.
  change (group M Out txt eval defd step line_ok (S (List.length src)) CNone [] src m [] [])
    with (loop CNone [] src m [] []).
  destruct (loop_result M Out txt eval defd step line_ok CNone [] src m [] []) as (A & _).
  destruct (loop CNone [] src m [] []) as [[[[s m'] o'] lg']| |]; [|discriminate|congruence].
  cbn [bindO]. destruct (fst (match_directive s)); discriminate.
Qed.

(** A file whose conditionals are unbalanced by a surplus #endif, #else or #elif is rejected. *)
Theorem c10_stray_directive_rejected : forall s t r m, wf s -> wft t ->
  run M Out txt eval defd step line_ok (spell s ++ spellt t ++ r) m = Fail.
Proof.
  intros s t r m W Wt. unfold run.
  change (group M Out txt eval defd step line_ok (S (List.length (spell s ++ spellt t ++ r))) CNone [] (spell s ++ spellt t ++ r) m [] [])
    with (loop CNone [] (spell s ++ spellt t ++ r) m [] []).
  rewrite (proj1 loop_all) by assumption.
  destruct (mean s m) as [[[m' o] l]|]; [|reflexivity]. cbn [goon]. rewrite loop_stop by assumption. cbn [bindO].
  destruct t as [x g t|x g y|y]; cbn [spellt wft] in *; rewrite <- ?app_assoc.
  - rewrite (match_spelled _ DElif) by (try apply kw_elif; tauto). reflexivity.
  - rewrite (match_spelled _ DElse) by (try apply kw_else; tauto). reflexivity.
  - rewrite (match_spelled _ DEndif) by (try apply kw_endif; tauto). reflexivity.
Qed.
End Theorems.

(** * What is false *)

(** The grammar without the restriction on operands of #elif and #else *)
Fixpoint wf' (s : items) : Prop :=
  match s with INil => True | ICons i s' => wf1' i /\ wf' s' end
with wf1' (i : item) : Prop :=
  match i with
  | If x g t | Ifdef x g t | Ifndef x g t => good x /\ wf' g /\ wft' t
  | _ => wf1 i
  end
with wft' (t : tail) : Prop :=
  match t with
  | Elif x g t' => good x /\ wf' g /\ wft' t'
  | Else x g y => good x /\ wf' g /\ good y
  | Endif y => good y
  end.

(** A concrete instance: no macros, the condition is whether the operand is "1". *)
Definition ev1 (_ : unit) (x : list Z) : option bool := Some (same_text x (text " 1")).
Definition run1 (src : list Z) := run unit (list Z) (fun _ l => l) ev1 ev1 (fun _ _ _ => None) (fun _ _ => true) src tt.
Definition mean1' (s : items) := mean unit (list Z) (fun _ l => l) ev1 ev1 (fun _ _ _ => None) (fun _ _ => true) s tt.
Definition dl (o : string) : dline := DL [] [] (text o).

(** #if 0 / #if 1 / #elif # endif / #endif / x / #endif: the operand of the nested #elif is taken for an
    #endif (preprocessor.c 189-196 does not skip the line), so x is not skipped. *)
Definition hash_file : items :=
  ICons (If (dl " 0")
          (ICons (If (dl " 1") INil (Elif (dl " # endif") INil (Endif (dl ""))))
          (ICons (Text (text "x")) INil))
          (Endif (dl ""))) INil.

Theorem c10_conditional_inclusion_refuted :
  exists s, wf' s /\ mean1' s = Some (tt, [], [Asked tt DIf (text " 0")])
            /\ run1 (spell s) = Fail.
Proof.
  exists hash_file. split; [|split; vm_compute; reflexivity].
  cbn [wf' wf1' wft' hash_file]. unfold good, dl. cbn [pre mid operands wf1].
  repeat split; try (repeat constructor; unfold newline; discriminate); try (repeat constructor).
  intros [|b [|b' q]] r H; [discriminate H|discriminate H|discriminate H].
Qed.

(** A missing #endif is accepted (6.10p1 requires it), and so is a second #else. *)
Theorem c10_unbalanced_rejected_refuted :
  run1 (text "#if 1" ++ [newline] ++ text "x" ++ [newline]) = Done (tt, [text "x"], [Asked tt DIf (text " 1")])
  /\ run1 (text "#if 1" ++ [newline] ++ text "#else" ++ [newline] ++ text "#else" ++ [newline] ++ text "#endif" ++ [newline])
     = Done (tt, [], [Asked tt DIf (text " 1")]).
Proof. split; vm_compute; reflexivity. Qed.

(** * A case meeting the hypotheses: nested conditionals, one taken group inside another. *)
Definition sample : items :=
  ICons (Text (text "a"))
  (ICons (If (dl " 0")
     (ICons (If (dl " 1") (ICons (Text (text "b")) INil) (Else (dl "") (ICons (Error (dl " no")) INil) (dl ""))) INil)
     (Elif (dl " 1")
        (ICons (Ifdef (dl " 0") (ICons (Text (text "c")) INil) (Else (dl "") (ICons (Text (text "d")) INil) (dl ""))) INil)
        (Elif (dl " 1") (ICons (Text (text "e")) INil) (Endif (dl "")))))
  (ICons (Unknown (dl " once") (text "pragma")) INil)).

Lemma plain_text : forall l, inline l -> (forall c r, skip_ws l = c :: r -> c <> 35) -> no_hash l.
Proof.
  intros l I H b r E B. subst l. rewrite skip_ws_blank in H by assumption. exact (H 35 r eq_refl eq_refl).
Qed.

Example c10_hypotheses : wf sample /\ exists r, mean1' sample = Some r /\ snd (fst r) = [text "a"; text "d"]
   /\ snd r = [Asked tt DIf (text " 0"); Asked tt DElif (text " 1"); Asked tt DIfdef (text " 0")].
Proof.
  split; [|eexists; split; [vm_compute; reflexivity|split; reflexivity]].
  cbn [wf wf1 wft sample]. unfold good, dl. cbn [pre mid operands].
  repeat split; try (repeat constructor; unfold newline; discriminate); try (repeat constructor);
    try (apply plain_text; [repeat constructor; unfold newline; discriminate|intros c r; vm_compute; try discriminate; injection 1 as <- <-; discriminate]).
  - intros H. cbn in H. repeat (destruct H as [H|H]; [discriminate H|]). exact H.
Qed.

Print Assumptions c10_conditional_inclusion_partial.
Print Assumptions c10_terminates.
Print Assumptions c10_stray_directive_rejected.
Print Assumptions c10_conditional_inclusion_refuted.
Print Assumptions c10_unbalanced_rejected_refuted.
