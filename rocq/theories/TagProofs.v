(** Proofs about the declarations of tags: the simulation of TagSpec by TagModel. *)
From Coq Require Import ZArith List Bool String Lia.
From Verif Require Import CompatModel CompositeModel ExprTypeModel TagModel TagSpec.
Import ListNotations.
Open Scope Z_scope.

(** ** The declarations for which the compiler follows the standard *)

(** Qualifiers of a specifier: not of an array type (the compiler qualifies the array) or of a function type;
    [restrict] only where it is allowed (not checked). *)
Definition cov_qual (q : qual) (t : styp) : Prop :=
  zero_qual q = true \/
  (is_arr t = false /\ is_fun t = false /\ (q_restrict q = true -> restrictable t = true)).

Section Covered.
Variable E : list entity.

(** Not checked: [restrict] for pointers to functions, the sign of array lengths, elements with a flexible array
    member. *)
Definition cov_dmod (t : styp) (d : dmod) : Prop :=
  match d with
  | DPtr q => q_restrict q = true -> is_fun t = false
  | DArr n => flexible E t = false /\ match n with Some z => 0 < z | None => True end
  | DFun => True
  end.
(** The type returned by a function is not checked. *)
Fixpoint cov_shape (t : styp) (sh : list dmod) : Prop :=
  match sh with
  | [] => True
  | d :: r => cov_dmod t d /\ match dmod_s E t d with Some t' => cov_shape t' r | None => ~ In DFun r end
  end.
(** Bit-fields of type _Bool have eight bits in the compiler. *)
Definition cov_width (t : styp) (w : Z) : Prop := width_of E t = Some 1 -> ~ (1 < w <= 8).
(** Not checked: names that are also members of anonymous members, members with flexible array members. *)
Definition cov_declr (u : bool) (t : styp) (ms : list member) (d : mdeclr) : Prop :=
  match d with
  | MPad w => cov_width t w
  | MD x sh w =>
    cov_shape t sh /\ (In x (flatten E ms) -> In (Some x) (map (fun m => fst (fst m)) ms)) /\
    match shape_s E t sh with
    | Some t' => match w with None => u = false -> flexible E t' = false | Some w => cov_width t' w end
    | None => True
    end
  end.
Fixpoint cov_declrs (u : bool) (t : styp) (ms : list member) (ds : list mdeclr) : Prop :=
  match ds with
  | [] => True
  | d :: r => cov_declr u t ms d /\ match declr_s E u t ms d with Some ms' => cov_declrs u t ms' r | None => True end
  end.
(** Anonymous members of other specifiers are accepted, qualified ones refused; the names are not compared. *)
Definition cov_anonymous (u : bool) (q : qual) (p : spec) (t : styp) (ms : list member) : Prop :=
  (exists b, p = SBasic b) \/
  ((exists v l, p = SDef v None l) /\ zero_qual q = true /\ fresh E ms (names_of E t) = true /\
   (u = false -> flexible E t = false)).
(** Unnamed bit-fields count as members before a flexible array member. *)
Definition cov_flexible (l : list member) : Prop :=
  forall b n t w, l = b ++ [(n, YArr None t, w)] -> b <> [] -> flatten E b <> [].
End Covered.

(** Enumeration constants outside the range of int are accepted. *)
Fixpoint cov_enum (es : list enumr) (next : Z) (c : list (string -> option Z)) : Prop :=
  match es with
  | [] => True
  | (x, e) :: r =>
    match (match e with Some f => f (visible c) | None => Some next end) with
    | None => True
    | Some v => int_range v = true /\ match in_scope c x with None => cov_enum r (v + 1) (bind_top c x v) | Some _ => True end
    end
  end.

Fixpoint tag_in (t : styp) : option nat :=
  match t with YTag i => Some i | YPtr a | YArr _ a | YQual _ a => tag_in a | _ => None end.
(** The tag of a type, if any, denotes that type here and is not one of [A]. *)
Definition clear (A : list string) (s : sstate) (t : styp) : Prop :=
  forall i e x, tag_in t = Some i -> nth_error (s_ents s) i = Some e -> e_tag e = Some x ->
    visible (s_tags s) x = Some i /\ ~ In x A.
(** A tag whose definition is open is used with its kind. *)
Definition cov_kind (O : list string) (s : sstate) (x : string) (k : kind) : Prop :=
  In x O -> forall i e, visible (s_tags s) x = Some i -> nth_error (s_ents s) i = Some e -> e_kind e = k.
(** The bad type of a specifier does not become a return type. *)
Definition cov_bad (ds : list mdeclr) : Prop := match ds with MD _ sh _ :: _ => ~ In DFun sh | _ => True end.

(** [O]: the tags whose definitions are open and that are declared by these definitions; [A]: those of them that hide
    a tag of an outer scope and thus are not to be used before the end of the definition. *)
Fixpoint cov_spec (O A : list string) (p : spec) (s : sstate) {struct p} : Prop :=
  match p with
  | SBasic _ => True
  | SName n => match nth_error (s_names s) n with Some (_, t) => clear A s t | None => True end
  | SRef u x => ~ In x A /\ cov_kind O s x (kind_of u)
  | SDef u x ms =>
    match x with
    | None => cov_members O A u ms [] s
    | Some y =>
      ~ In y A /\ cov_kind O s y (kind_of u) /\
      match in_scope (s_tags s) y with
      | Some _ => cov_members O A u ms [] s
      | None =>
        cov_members (y :: O) (match visible (s_tags s) y with Some _ => y :: A | None => A end) u ms []
          (fst (new_entity (kind_of u) x None s))
      end
    end /\
    match members_s u ms []
            match x with
            | Some y => match in_scope (s_tags s) y with Some _ => s | None => fst (new_entity (kind_of u) x None s) end
            | None => s
            end with
    | Some (s2, l) => cov_flexible (s_ents s2) l
    | None => True
    end
  | SEnumRef x => ~ In x A /\ cov_kind O s x KEnum /\ visible (s_tags s) x <> None
  | SEnumDef x es =>
    match x with Some y => ~ In y A /\ cov_kind O s y KEnum | None => True end /\ cov_enum es 0 (s_consts s)
  end
with cov_members (O A : list string) (u : bool) (ms : mdecls) (l : list member) (s : sstate) {struct ms} : Prop :=
  match ms with
  | MNil => True
  | MCons q p ds r =>
    cov_spec O A p s /\
    match spec_s p s with
    | Some (s', t) =>
      cov_qual q t /\
      match qualified_s q t with
      | Some t' =>
        match ds with [] => cov_anonymous (s_ents s') u q p t' l | _ => cov_declrs (s_ents s') u t' l ds end /\
        match (match ds with [] => anonymous_s (s_ents s') u p t' l | _ => declrs_s (s_ents s') u t' l ds end) with
        | Some l' => cov_members O A u r l' s'
        | None => True
        end
      | None => True
      end
    | None => cov_bad ds
    end
  end.

Fixpoint cov_declarators (typedef : bool) (t : styp) (ds : list (list dmod)) (s : sstate) : Prop :=
  match ds with
  | [] => True
  | d :: r =>
    cov_shape (s_ents s) t d /\
    match shape_s (s_ents s) t d with
    | Some t' => cov_declarators typedef t r (SS (s_tags s) (s_consts s) (s_ents s) (s_names s ++ [(typedef, t')]))
    | None => True
    end
  end.
(** A declaration without declarators declares a tag; it does not hide a structure or union by a new declaration. *)
Definition cov_event (e : event) (s : sstate) : Prop :=
  match e with
  | EOpen | EClose => True
  | EBare p =>
    match p with
    | SRef _ x => in_scope (s_tags s) x <> None \/ visible (s_tags s) x = None
    | SDef _ (Some _) _ | SEnumDef _ _ => True
    | _ => False
    end /\ cov_spec [] [] p s
  | EDecl typedef q p d ds =>
    cov_spec [] [] p s /\
    match spec_s p s with
    | Some (s', t) =>
      cov_qual q t /\
      match qualified_s q t with Some t' => cov_declarators typedef t' (d :: ds) s' | None => True end
    | None => ~ In DFun d
    end
  end.
Fixpoint cov_run (es : list event) (s : sstate) : Prop :=
  match es with
  | [] => True
  | e :: r => cov_event e s /\ match event_s e s with Some s' => cov_run r s' | None => True end
  end.

(** ** Types *)

Section Nest.
Variable P : ty -> Prop.
Hypothesis hb : forall b, P (TBasic b).
Hypothesis hp : forall t, P t -> P (TPtr t).
Hypothesis ha : forall b q t, P t -> P (TArr b q t).
Hypothesis hq : forall q t, P t -> P (TQual q t).
Hypothesis hf : forall r m ps e, P r -> P (TFun r m ps e).
Hypothesis he : forall c x es u, P (TEnum c x es u).
Hypothesis hs : forall c x fs, Forall (fun f => P (f_type f)) fs -> P (TStruct c x fs).
Hypothesis hu : forall c x fs, Forall (fun f => P (f_type f)) fs -> P (TUnion c x fs).
Fixpoint ty_nest (k : ty) : P k :=
  let go := fix go (fs : list field) : Forall (fun f => P (f_type f)) fs :=
    match fs with
    | [] => Forall_nil _
    | f :: r => Forall_cons f (match f return P (f_type f) with Field _ t _ _ => ty_nest t end) (go r)
    end in
  match k with
  | TBasic b => hb b
  | TPtr t => hp t (ty_nest t)
  | TArr b q t => ha b q t (ty_nest t)
  | TQual q t => hq q t (ty_nest t)
  | TFun r m ps e => hf r m ps e (ty_nest r)
  | TEnum c x es u => he c x es u
  | TStruct c x fs => hs c x fs (go fs)
  | TUnion c x fs => hu c x fs (go fs)
  end.
End Nest.

Fixpoint reps (E : list entity) (fs : list field) (ms : list member) : Prop :=
  match fs, ms with
  | [], [] => True
  | Field n ft al w :: r, (n', t', w') :: r' => n = n' /\ al = 0 /\ w = w' /\ rep E ft t' /\ reps E r r'
  | _, _ => False
  end.

Lemma rep_struct E c x fs t : rep E (TStruct c x fs) t <->
  exists i e, t = YTag i /\ nth_error E i = Some e /\ e_kind e = KStruct /\ e_tag e = x /\
    (if c then exists ms fl fx, e_content e = Some (CMembers ms fl fx) /\ reps E fs ms else x <> None /\ fs = []).
Proof.
  assert (H : forall fs ms, (fix reps (fs : list field) (ms : list member) {struct fs} : Prop :=
          match fs, ms with
          | [], [] => True
          | Field n ft al w :: r, (n', t', w') :: r' => n = n' /\ al = 0 /\ w = w' /\ rep E ft t' /\ reps r r'
          | _, _ => False
          end) fs ms = reps E fs ms).
  { induction fs0 as [|[n ft al w] r IH]; intros [|[[n' t'] w'] r']; cbn; try reflexivity. now rewrite IH. }
  cbn. destruct c; [|reflexivity]. setoid_rewrite H. reflexivity.
Qed.
Lemma rep_union E c x fs t : rep E (TUnion c x fs) t <->
  exists i e, t = YTag i /\ nth_error E i = Some e /\ e_kind e = KUnion /\ e_tag e = x /\
    (if c then exists ms fl fx, e_content e = Some (CMembers ms fl fx) /\ reps E fs ms else x <> None /\ fs = []).
Proof.
  assert (H : forall fs ms, (fix reps (fs : list field) (ms : list member) {struct fs} : Prop :=
          match fs, ms with
          | [], [] => True
          | Field n ft al w :: r, (n', t', w') :: r' => n = n' /\ al = 0 /\ w = w' /\ rep E ft t' /\ reps r r'
          | _, _ => False
          end) fs ms = reps E fs ms).
  { induction fs0 as [|[n ft al w] r IH]; intros [|[[n' t'] w'] r']; cbn; try reflexivity. now rewrite IH. }
  cbn. destruct c; [|reflexivity]. setoid_rewrite H. reflexivity.
Qed.
Lemma rep_record E u c x fs t : rep E (record_type u c x fs) t <->
  exists i e, t = YTag i /\ nth_error E i = Some e /\ e_kind e = kind_of u /\ e_tag e = x /\
    (if c then exists ms fl fx, e_content e = Some (CMembers ms fl fx) /\ reps E fs ms else x <> None /\ fs = []).
Proof. destruct u; [apply rep_union|apply rep_struct]. Qed.

(** ** Growth of the entities *)
Definition ext (E E' : list entity) : Prop :=
  forall i e, nth_error E i = Some e ->
    exists e', nth_error E' i = Some e' /\ e_kind e' = e_kind e /\ e_tag e' = e_tag e /\
               (e_content e = None \/ e_content e' = e_content e).
Lemma ext_refl E : ext E E.
Proof. intros i e H. exists e. auto. Qed.
Lemma ext_trans A B C : ext A B -> ext B C -> ext A C.
Proof.
  intros H1 H2 i e H. destruct (H1 _ _ H) as (e1 & N1 & K1 & T1 & C1).
  destruct (H2 _ _ N1) as (e2 & N2 & K2 & T2 & C2). exists e2.
  repeat split; try congruence. destruct C1 as [C1|C1]; [auto|]. destruct C2 as [C2|C2]; [left|right]; congruence.
Qed.
Lemma reps_mono E E' fs : Forall (fun f => forall t, rep E (f_type f) t -> rep E' (f_type f) t) fs ->
  forall ms, reps E fs ms -> reps E' fs ms.
Proof.
  induction 1 as [|[n ft al w] r H _ IH]; intros [|[[n' t'] w'] r']; cbn; try tauto.
  intros (-> & -> & -> & A & B). repeat split; auto.
Qed.
Lemma rep_mono E E' : ext E E' -> forall k t, rep E k t -> rep E' k t.
Proof.
  intros X k. induction k using ty_nest; intros y.
  - auto.
  - cbn. intros (t' & -> & A). eauto.
  - cbn. intros (n & t' & -> & -> & -> & A). exists n, t'. repeat split. auto.
  - cbn. intros (t' & -> & A & B). exists t'. auto.
  - cbn. intros (t' & -> & -> & -> & -> & A). exists t'. repeat split. auto.
  - cbn. intros (i & vs & -> & A & B & C & D). destruct (X _ _ A) as ([k y z] & N & K & T & Ct). cbn in *.
    exists i, vs. destruct Ct as [Ct|Ct]; [discriminate|]. subst. auto.
  - rewrite !rep_struct. intros (i & e & -> & A & B & C & D). destruct (X _ _ A) as (e' & N & K & T & Ct).
    exists i, e'. repeat split; try congruence. destruct c; [|now rewrite <- C in D |- *].
    destruct D as (ms & fl & fx & D1 & D2). exists ms, fl, fx. split.
    + destruct Ct; congruence.
    + eapply reps_mono; eauto.
  - rewrite !rep_union. intros (i & e & -> & A & B & C & D). destruct (X _ _ A) as (e' & N & K & T & Ct).
    exists i, e'. repeat split; try congruence. destruct c; [|now rewrite <- C in D |- *].
    destruct D as (ms & fl & fx & D1 & D2). exists ms, fl, fx. split.
    + destruct Ct; congruence.
    + eapply reps_mono; eauto.
Qed.
Lemma reps_ext E E' fs ms : ext E E' -> reps E fs ms -> reps E' fs ms.
Proof. intros X. apply reps_mono. apply Forall_forall. intros f _ t. now apply rep_mono. Qed.
Lemma reps_app E fs ms fs' ms' : reps E fs ms -> reps E fs' ms' -> reps E (fs ++ fs') (ms ++ ms').
Proof.
  revert ms. induction fs as [|[n ft al w] r IH]; intros [|[[n' t'] w'] r']; cbn; try tauto.
  intros (-> & -> & -> & A & B) C. repeat split; auto.
Qed.

(** ** Checks *)
Definition kf_good (f : field) : bool :=
  k_check (f_type f) &&
  match f_width f with Some w => (0 <=? w) && ((0 <? w) || negb (is_some (f_name f))) | None => true end &&
  match f_type f with TArr _ _ _ => negb (vl_array (f_type f)) | _ => negb (incomplete (f_type f)) && negb (is_function (f_type f)) end.
Fixpoint kf_flex (u first : bool) (fs : list field) : bool :=
  match fs with
  | [] => true
  | f :: r => match f_type f with TArr Unbounded _ _ => match r with [] => true | _ => false end && negb u && negb first | _ => true end
              && kf_flex u false r
  end.
Lemma kf_good_eq n ft al w : kf_good (Field n ft al w) =
  k_check ft &&
  match w with Some w => (0 <=? w) && ((0 <? w) || negb (is_some n)) | None => true end &&
  match ft with TArr _ _ _ => negb (vl_array ft) | _ => negb (incomplete ft) && negb (is_function ft) end.
Proof. reflexivity. Qed.
Lemma k_check_record u c x fs : k_check (record_type u c x fs) = negb c || (forallb kf_good fs && kf_flex u true fs).
Proof.
  assert (H : forall b l,
    (fix fields (first : bool) (fs : list field) : bool :=
       match fs with
       | [] => true
       | Field name ft _ w :: r =>
         k_check ft &&
         (match w with Some w => (0 <=? w) && ((0 <? w) || negb (is_some name)) | None => true end) &&
         (match ft with
          | TArr Unbounded _ _ =>
            match r with [] => true | _ => false end && negb u && negb first
          | TArr _ _ _ => negb (vl_array ft)
          | _ => negb (incomplete ft) && negb (is_function ft)
          end) && fields false r
       end) b l = forallb kf_good l && kf_flex u b l).
  { intros b l. revert b. induction l as [|[n ft al w] r IH]; intros b; [reflexivity|].
    cbn [forallb kf_flex]. rewrite IH, kf_good_eq. cbn [f_type].
    destruct (k_check ft); cbn [andb]; [|reflexivity].
    set (W := match w with Some _ => _ | None => true end). destruct W; cbn [andb]; [|reflexivity].
    destruct ft as [bb|tt|bb qq tt|qq tt|rr mm pp ee|cc xx ee uu|cc xx ff|cc xx ff]; cbn [is_function vl_array];
      try (destruct (negb (incomplete _) && negb _); cbn [andb]; reflexivity).
    destruct bb; cbn [negb andb]; try reflexivity.
    destruct (forallb kf_good r); cbn [andb]; [reflexivity|]. now rewrite andb_false_r. }
  destruct u; cbn [record_type k_check] in *; now rewrite <- H.
Qed.

(** ** Qualifiers and declarators *)
Definition sync (E : list entity) (k : ty) (t : styp) : Prop := incomplete k = incomplete_s E t.
Definition wfk (E : list entity) : Prop :=
  forall i e, nth_error E i = Some e -> (e_kind e = KEnum <-> exists vs, e_content e = Some (CValues vs)).

Lemma rep_is_fun E k t : rep E k t -> is_function k = is_fun t.
Proof.
  destruct k; cbn.
  - intros ->. reflexivity.
  - intros (t' & -> & _). reflexivity.
  - intros (n & t' & -> & _). reflexivity.
  - intros (t' & -> & _). reflexivity.
  - intros (t' & -> & _). reflexivity.
  - intros (i & vs & -> & _). reflexivity.
  - intros (i & e & -> & _). reflexivity.
  - intros (i & e & -> & _). reflexivity.
Qed.
Lemma rep_is_arr E k t : rep E k t -> is_array k = is_arr t.
Proof.
  destruct k; cbn.
  - intros ->. reflexivity.
  - intros (t' & -> & _). reflexivity.
  - intros (n & t' & -> & _). reflexivity.
  - intros (t' & -> & _). reflexivity.
  - intros (t' & -> & _). reflexivity.
  - intros (i & vs & -> & _). reflexivity.
  - intros (i & e & -> & _). reflexivity.
  - intros (i & e & -> & _). reflexivity.
Qed.
Lemma rep_unq E k t : rep E k t -> plain t = true -> unqualified k = k.
Proof. destruct k; try reflexivity. cbn. intros (t' & -> & _) H. discriminate. Qed.
Lemma check_qualify q k : k_check (qualify q k) = k_check k.
Proof. destruct k; reflexivity. Qed.
Lemma check_qualified q k : k_check (qualified q k) = k_check k.
Proof. unfold qualified. destruct (zero_qual q); [reflexivity|apply check_qualify]. Qed.

Lemma qualify_rep E q k t : rep E k t -> is_arr t = false -> is_fun t = false ->
  rep E (qualify q k) (add_qual q t) /\ incomplete (qualify q k) = incomplete k /\ incomplete_s E (add_qual q t) = incomplete_s E t.
Proof.
  intros H A F. destruct k; cbn in H.
  - subst. cbn. repeat split. exists (YBasic b). auto.
  - destruct H as (t' & -> & H). cbn. repeat split. exists (YPtr t'). repeat split. exists t'. auto.
  - destruct H as (n & t' & -> & _). discriminate.
  - destruct H as (t' & -> & P & H). cbn. repeat split. exists t'. auto.
  - destruct H as (t' & -> & _). discriminate.
  - destruct H as (i & vs & -> & H). cbn. repeat split. exists (YTag i). repeat split. exists i, vs. auto.
  - pose proof H as H'. destruct H as (i & e & -> & H). cbn [qualify add_qual]. split; [|now split].
    exists (YTag i). repeat split. exact H'.
  - pose proof H as H'. destruct H as (i & e & -> & H). cbn [qualify add_qual]. split; [|now split].
    exists (YTag i). repeat split. exact H'.
Qed.
Lemma zero_restrict q : zero_qual q = true -> q_restrict q = false.
Proof. destruct q as [[] [] []]; cbn; congruence. Qed.
Lemma qualified_sim E q k t : rep E k t -> sync E k t -> cov_qual q t ->
  exists t', qualified_s q t = Some t' /\ rep E (qualified q k) t' /\ sync E (qualified q k) t'.
Proof.
  intros H Sy C. unfold qualified_s, qualified. destruct (zero_qual q) eqn:Z.
  - rewrite (zero_restrict q Z). cbn. exists t. auto.
  - destruct C as [C|(A & F & C)]; [congruence|]. destruct (q_restrict q) eqn:Rq.
    + rewrite C by reflexivity. cbn. destruct (qualify_rep E q k t H A F) as (R & I1 & I2).
      exists (add_qual q t). split; [reflexivity|split; [exact R|]]. unfold sync in *. congruence.
    + cbn. destruct (qualify_rep E q k t H A F) as (R & I1 & I2).
      exists (add_qual q t). split; [reflexivity|split; [exact R|]]. unfold sync in *. congruence.
Qed.

Lemma dmod_sim E k t d : rep E k t -> k_check k = true -> sync E k t -> cov_dmod E t d ->
  match dmod_s E t d with
  | Some t' => rep E (k_dmod k d) t' /\ k_check (k_dmod k d) = true /\ sync E (k_dmod k d) t'
  | None => k_check (k_dmod k d) = false
  end.
Proof.
  intros H K Sy C. destruct d as [q|n|]; cbn [dmod_s k_dmod].
  - assert (Hp : rep E (TPtr k) (YPtr t)) by (exists t; auto).
    assert (Cq : cov_qual q (YPtr t)).
    { right. cbn. repeat split. cbn in C. intros X. rewrite C by exact X. reflexivity. }
    destruct (qualified_sim E q (TPtr k) (YPtr t) Hp eq_refl Cq) as (t' & -> & R & S').
    rewrite check_qualified. cbn. auto.
  - cbn in C. destruct C as (Fl & N). rewrite Fl, orb_false_r. rewrite <- (rep_is_fun _ _ _ H).
    unfold sync in Sy. rewrite <- Sy. destruct (incomplete k) eqn:I; cbn [orb].
    { destruct n; cbn; rewrite K, I; reflexivity. }
    destruct (is_function k) eqn:F.
    { destruct n; cbn; rewrite K, I, F; reflexivity. }
    destruct n as [z|].
    + replace (0 <? z) with true by (symmetry; apply Z.ltb_lt; lia).
      cbn. rewrite K, I, F. repeat split. exists (Some z), t. auto.
    + cbn. rewrite K, I, F. repeat split. exists None, t. auto.
  - rewrite <- (rep_is_fun _ _ _ H), <- (rep_is_arr _ _ _ H). cbn.
    destruct (is_function k); cbn; [reflexivity|]. destruct (is_array k); cbn; [reflexivity|].
    repeat split. exists t. auto.
Qed.
Lemma check_shape_bad sh : forall k, k_check k = false -> ~ In DFun sh -> k_check (k_shape k sh) = false.
Proof.
  induction sh as [|d r IH]; intros k K N; [exact K|]. cbn. apply IH.
  - destruct d as [q|[z|]|]; cbn.
    + rewrite check_qualified. exact K.
    + now rewrite K.
    + now rewrite K.
    + exfalso. apply N. now left.
  - intros X. apply N. now right.
Qed.
Lemma shape_sim E sh : forall k t, rep E k t -> k_check k = true -> sync E k t -> cov_shape E t sh ->
  match shape_s E t sh with
  | Some t' => rep E (k_shape k sh) t' /\ k_check (k_shape k sh) = true /\ sync E (k_shape k sh) t'
  | None => k_check (k_shape k sh) = false
  end.
Proof.
  induction sh as [|d r IH]; intros k t H K Sy C; cbn; [auto|].
  cbn in C. destruct C as (C1 & C2). pose proof (dmod_sim E k t d H K Sy C1) as D.
  destruct (dmod_s E t d) as [t'|].
  - destruct D as (D1 & D2 & D3). now apply IH.
  - apply check_shape_bad; assumption.
Qed.

(** ** Members *)
Lemma width_sim E k t : wfk E -> rep E k t ->
  match width_of E t with
  | Some n => n = bitfield_width k \/ (n = 1 /\ bitfield_width k = 8)
  | None => bitfield_width k = 0
  end /\ 0 <= bitfield_width k.
Proof.
  intros W H.
  assert (D : forall k t, rep E k t -> plain t = true ->
    match width_of E t with
    | Some n => n = bitfield_width k \/ (n = 1 /\ bitfield_width k = 8)
    | None => bitfield_width k = 0
    end /\ 0 <= bitfield_width k).
  { clear k t H. intros k t H P. destruct k; cbn in H.
    - subst. destruct b; cbn; split; try lia; auto.
    - destruct H as (t' & -> & _). cbn. split; [reflexivity|lia].
    - destruct H as (n & t' & -> & _). discriminate.
    - destruct H as (t' & -> & _). discriminate.
    - destruct H as (t' & -> & _). discriminate.
    - destruct H as (i & vs & -> & N & _ & _ & ->). cbn. unfold content_of. rewrite N. cbn.
      unfold underlying. destruct vs; cbn; [split; [auto|lia]|]. destruct (_ && _); cbn; split; auto; lia.
    - destruct H as (i & e & -> & N & K & _). cbn. unfold content_of. rewrite N. cbn. split; [|lia].
      destruct (e_content e) as [[]|] eqn:Ce; try reflexivity. exfalso.
      assert (e_kind e = KEnum) by (apply (W _ _ N); eauto). cbn in K. congruence.
    - destruct H as (i & e & -> & N & K & _). cbn. unfold content_of. rewrite N. cbn. split; [|lia].
      destruct (e_content e) as [[]|] eqn:Ce; try reflexivity. exfalso.
      assert (e_kind e = KEnum) by (apply (W _ _ N); eauto). cbn in K. congruence. }
  destruct (plain t) eqn:P; [now apply D|]. destruct t; try discriminate.
  - destruct k; cbn in H; try (destruct H as (? & ? & _); discriminate); try (destruct H as (? & ? & ? & _); discriminate).
    + discriminate.
    + cbn. split; [reflexivity|lia].
  - destruct k; cbn in H; try (destruct H as (? & ? & _); discriminate); try (destruct H as (? & ? & ? & _); discriminate);
      try discriminate.
    destruct H as (t' & Q & P' & H). injection Q as -> ->. specialize (D _ _ H P').
    pose proof (rep_unq _ _ _ H P') as U. unfold bitfield_width in *. rewrite U in D. exact D.
  - destruct k; cbn in H; try (destruct H as (? & ? & _); discriminate); try (destruct H as (? & ? & ? & _); discriminate);
      try discriminate.
    cbn. split; [reflexivity|lia].
Qed.

Lemma field_at_names E fs x : forall ms, reps E fs ms ->
  (exists f, field_at fs x = Some f) <-> In (Some x) (map (fun m : member => fst (fst m)) ms).
Proof.
  induction fs as [|[n ft al w] r IH]; intros [|[[n' t'] w'] r']; cbn; try tauto.
  - intros _. split; [intros (f & ?); discriminate|tauto].
  - intros (-> & -> & -> & A & B). destruct n' as [y|].
    + destruct (String.eqb_spec y x) as [->|N].
      * split; [auto|eauto].
      * rewrite (IH _ B). split; [auto|]. intros [X|X]; [congruence|exact X].
    + rewrite (IH _ B). split; [auto|]. intros [X|X]; [congruence|exact X].
Qed.
Lemma flatten_direct E ms x : In (Some x) (map (fun m : member => fst (fst m)) ms) -> In x (flatten E ms).
Proof.
  unfold flatten. rewrite in_flat_map, in_map_iff. intros ([[n t] w] & Q & I). cbn in Q. subst n.
  exists (Some x, t, w). split; [exact I|]. now left.
Qed.
Lemma fresh_in E ms x : fresh E ms [x] = true <-> ~ In x (flatten E ms).
Proof.
  unfold fresh. cbn. rewrite andb_true_r, negb_true_iff. split.
  - intros H I. assert (existsb (String.eqb x) (flatten E ms) = true); [|congruence].
    apply existsb_exists. exists x. split; [exact I|apply String.eqb_refl].
  - intros H. destruct (existsb _ _) eqn:X; [|reflexivity]. apply existsb_exists in X.
    destruct X as (y & I & Q). apply String.eqb_eq in Q. subst. contradiction.
Qed.

Lemma good_app fs f : forallb kf_good fs = true -> kf_good f = true -> forallb kf_good (fs ++ [f]) = true.
Proof. intros A B. rewrite forallb_app. cbn. now rewrite A, B. Qed.
Lemma bad_app fs f : kf_good f = false -> forallb kf_good (fs ++ [f]) = false.
Proof. intros A. rewrite forallb_app. cbn. now rewrite A, andb_false_r. Qed.
Lemma bad_type n k al w : k_check k = false -> kf_good (Field n k al w) = false.
Proof. intros H. rewrite kf_good_eq, H. reflexivity. Qed.

Lemma member_sim E u k t : rep E k t -> k_check k = true -> sync E k t -> (u = false -> flexible E t = false) ->
  forall x, kf_good (Field x k 0 None) = member_ok E u t.
Proof.
  intros H K Sy Fl x. rewrite kf_good_eq, K. cbn [andb]. pose proof (rep_is_fun _ _ _ H) as F. pose proof (rep_is_arr _ _ _ H) as A.
  assert (U : u || negb (flexible E t) = true) by (destruct u; [reflexivity|now rewrite Fl]).
  unfold sync in Sy. destruct t; cbn [member_ok].
  3:{ destruct k; cbn in H; try (destruct H as (? & ? & _); discriminate); try (destruct H as (? & ? & ? & _); discriminate); try discriminate.
      destruct H as (n' & t' & Q & -> & _). cbn. destruct n'; reflexivity. }
  all: rewrite <- Sy, <- F.
  all: rewrite U, andb_true_r; destruct k; try discriminate A; reflexivity.
Qed.

Lemma bitfield_sim E named k t w x : wfk E -> rep E k t -> k_check k = true -> sync E k t -> cov_width E t w ->
  is_some x = named ->
  if bitfield_ok E named t w
  then (0 <? bitfield_width k) && (0 <=? w) && (w <=? bitfield_width k) = true /\ kf_good (Field x k 0 (Some w)) = true
  else (0 <? bitfield_width k) && (0 <=? w) && (w <=? bitfield_width k) = false \/ kf_good (Field x k 0 (Some w)) = false.
Proof.
  intros W H K Sy C X. destruct (width_sim E k t W H) as (D & D0). unfold bitfield_ok, cov_width in *.
  destruct (width_of E t) as [n|] eqn:Wd; [|left; rewrite D; reflexivity].
  assert (Hn : 0 < bitfield_width k).
  { destruct D as [D|D]; [|lia]. subst n. clear - Wd. revert Wd. generalize (bitfield_width k).
    induction t; cbn; try discriminate.
    - destruct b; intros z Q; try discriminate; injection Q; intros; lia.
    - intros z Q. eauto.
    - destruct (content_of E i) as [[]|]; intros z Q; try discriminate. injection Q; intros; lia. }
  replace (0 <? bitfield_width k) with true by (symmetry; apply Z.ltb_lt; lia).
  rewrite kf_good_eq, K, X. cbn [andb].
  assert (Rest : match k with TArr _ _ _ => negb (vl_array k) | _ => negb (incomplete k) && negb (is_function k) end = true).
  { clear - Wd Sy H W. pose proof (rep_is_fun _ _ _ H) as F. unfold sync in Sy.
    assert (I : incomplete_s E t = false /\ is_fun t = false /\ is_arr t = false).
    { clear - Wd. revert Wd. generalize n. induction t; cbn; intros m Q; try discriminate.
      - destruct b; auto; discriminate.
      - destruct (IHt _ Q) as (A & _). auto.
      - destruct (content_of E i) as [[]|]; try discriminate. auto. }
    destruct I as (I & I2 & I3). pose proof (rep_is_arr _ _ _ H) as A. rewrite I in Sy. rewrite I2 in F. rewrite I3 in A.
    destruct k; try discriminate A; rewrite Sy, F; reflexivity. }
  rewrite Rest, andb_true_r.
  assert (Cw : (w <=? n) = (w <=? bitfield_width k)).
  { destruct D as [->|(-> & D)]; [reflexivity|]. rewrite D.
    specialize (C eq_refl). destruct (Z.leb_spec w 1); destruct (Z.leb_spec w 8); try reflexivity; exfalso; lia. }
  rewrite Cw. destruct (0 <=? w) eqn:W0; cbn [andb]; [|now left].
  destruct (w <=? bitfield_width k) eqn:W1; cbn [andb]; [|now left].
  destruct (0 <? w); cbn; [auto|]. destruct named; cbn; auto.
Qed.

Lemma add_field_none fs t w : add_field fs (Field None t 0 w) = Some (fs ++ [Field None t 0 w]).
Proof. reflexivity. Qed.
Lemma add_field_some E fs ms x t w : reps E fs ms ->
  add_field fs (Field (Some x) t 0 w) =
  if existsb (fun m : member => match fst (fst m) with Some y => String.eqb y x | None => false end) ms then None
  else Some (fs ++ [Field (Some x) t 0 w]).
Proof.
  intros H. unfold add_field. cbn. pose proof (field_at_names E fs x ms H) as F.
  destruct (existsb _ ms) eqn:X.
  - apply existsb_exists in X. destruct X as ([[n' t'] w'] & I & Q). cbn in Q. destruct n' as [y|]; [|discriminate].
    apply String.eqb_eq in Q. subst y. destruct (proj2 F) as (f & ->); [|reflexivity].
    apply in_map_iff. exists (Some x, t', w'). auto.
  - destruct (field_at fs x) as [f|] eqn:Fa; [|reflexivity]. exfalso.
    assert (In (Some x) (map (fun m : member => fst (fst m)) ms)) as I by (apply F; eauto).
    apply in_map_iff in I. destruct I as ([[n' t'] w'] & Q & I). cbn in Q. subst n'.
    assert (existsb (fun m : member => match fst (fst m) with Some y => String.eqb y x | None => false end) ms = true); [|congruence].
    apply existsb_exists. exists (Some x, t', w'). cbn. split; [exact I|apply String.eqb_refl].
Qed.

Lemma declr_sim E u k t fs ms d : wfk E -> rep E k t -> k_check k = true -> sync E k t ->
  reps E fs ms -> forallb kf_good fs = true -> cov_declr E u t ms d ->
  match declr_s E u t ms d with
  | Some ms' => exists fs', k_declr k fs d = Some fs' /\ reps E fs' ms' /\ forallb kf_good fs' = true
  | None => k_declr k fs d = None \/ exists fs', k_declr k fs d = Some fs' /\ forallb kf_good fs' = false
  end.
Proof.
  intros W H K Sy Rp G C. destruct d as [x sh w|w]; cbn [declr_s].
  2:{ cbn in C. pose proof (bitfield_sim E false k t w None W H K Sy C eq_refl) as B. unfold k_declr.
      destruct (bitfield_ok E false t w).
      - destruct B as (B1 & B2). cbv zeta. rewrite B1, add_field_none. eexists. split; [reflexivity|]. split.
        + apply reps_app; [exact Rp|]. cbn. auto.
        + now apply good_app.
      - cbv zeta. destruct B as [B|B]; [rewrite B; now left|].
        destruct (_ && _); [|now left]. right. rewrite add_field_none. eexists. split; [reflexivity|]. now apply bad_app. }
  cbn in C. destruct C as (C1 & C2 & C3). pose proof (shape_sim E sh k t H K Sy C1) as D. unfold k_declr. cbv zeta.
  destruct (shape_s E t sh) as [t'|].
  2:{ destruct w as [w|].
      - destruct (_ && _); [|now left]. rewrite (add_field_some E fs ms) by exact Rp. destruct (existsb _ ms); [now left|].
        right. eexists. split; [reflexivity|]. apply bad_app. now apply bad_type.
      - rewrite (add_field_some E fs ms) by exact Rp. destruct (existsb _ ms); [now left|].
        right. eexists. split; [reflexivity|]. apply bad_app. now apply bad_type. }
  destruct D as (D1 & D2 & D3).
  assert (Ex : existsb (fun m : member => match fst (fst m) with Some y => String.eqb y x | None => false end) ms = negb (fresh E ms [x])).
  { destruct (fresh E ms [x]) eqn:Fr.
    - apply fresh_in in Fr. cbn. destruct (existsb _ ms) eqn:X; [|reflexivity]. exfalso. apply Fr, flatten_direct.
      apply existsb_exists in X. destruct X as ([[n' t0] w'] & I & Q). cbn in Q. destruct n' as [y|]; [|discriminate].
      apply String.eqb_eq in Q. subst y. apply in_map_iff. exists (Some x, t0, w'). auto.
    - cbn. destruct (in_dec string_dec x (flatten E ms)) as [I|N].
      + apply C2 in I. apply in_map_iff in I. destruct I as ([[n' t0] w'] & Q & I). cbn in Q. subst n'.
        apply existsb_exists. exists (Some x, t0, w'). cbn. split; [exact I|apply String.eqb_refl].
      + apply fresh_in in N. congruence. }
  destruct w as [w|].
  - pose proof (bitfield_sim E true (k_shape k sh) t' w (Some x) W D1 D2 D3 C3 eq_refl) as B.
    rewrite (add_field_some E fs ms) by exact Rp. rewrite Ex. destruct (fresh E ms [x]); cbn [negb andb].
    + destruct (bitfield_ok E true t' w).
      * destruct B as (-> & B2). eexists. split; [reflexivity|]. split; [|now apply good_app].
        apply reps_app; [exact Rp|]. cbn. auto.
      * destruct B as [->|B]; [now left|]. destruct (_ && _); [|now left]. right. eexists. split; [reflexivity|]. now apply bad_app.
    + left. now destruct (_ && _).
  - pose proof (member_sim E u (k_shape k sh) t' D1 D2 D3 C3 (Some x)) as B.
    rewrite (add_field_some E fs ms) by exact Rp. rewrite Ex. destruct (fresh E ms [x]); cbn [negb andb]; [|now left].
    rewrite <- B. destruct (kf_good (Field (Some x) (k_shape k sh) 0 None)) eqn:Gd.
    + eexists. split; [reflexivity|]. split; [|now apply good_app]. apply reps_app; [exact Rp|]. cbn. auto.
    + right. eexists. split; [reflexivity|]. now apply bad_app.
Qed.

Lemma k_declr_prefix k fs d fs' : k_declr k fs d = Some fs' -> exists r, fs' = fs ++ r.
Proof.
  assert (A : forall f, add_field fs f = Some fs' -> exists r, fs' = fs ++ r).
  { intros f. unfold add_field. destruct (f_name f); [destruct (field_at _ _)|]; intros Q; try discriminate; injection Q as <-; eauto. }
  unfold k_declr. cbv zeta. destruct d as [x sh [w|]|w].
  - destruct (_ && _); [apply A|discriminate].
  - apply A.
  - destruct (_ && _); [apply A|discriminate].
Qed.
Lemma k_declrs_prefix k ds : forall fs fs', k_declrs k fs ds = Some fs' -> exists r, fs' = fs ++ r.
Proof.
  induction ds as [|d r IH]; cbn; intros fs fs' H; [injection H as <-; exists []; now rewrite app_nil_r|].
  destruct (k_declr k fs d) as [fs1|] eqn:D; [|discriminate]. destruct (k_declr_prefix _ _ _ _ D) as (r1 & ->).
  destruct (IH _ _ H) as (r2 & ->). exists (r1 ++ r2). now rewrite app_assoc.
Qed.
Lemma bad_prefix fs r : forallb kf_good fs = false -> forallb kf_good (fs ++ r) = false.
Proof. intros H. rewrite forallb_app, H. reflexivity. Qed.
Lemma declrs_sim E u k t ds : wfk E -> rep E k t -> k_check k = true -> sync E k t ->
  forall fs ms, reps E fs ms -> forallb kf_good fs = true -> cov_declrs E u t ms ds ->
  match declrs_s E u t ms ds with
  | Some ms' => exists fs', k_declrs k fs ds = Some fs' /\ reps E fs' ms' /\ forallb kf_good fs' = true
  | None => k_declrs k fs ds = None \/ exists fs', k_declrs k fs ds = Some fs' /\ forallb kf_good fs' = false
  end.
Proof.
  intros W H K Sy. induction ds as [|d r IH]; intros fs ms Rp G C; cbn; [eauto|].
  cbn in C. destruct C as (C1 & C2). pose proof (declr_sim E u k t fs ms d W H K Sy Rp G C1) as D.
  destruct (declr_s E u t ms d) as [ms'|].
  - destruct D as (fs' & -> & D1 & D2). now apply IH.
  - destruct D as [->|(fs' & -> & D)]; [now left|]. destruct (k_declrs k fs' r) as [fs2|] eqn:X; [|now left].
    right. destruct (k_declrs_prefix _ _ _ _ X) as (r2 & ->). eexists. split; [reflexivity|]. now apply bad_prefix.
Qed.
Lemma declrs_bad k ds fs : k_check k = false -> ds <> [] -> cov_bad ds ->
  k_declrs k fs ds = None \/ exists fs', k_declrs k fs ds = Some fs' /\ forallb kf_good fs' = false.
Proof.
  intros K N C. destruct ds as [|d r]; [contradiction|]. cbn [k_declrs].
  destruct (k_declr k fs d) as [fs1|] eqn:D; [|now left].
  assert (B : forallb kf_good fs1 = false).
  { assert (A : forall x kt w, k_check kt = false -> add_field fs (Field x kt 0 w) = Some fs1 -> forallb kf_good fs1 = false).
    { intros x kt w Kt. unfold add_field. cbn. destruct x; [destruct (field_at _ _)|]; intros Q; try discriminate; injection Q as <-;
        apply bad_app; now apply bad_type. }
    unfold k_declr in D. cbv zeta in D. destruct d as [x sh [w|]|w].
    - destruct (_ && _); [|discriminate]. eapply A; [|exact D]. apply check_shape_bad; [exact K|exact C].
    - eapply A; [|exact D]. apply check_shape_bad; [exact K|exact C].
    - destruct (_ && _); [|discriminate]. eapply A; [|exact D]. exact K. }
  destruct (k_declrs k fs1 r) as [fs2|] eqn:X; [|now left]. right.
  destruct (k_declrs_prefix _ _ _ _ X) as (r2 & ->). eexists. split; [reflexivity|]. now apply bad_prefix.
Qed.

(** The position of a flexible array member *)
Lemma flex_sim E u fs : forall ms b, reps E fs ms ->
  (forall c n t w, b ++ ms = c ++ [(n, YArr None t, w)] -> c <> [] -> flatten E c <> []) ->
  kf_flex u (match b with [] => true | _ => false end) fs = flexible_ok E u b ms.
Proof.
  induction fs as [|[n ft al w] r IH]; intros [|[[n' t'] w'] r'] b; cbn [reps]; try tauto.
  intros (-> & -> & -> & A & B) C. cbn [kf_flex flexible_ok f_type].
  assert (IH' : kf_flex u false r = flexible_ok E u (b ++ [(n', t', w')]) r').
  { rewrite <- (IH r' (b ++ [(n', t', w')]) B).
    - destruct b; reflexivity.
    - intros c n t w. rewrite <- app_assoc. cbn. apply C. }
  rewrite IH'. f_equal.
  assert (Q : match r with [] => true | _ => false end = match r' with [] => true | _ => false end).
  { destruct r as [|[? ? ? ?] ?], r' as [|[[? ?] ?] ?]; cbn in B; try contradiction; reflexivity. }
  destruct ft; cbn in A; try (destruct A as (? & -> & _); reflexivity); try (destruct A as (? & ? & -> & _); reflexivity).
  - subst. reflexivity.
  - destruct A as (n0 & t0 & -> & -> & _). destruct n0 as [z|]; [reflexivity|]. rewrite Q.
    destruct r' as [|m r']; [|reflexivity]. destruct u; [reflexivity|]. cbn [andb negb].
    destruct b as [|b0 b]; [reflexivity|]. cbn [negb].
    specialize (C (b0 :: b) n' t0 w' eq_refl ltac:(discriminate)). destruct (flatten E (b0 :: b)); [contradiction|reflexivity].
Qed.

(** ** States *)
Definition done (E : list entity) (i : nat) : bool := match content_of E i with Some _ => true | None => false end.

(** The members of anonymous members are known; all names differ. *)
Definition wfm (E : list entity) (ms : list member) : Prop :=
  NoDup (flatten E ms) /\
  (forall t, In (None, t, None) ms -> exists j a b c, t = YTag j /\ content_of E j = Some (CMembers a b c)) /\
  forall t w, In (None, t, Some w) ms -> width_of E t <> None.
Definition wf (E : list entity) : Prop :=
  wfk E /\ forall i ms fl fx, content_of E i = Some (CMembers ms fl fx) -> fl = flatten E ms /\ wfm E ms.

Definition aligned (E : list entity) (x : string) (o : option nat) (p : option ty) : Prop :=
  match o, p with
  | None, None => True
  | Some i, Some k =>
    rep E k (YTag i) /\ k_check k = true /\ is_complete k = done E i /\
    exists e, nth_error E i = Some e /\ e_tag e = Some x
  | _, _ => False
  end.
(** A tag that the standard declares at the beginning of the definition and the compiler at its end *)
Definition pending (E : list entity) (O A : list string) (h : list (string -> option ty)) (x : string) (o : option nat) (p : option ty) : Prop :=
  exists i e, o = Some i /\ nth_error E i = Some e /\ e_tag e = Some x /\ e_content e = None /\ p = None /\ In x O /\
    (lookup h x = None \/ In x A).
Definition tops (E : list entity) (O A : list string) (T : list (string -> option nat)) (L : list (string -> option ty)) : Prop :=
  match T, L with
  | f :: r, g :: h =>
    (forall x, aligned E x (f x) (g x) \/ pending E O A h x (f x) (g x)) /\
    Forall2 (fun f g => forall x, aligned E x (f x) (g x)) r h
  | _, _ => False
  end.
Fixpoint distinct (T : list (string -> option nat)) : Prop :=
  match T with [] => True | f :: r => (forall x i g, f x = Some i -> In g r -> g x <> Some i) /\ distinct r end.

Record R (O A : list string) (s : sstate) (st : kstate) : Prop := {
  R_tags : tops (s_ents s) O A (s_tags s) (k_tags st);
  R_dist : distinct (s_tags s);
  R_consts : s_consts s = k_consts st;
  R_len : List.length (s_consts s) = List.length (s_tags s);
  R_names : Forall2 (fun p q => fst p = fst q /\ rep (s_ents s) (snd q) (snd p) /\ k_check (snd q) = true) (s_names s) (k_names st);
  R_wf : wf (s_ents s) }.

Definition grows (s s' : sstate) : Prop :=
  ext (s_ents s) (s_ents s') /\ forall y i, in_scope (s_tags s) y = Some i -> in_scope (s_tags s') y = Some i.
Lemma grows_refl s : grows s s.
Proof. split; [apply ext_refl|auto]. Qed.
Lemma grows_trans a b c : grows a b -> grows b c -> grows a c.
Proof. intros (X1 & Y1) (X2 & Y2). split; [eapply ext_trans; eauto|auto]. Qed.

(** ** Entities *)
Lemma content_ext E E' i c : ext E E' -> content_of E i = Some c -> content_of E' i = Some c.
Proof.
  unfold content_of. intros X H. destruct (nth_error E i) as [e|] eqn:N; [|discriminate].
  destruct (X _ _ N) as (e' & -> & _ & _ & C). destruct C; congruence.
Qed.
Lemma done_ext E E' i : ext E E' -> done E i = true -> done E' i = true.
Proof.
  unfold done. intros X H. destruct (content_of E i) as [c|] eqn:C; [|discriminate]. now rewrite (content_ext _ _ _ _ X C).
Qed.
Lemma flatten_ext E E' ms : ext E E' ->
  (forall t, In (None, t, None) ms -> exists j a b c, t = YTag j /\ content_of E j = Some (CMembers a b c)) ->
  flatten E' ms = flatten E ms.
Proof.
  intros X H. unfold flatten. induction ms as [|[[n t] w] r IH]; [reflexivity|]. cbn [flat_map].
  rewrite IH by (intros t' I; apply H; now right). f_equal. destruct n; [reflexivity|]. destruct w; [reflexivity|].
  destruct (H t) as (j & a & b & c & -> & C); [now left|]. cbn. now rewrite C, (content_ext _ _ _ _ X C).
Qed.
Lemma wfm_ext E E' ms : ext E E' -> wfm E ms -> wfm E' ms.
Proof.
  intros X (N & H & U). split; [|split].
  - now rewrite (flatten_ext E E' ms X H).
  - intros t I. destruct (H t I) as (j & a & b & c & -> & C). exists j, a, b, c. split; [reflexivity|].
    now apply (content_ext E).
  - intros t w I. specialize (U t w I). clear - U X. induction t as [| | | | |i]; cbn in *; auto.
    destruct (content_of E i) as [[]|] eqn:C; try congruence. rewrite (content_ext _ _ _ _ X C). discriminate.
Qed.

Lemma ext_app E e : ext E (E ++ [e]).
Proof.
  intros i d H. exists d. split; [|auto]. rewrite nth_error_app1; [exact H|]. apply nth_error_Some. congruence.
Qed.
Lemma nth_app (E : list entity) e i d : nth_error (E ++ [e]) i = Some d -> nth_error E i = Some d \/ (i = List.length E /\ d = e).
Proof.
  intros H. destruct (Nat.ltb_spec i (List.length E)).
  - rewrite nth_error_app1 in H by assumption. now left.
  - rewrite nth_error_app2 in H by assumption. right.
    destruct (i - List.length E)%nat as [|j] eqn:Q; cbn in H; [split; [lia|congruence]|]. destruct j; discriminate.
Qed.
Lemma nth_app_new E (e : entity) : nth_error (E ++ [e]) (List.length E) = Some e.
Proof. rewrite nth_error_app2 by lia. now rewrite Nat.sub_diag. Qed.
Lemma nth_set_same E i (e d : entity) : nth_error E i = Some d -> nth_error (set_nth E i e) i = Some e.
Proof. revert i. induction E as [|a r IH]; intros [|i] H; cbn in *; try discriminate; [reflexivity|eauto]. Qed.
Lemma nth_set_other E i j (e : entity) : i <> j -> nth_error (set_nth E i e) j = nth_error E j.
Proof. revert i j. induction E as [|a r IH]; intros [|i] [|j] H; cbn in *; try reflexivity; [lia|]. apply IH. lia. Qed.
Lemma ext_set E i d c : nth_error E i = Some d -> e_content d = None -> ext E (set_nth E i (Ent (e_kind d) (e_tag d) c)).
Proof.
  intros N C j e H. destruct (Nat.eq_dec i j) as [->|D].
  - rewrite (nth_set_same _ _ _ _ N). exists (Ent (e_kind d) (e_tag d) c). rewrite N in H. injection H as <-. cbn. auto.
  - rewrite nth_set_other by assumption. exists e. auto.
Qed.

Lemma wf_app E k x c : wf E ->
  (k = KEnum <-> exists vs, c = Some (CValues vs)) ->
  (forall ms fl fx, c = Some (CMembers ms fl fx) -> fl = flatten E ms /\ wfm E ms) ->
  wf (E ++ [Ent k x c]).
Proof.
  intros (W1 & W2) K M. split.
  - intros i e H. destruct (nth_app _ _ _ _ H) as [H'|(-> & ->)]; [now apply (W1 i)|exact K].
  - assert (Q : forall i ms fl fx, content_of (E ++ [Ent k x c]) i = Some (CMembers ms fl fx) -> fl = flatten E ms /\ wfm E ms).
    { intros i ms fl fx H. unfold content_of in H. destruct (nth_error (E ++ [Ent k x c]) i) as [e|] eqn:N; [|discriminate].
      destruct (nth_app _ _ _ _ N) as [H'|(-> & ->)].
      - apply (W2 i ms fl fx). unfold content_of. now rewrite H'.
      - cbn in H. now apply M in H. }
    intros i ms fl fx H. destruct (Q _ _ _ _ H) as (-> & B). split.
    + symmetry. apply flatten_ext; [apply ext_app|apply B].
    + apply (wfm_ext E); [apply ext_app|exact B].
Qed.
Lemma wf_set E i d c : wf E -> nth_error E i = Some d -> e_content d = None ->
  (e_kind d = KEnum <-> exists vs, c = CValues vs) ->
  (forall ms fl fx, c = CMembers ms fl fx -> fl = flatten E ms /\ wfm E ms) ->
  wf (set_nth E i (Ent (e_kind d) (e_tag d) (Some c))).
Proof.
  intros (W1 & W2) N C K M. pose proof (ext_set E i d (Some c) N C) as X. split.
  - intros j e H. destruct (Nat.eq_dec i j) as [<-|D].
    + rewrite (nth_set_same _ _ _ _ N) in H. injection H as <-. cbn. rewrite K. split; intros (vs & Q); exists vs; congruence.
    + rewrite nth_set_other in H by assumption. now apply (W1 j).
  - intros j ms fl fx H.
    assert (Q : fl = flatten E ms /\ wfm E ms).
    { unfold content_of in H. destruct (Nat.eq_dec i j) as [<-|D].
      - rewrite (nth_set_same _ _ _ _ N) in H. cbn in H. apply (M ms fl fx). congruence.
      - rewrite nth_set_other in H by assumption. now apply (W2 j ms fl fx). }
    destruct Q as (-> & B). split.
    + symmetry. apply flatten_ext; [exact X|apply B].
    + now apply (wfm_ext E).
Qed.

(** ** Changes of the state *)
Lemma aligned_ext E E' x o p : ext E E' -> (forall i, o = Some i -> done E' i = done E i) -> aligned E x o p -> aligned E' x o p.
Proof.
  intros X D. destruct o as [i|], p as [k|]; cbn; try tauto. intros (A & B & C & e & N & T).
  split; [now apply (rep_mono E)|]. split; [exact B|]. split; [now rewrite D|].
  destruct (X _ _ N) as (e' & N' & _ & T' & _). exists e'. split; [exact N'|congruence].
Qed.
Lemma bound_valid E O A T L x i : tops E O A T L -> visible T x = Some i -> exists e, nth_error E i = Some e /\ e_tag e = Some x.
Proof.
  destruct T as [|f r], L as [|g h]; cbn; try tauto. intros (H1 & H2). destruct (f x) as [j|] eqn:F.
  - intros Q. injection Q as <-. destruct (H1 x) as [A1|P]; rewrite F in *.
    + destruct (g x); cbn in A1; [|contradiction]. destruct A1 as (_ & _ & _ & e & ? & ?). eauto.
    + destruct P as (j0 & e & Q & N & T0 & _). injection Q as <-. eauto.
  - clear H1 F. revert r h H2. induction 1 as [|f0 g0 r0 h0 H0 H2 IH]; cbn; [discriminate|].
    destruct (f0 x) as [j|] eqn:F0; [|exact IH]. intros Q. injection Q as <-. specialize (H0 x). rewrite F0 in H0.
    destruct (g0 x); cbn in H0; [|contradiction]. destruct H0 as (_ & _ & _ & e & ? & ?). eauto.
Qed.
Lemma done_app E e i : nth_error E i <> None -> done (E ++ [e]) i = done E i.
Proof. intros H. unfold done, content_of. rewrite nth_error_app1; [reflexivity|]. now apply nth_error_Some. Qed.

(** Adding an entity *)
Lemma R_app O A s st e : R O A s st -> wf (s_ents s ++ [e]) -> R O A (SS (s_tags s) (s_consts s) (s_ents s ++ [e]) (s_names s)) st.
Proof.
  intros [Ht Hd Hc Hl Hn Hw] W. pose proof (ext_app (s_ents s) e) as X.
  assert (AL : forall x o p, aligned (s_ents s) x o p -> aligned (s_ents s ++ [e]) x o p).
  { intros x o p H. apply (aligned_ext (s_ents s)); [exact X| |exact H]. intros i ->.
    apply done_app. destruct p; cbn in H; [|contradiction]. destruct H as (_ & _ & _ & d & N & _). congruence. }
  constructor; cbn; try assumption.
  - unfold tops in *. destruct (s_tags s) as [|f r], (k_tags st) as [|g h]; try contradiction. destruct Ht as (H1 & H2). split.
    + intros x. destruct (H1 x) as [H|H]; [left; auto|right].
      destruct H as (i & d & B & C & D & F). exists i, d. repeat (split; [assumption|]). split; [|split; [assumption|]].
      * destruct (X _ _ C) as (d' & N' & _). rewrite nth_error_app1; [exact C|]. apply nth_error_Some. congruence.
      * exact F.
    + clear - H2 AL. induction H2; constructor; auto.
  - clear - Hn X. induction Hn as [|p q P0 Q0 (H1 & H2 & H3) _ IH]; constructor; [|exact IH].
    split; [exact H1|]. split; [now apply (rep_mono (s_ents s))|exact H3].
Qed.

(** Changing one name of the innermost scope *)
Lemma R_set O A s st f r g h f' g' x : R O A s st -> s_tags s = f :: r -> k_tags st = g :: h ->
  (forall y, y <> x -> f' y = f y /\ g' y = g y) ->
  (aligned (s_ents s) x (f' x) (g' x) \/ pending (s_ents s) O A h x (f' x) (g' x)) ->
  (forall i gg, f' x = Some i -> In gg r -> gg x <> Some i) ->
  R O A (SS (f' :: r) (s_consts s) (s_ents s) (s_names s)) (K (g' :: h) (k_consts st) (k_names st)).
Proof.
  intros [Ht Hd Hc Hl Hn Hw] Qf Qg Ne H D. rewrite Qf, Qg in *. constructor; cbn; try assumption.
  - destruct Ht as (H1 & H2). split; [|exact H2]. intros y. destruct (string_dec y x) as [->|N]; [exact H|].
    destruct (Ne y N) as (-> & ->). apply H1.
  - destruct Hd as (D1 & D2). split; [|exact D2]. intros y i gg Q I. destruct (string_dec y x) as [->|N]; [eauto|].
    destruct (Ne y N) as (Q' & _). rewrite Q' in Q. eauto.
Qed.

Lemma pending_weaken E O A O' A' h x o p : incl O O' -> incl A A' -> pending E O A h x o p -> pending E O' A' h x o p.
Proof.
  intros I1 I2 (i & e & B & C & D & F & G & H & K). exists i, e. repeat (split; [assumption|]).
  split; [auto|]. destruct K; auto.
Qed.
Lemma R_weaken O A O' A' s st : incl O O' -> incl A A' -> R O A s st -> R O' A' s st.
Proof.
  intros I1 I2 [Ht Hd Hc Hl Hn Hw]. constructor; try assumption. unfold tops in *.
  destruct (s_tags s), (k_tags st); try contradiction. destruct Ht as (H1 & H2). split; [|exact H2].
  intros x. destruct (H1 x) as [H|H]; [now left|right]. eapply pending_weaken; eauto.
Qed.
Lemma R_close O A y s st : R (y :: O) (y :: A) s st ->
  aligned (s_ents s) y (in_scope (s_tags s) y) (in_scope (k_tags st) y) -> R O A s st.
Proof.
  intros [Ht Hd Hc Hl Hn Hw] Al. constructor; try assumption. unfold tops in *.
  destruct (s_tags s) as [|f r], (k_tags st) as [|g h]; try contradiction. destruct Ht as (H1 & H2). split; [|exact H2].
  cbn in Al. intros x. destruct (string_dec x y) as [->|N]; [now left|]. destruct (H1 x) as [H|H]; [now left|right].
  destruct H as (i & e & B & C & D & F & G & K & L). exists i, e. repeat (split; [assumption|]).
  split; [destruct K; [congruence|assumption]|]. destruct L as [L|[L|L]]; [now left|congruence|now right].
Qed.

(** Completing an entity *)
Lemma R_content O A s st f r g h y i d c k :
  R O A s st -> s_tags s = f :: r -> k_tags st = g :: h -> f y = Some i -> nth_error (s_ents s) i = Some d ->
  e_tag d = Some y -> e_content d = None ->
  wf (set_nth (s_ents s) i (Ent (e_kind d) (e_tag d) (Some c))) ->
  rep (set_nth (s_ents s) i (Ent (e_kind d) (e_tag d) (Some c))) k (YTag i) -> k_check k = true -> is_complete k = true ->
  R O A (SS (s_tags s) (s_consts s) (set_nth (s_ents s) i (Ent (e_kind d) (e_tag d) (Some c))) (s_names s))
        (K (put y k g :: h) (k_consts st) (k_names st)).
Proof.
  intros HR Qf Qg F N T Ce W Rp Kc Ic. pose proof (ext_set _ _ _ (Some c) N Ce) as X.
  set (E' := set_nth (s_ents s) i (Ent (e_kind d) (e_tag d) (Some c))) in *.
  destruct HR as [Ht Hd Hc Hl Hn Hw]. rewrite Qf, Qg in *.
  assert (Dn : forall j, j <> i -> done E' j = done (s_ents s) j).
  { intros j J. unfold done, content_of, E'. now rewrite nth_set_other by congruence. }
  assert (AL : forall x o p, o <> Some i -> aligned (s_ents s) x o p -> aligned E' x o p).
  { intros x o p J H. apply (aligned_ext (s_ents s)); [exact X| |exact H]. intros j ->. apply Dn. congruence. }
  assert (Only : forall x o p, x <> y -> aligned (s_ents s) x o p -> o <> Some i).
  { intros x o p Ne H ->. destruct p; cbn in H; [|contradiction]. destruct H as (_ & _ & _ & e & N' & T'). congruence. }
  constructor; cbn; try assumption.
  - destruct Ht as (H1 & H2). destruct Hd as (D1 & D2). split.
    + intros x. destruct (string_dec x y) as [->|Ne].
      * left. rewrite F. unfold put. rewrite String.eqb_refl. cbn. split; [exact Rp|]. split; [exact Kc|]. split.
        -- rewrite Ic. unfold done, content_of, E'. now rewrite (nth_set_same _ _ _ _ N).
        -- exists (Ent (e_kind d) (e_tag d) (Some c)). split; [apply (nth_set_same _ _ _ _ N)|exact T].
      * unfold put. replace (String.eqb y x) with false by (symmetry; apply String.eqb_neq; congruence).
        destruct (H1 x) as [H|H].
        -- left. apply AL; [eapply Only; eassumption|exact H].
        -- right. destruct H as (j & e & B & C & D & G & K). exists j, e. split; [exact B|]. split.
           { unfold E'. rewrite nth_set_other; [exact C|]. intros <-. congruence. }
           split; [exact D|]. split; [exact G|exact K].
    + assert (Nr : forall ff, In ff r -> ff y <> Some i) by (intros ff I; apply (D1 y i ff F I)).
      clear - H2 AL Only Nr. induction H2 as [|ff gg rr hh H0 H2 IH]; constructor.
      * intros x. apply AL; [|apply H0]. destruct (string_dec x y) as [->|Ne]; [apply Nr; now left|]. eapply Only; eauto.
      * apply IH. intros; apply Nr; now right.
  - clear - Hn X. induction Hn as [|p q P0 Q0 (H1 & H2 & H3) _ IH]; constructor; [|exact IH].
    split; [exact H1|]. split; [now apply (rep_mono (s_ents s))|exact H3].
Qed.

(** ** Lookup of tags *)
Lemma R_look O A s st x : R O A s st -> ~ In x A ->
  match visible (s_tags s) x with
  | None => lookup (k_tags st) x = None
  | Some i =>
    exists e, nth_error (s_ents s) i = Some e /\ e_tag e = Some x /\
    ((exists k, lookup (k_tags st) x = Some k /\ rep (s_ents s) k (YTag i) /\ k_check k = true /\ is_complete k = done (s_ents s) i) \/
     (lookup (k_tags st) x = None /\ in_scope (s_tags s) x = Some i /\ in_scope (k_tags st) x = None /\ e_content e = None /\ In x O))
  end.
Proof.
  intros [Ht Hd Hc Hl Hn Hw] Na. clear Hd Hc Hl Hn Hw. unfold tops in Ht.
  destruct (s_tags s) as [|f r], (k_tags st) as [|g h]; try contradiction. destruct Ht as (H1 & H2).
  assert (Rest : match visible r x with
    | None => lookup h x = None
    | Some i => exists e, nth_error (s_ents s) i = Some e /\ e_tag e = Some x /\
      exists k, lookup h x = Some k /\ rep (s_ents s) k (YTag i) /\ k_check k = true /\ is_complete k = done (s_ents s) i
    end).
  { clear H1. induction H2 as [|f0 g0 r0 h0 H0 H2 IH]; cbn; [reflexivity|]. specialize (H0 x).
    destruct (f0 x) as [i|], (g0 x) as [k|]; cbn in H0; try contradiction.
    - destruct H0 as (B & C & D & e & N & T). exists e. split; [exact N|]. split; [exact T|]. exists k. auto.
    - exact IH. }
  cbn. destruct (H1 x) as [Al|(i & e & B & C & D & F & G & I & L)].
  - destruct (f x) as [i|], (g x) as [k|]; cbn in Al; try contradiction.
    + destruct Al as (B & C & D & e & N & T). exists e. split; [exact N|]. split; [exact T|]. left. exists k. auto.
    + destruct (visible r x) as [i|]; [|exact Rest]. destruct Rest as (e & N & T & k & L). exists e.
      split; [exact N|]. split; [exact T|]. left. exists k. exact L.
  - rewrite B, G. exists e. split; [exact C|]. split; [exact D|]. right. destruct L as [L|L]; [auto|contradiction].
Qed.

Definition kind_ty (t : ty) : option kind :=
  match t with TStruct _ _ _ => Some KStruct | TUnion _ _ _ => Some KUnion | TEnum _ _ _ _ => Some KEnum | _ => None end.
Lemma same_kind_rep E k i e t kd : rep E k (YTag i) -> nth_error E i = Some e -> kind_ty t = Some kd ->
  same_kind k t = kind_eqb (e_kind e) kd.
Proof.
  intros H N Q. destruct k; cbn in H; try discriminate; try (destruct H as (? & ? & _); discriminate);
    try (destruct H as (? & ? & ? & _); discriminate).
  - destruct H as (j & vs & J & N' & _). injection J as <-. rewrite N' in N. injection N as <-. cbn.
    destruct t; cbn in *; try discriminate; injection Q as <-; reflexivity.
  - destruct H as (j & e' & J & N' & K & _). injection J as <-. rewrite N' in N. injection N as <-. cbn in K. rewrite K.
    destruct t; cbn in *; try discriminate; injection Q as <-; reflexivity.
  - destruct H as (j & e' & J & N' & K & _). injection J as <-. rewrite N' in N. injection N as <-. cbn in K. rewrite K.
    destruct t; cbn in *; try discriminate; injection Q as <-; reflexivity.
Qed.
Lemma kind_eqb_eq a b : kind_eqb a b = true <-> a = b.
Proof. destruct a, b; cbn; split; congruence. Qed.
Lemma sync_tag E k i : rep E k (YTag i) -> is_complete k = done E i -> sync E k (YTag i).
Proof.
  intros H D. unfold sync. cbn. unfold done in D. destruct k; cbn in H; try discriminate; try (destruct H as (? & ? & _); discriminate);
    try (destruct H as (? & ? & ? & _); discriminate).
  - destruct H as (j & vs & J & N & _). injection J as <-. unfold content_of. rewrite N. reflexivity.
  - cbn in *. rewrite D. now destruct (content_of E i).
  - cbn in *. rewrite D. now destruct (content_of E i).
Qed.

(** ** Completion of typedef names *)
Lemma rep_complete E k t : rep E k t -> incomplete k = false -> incomplete_s E t = false.
Proof.
  assert (D : forall k t, rep E k t -> plain t = true -> incomplete k = false -> incomplete_s E t = false).
  { clear. intros k t H P I. destruct k; cbn in H.
    - subst. destruct b; cbn in *; congruence.
    - destruct H as (t' & -> & _). reflexivity.
    - destruct H as (n & t' & -> & _). discriminate.
    - destruct H as (t' & -> & _). discriminate.
    - destruct H as (t' & -> & _). discriminate.
    - destruct H as (i & vs & -> & N & _). cbn. unfold content_of. now rewrite N.
    - destruct H as (i & e & -> & N & _ & _ & H). cbn in I. destruct complete; [|discriminate].
      destruct H as (ms & fl & fx & C & _). cbn. unfold content_of. now rewrite N, C.
    - destruct H as (i & e & -> & N & _ & _ & H). cbn in I. destruct complete; [|discriminate].
      destruct H as (ms & fl & fx & C & _). cbn. unfold content_of. now rewrite N, C. }
  intros H I. destruct (plain t) eqn:P; [now apply (D k)|]. destruct t; try discriminate.
  - destruct k; cbn in H; try discriminate; try (destruct H as (? & ? & _); discriminate); try (destruct H as (? & ? & ? & _); discriminate).
    destruct H as (n' & t' & Q & -> & _). injection Q as <- <-. destruct n; [reflexivity|discriminate].
  - destruct k; cbn in H; try discriminate; try (destruct H as (? & ? & _); discriminate); try (destruct H as (? & ? & ? & _); discriminate).
    destruct H as (t' & Q & P' & H). injection Q as <- <-. cbn. apply (D k); try assumption.
    pose proof (rep_unq _ _ _ H P') as U. unfold incomplete in *. cbn in I. now rewrite U.
  - reflexivity.
Qed.
Lemma scope_record st x k : lookup (k_tags st) x = Some k -> is_complete k = true -> record k = true -> c_tags (scope_of st) x = Some k.
Proof. intros L C Rc. cbn. rewrite L. destruct k; try discriminate; cbn in *; subst; reflexivity. Qed.
Lemma scope_none st x k : lookup (k_tags st) x = Some k -> is_complete k = false -> c_tags (scope_of st) x = None.
Proof. intros L C. cbn. rewrite L. destruct k; cbn in *; subst; reflexivity. Qed.
Lemma rep_record_kind E k i e : rep E k (YTag i) -> nth_error E i = Some e -> e_kind e <> KEnum -> record k = true.
Proof.
  intros H N Q. destruct k; cbn in H; try discriminate; try (destruct H as (? & ? & _); discriminate);
    try (destruct H as (? & ? & ? & _); discriminate); try reflexivity.
  destruct H as (j & vs & J & N' & _). injection J as <-. rewrite N' in N. injection N as <-. cbn in Q. congruence.
Qed.
(** Completion of a structure or union known by its tag *)
Lemma completion_tag O A s st k i : R O A s st -> rep (s_ents s) k (YTag i) -> k_check k = true -> clear A s (YTag i) ->
  let k' := completion (scope_of st) k in
  rep (s_ents s) k' (YTag i) /\ k_check k' = true /\ sync (s_ents s) k' (YTag i).
Proof.
  intros HR H K C. pose proof H as H0.
  assert (Open : forall u x fs, k = record_type u false (Some x) fs -> 
    let k' := match c_tags (scope_of st) x with Some t' => t' | None => k end in
    rep (s_ents s) k' (YTag i) /\ k_check k' = true /\ sync (s_ents s) k' (YTag i)).
  { intros u x fs ->. apply rep_record in H. destruct H as (j & e & J & N & Kd & T & _). injection J as <-.
    destruct (C i e x eq_refl N T) as (V & Na). pose proof (R_look O A s st x HR Na) as L. rewrite V in L.
    destruct L as (e' & N' & T' & L). destruct L as [(k' & L & Rk & Kk & Ck)|(L & _ & _ & Ce & _)].
    - destruct (is_complete k') eqn:Ic.
      + rewrite (scope_record st x k' L Ic).
        * cbv zeta. split; [exact Rk|]. split; [exact Kk|]. apply sync_tag; [exact Rk|]. now rewrite Ic.
        * apply (rep_record_kind (s_ents s) k' i e Rk N). rewrite Kd. destruct u; discriminate.
      + rewrite (scope_none st x k' L Ic). cbv zeta. split; [exact H0|]. split; [exact K|]. apply sync_tag; [exact H0|].
        rewrite <- Ck. destruct u; reflexivity.
    - replace (c_tags (scope_of st) x) with (@None ty) by (cbn; now rewrite L). cbv zeta.
      split; [exact H0|]. split; [exact K|]. apply sync_tag; [exact H0|].
      unfold done, content_of. rewrite N', Ce. destruct u; reflexivity. }
  assert (Same : is_complete k = true -> rep (s_ents s) k (YTag i) /\ k_check k = true /\ sync (s_ents s) k (YTag i)).
  { intros Ic. split; [exact H0|]. split; [exact K|]. unfold sync.
    assert (I : incomplete k = false).
    { destruct k; cbn in *; try discriminate; try reflexivity; subst; reflexivity. }
    now rewrite I, (rep_complete _ _ _ H0 I). }
  destruct k; cbn in H; try discriminate; try (destruct H as (? & ? & _); discriminate);
    try (destruct H as (? & ? & ? & _); discriminate).
  - destruct H as (j & vs & _ & _ & Q & _). apply Same. exact Q.
  - destruct complete; [now apply Same|]. destruct H as (j & e & _ & _ & _ & _ & Nn & _).
    destruct id as [x|]; [|congruence]. apply (Open false x fs eq_refl).
  - destruct complete; [now apply Same|]. destruct H as (j & e & _ & _ & _ & _ & Nn & _).
    destruct id as [x|]; [|congruence]. apply (Open true x fs eq_refl).
Qed.
Lemma completion_sim O A s st : R O A s st -> forall k t, rep (s_ents s) k t -> k_check k = true -> clear A s t ->
  let k' := completion (scope_of st) k in
  rep (s_ents s) k' t /\ k_check k' = true /\ sync (s_ents s) k' t.
Proof.
  intros HR k. induction k using ty_nest; intros y Rp K C.
  - cbn in Rp. subst. cbn. split; [reflexivity|]. split; [reflexivity|]. destruct b; reflexivity.
  - cbn in Rp. destruct Rp as (t' & -> & Rp). cbn in K. destruct (IHk t' Rp K) as (B & D & _).
    { intros i e x Q. apply C. exact Q. }
    cbn. repeat split; [|exact D]. exists t'. auto.
  - cbn in Rp. destruct Rp as (n & t' & -> & -> & -> & Rp). cbn in K. rewrite !andb_true_iff, !negb_true_iff in K.
    destruct K as (((K1 & K2) & K3) & _). destruct (IHk t' Rp K1) as (B & D & F).
    { intros i e x Q. apply C. exact Q. }
    cbn. split; [exists n, t'; auto|]. split.
    + rewrite D. unfold sync in F. rewrite F, (rep_complete _ _ _ Rp K2), (rep_is_fun _ _ _ B).
      rewrite <- (rep_is_fun _ _ _ Rp), K3. reflexivity.
    + unfold sync. cbn. destruct n; reflexivity.
  - cbn in Rp. destruct Rp as (t' & -> & P & Rp). cbn in K. destruct (IHk t' Rp K) as (B & D & F).
    { intros i e x Q. apply C. exact Q. }
    cbn. rewrite check_qualify.
    destruct (qualify_rep (s_ents s) q (completion (scope_of st) k) t' B) as (G1 & G2 & G3).
    { destruct t'; try discriminate; reflexivity. }
    { destruct t'; try discriminate; reflexivity. }
    replace (add_qual q t') with (YQual q t') in * by (destruct t'; try discriminate; reflexivity).
    split; [exact G1|]. split; [exact D|]. unfold sync in *. now rewrite G2, G3.
  - cbn in Rp. pose proof Rp as Rp'. destruct Rp as (t' & -> & _). cbn [completion]. split; [exact Rp'|]. split; [exact K|]. reflexivity.
  - pose proof Rp as Rp'. cbn in Rp. destruct Rp as (i & vs & -> & _). apply (completion_tag O A s st _ i HR Rp' K C).
  - pose proof Rp as Rp'. cbn in Rp. destruct Rp as (i & e & -> & _). apply (completion_tag O A s st _ i HR Rp' K C).
  - pose proof Rp as Rp'. cbn in Rp. destruct Rp as (i & e & -> & _). apply (completion_tag O A s st _ i HR Rp' K C).
Qed.

(** ** New tags *)
Lemma rest_fresh E r h : Forall2 (fun (f : string -> option nat) (g : string -> option ty) => forall x, aligned E x (f x) (g x)) r h ->
  forall gg x i, In gg r -> gg x = Some i -> nth_error E i <> None.
Proof.
  induction 1 as [|f g r h H _ IH]; cbn; [tauto|]. intros gg x i [<-|I] Q; [|eauto].
  specialize (H x). rewrite Q in H. destruct (g x); cbn in H; [|contradiction]. destruct H as (_ & _ & _ & e & N & _). congruence.
Qed.
Lemma R_tops O A s st : R O A s st -> exists f r g h, s_tags s = f :: r /\ k_tags st = g :: h /\
  (forall x, aligned (s_ents s) x (f x) (g x) \/ pending (s_ents s) O A h x (f x) (g x)) /\
  Forall2 (fun f g => forall x, aligned (s_ents s) x (f x) (g x)) r h.
Proof.
  intros [Ht _ _ _ _ _]. unfold tops in Ht. destruct (s_tags s) as [|f r], (k_tags st) as [|g h]; try contradiction.
  exists f, r, g, h. destruct Ht. auto.
Qed.
Lemma R_new O A s st kd x c g h g' : R O A s st -> k_tags st = g :: h -> wf (s_ents s ++ [Ent kd (Some x) c]) ->
  (forall z, z <> x -> g' z = g z) ->
  (aligned (s_ents s ++ [Ent kd (Some x) c]) x (Some (List.length (s_ents s))) (g' x) \/
   pending (s_ents s ++ [Ent kd (Some x) c]) O A h x (Some (List.length (s_ents s))) (g' x)) ->
  R O A (fst (new_entity kd (Some x) c s)) (K (g' :: h) (k_consts st) (k_names st)).
Proof.
  intros HR Qg W Ne St. pose proof (R_app O A s st _ HR W) as HR1.
  destruct (R_tops _ _ _ _ HR) as (f & r & g0 & h0 & Qf & Qg' & H1 & H2). rewrite Qg in Qg'. injection Qg' as <- <-.
  unfold new_entity. cbn [fst]. rewrite Qf. cbn [bind_top]. rewrite Qf in HR1.
  apply (R_set O A _ st f r g h (bind f x (List.length (s_ents s))) g' x HR1 eq_refl Qg).
  - intros y N. split; [|now apply Ne]. unfold bind. replace (String.eqb x y) with false; [reflexivity|]. symmetry. apply String.eqb_neq. congruence.
  - cbn. unfold bind. rewrite String.eqb_refl. exact St.
  - unfold bind. rewrite String.eqb_refl. intros i gg Q I J. injection Q as <-.
    apply (rest_fresh _ _ _ H2 gg x _ I J). apply nth_error_None. lia.
Qed.
Lemma put_other {B} x (a : B) g z : z <> x -> put x a g z = g z.
Proof. intros N. unfold put. replace (String.eqb x z) with false; [reflexivity|]. symmetry. apply String.eqb_neq. congruence. Qed.
Lemma put_same {B} x (a : B) g : put x a g x = Some a.
Proof. unfold put. now rewrite String.eqb_refl. Qed.
Lemma grows_new kd x c s : (forall y, x = Some y -> in_scope (s_tags s) y = None) -> grows s (fst (new_entity kd x c s)).
Proof.
  intros N. split; [apply ext_app|]. intros y i. unfold new_entity. cbn. destruct x as [z|]; [|auto].
  specialize (N z eq_refl). destruct (s_tags s) as [|f r]; cbn in *; [discriminate|]. unfold bind.
  destruct (String.eqb_spec z y) as [->|D]; [congruence|auto].
Qed.
Lemma visible_scope {B} (T : list (string -> option B)) x : visible T x = None -> in_scope T x = None.
Proof. destruct T as [|f r]; cbn; [auto|]. destruct (f x); [discriminate|auto]. Qed.
Lemma scope_visible {B} (T : list (string -> option B)) x i : in_scope T x = Some i -> visible T x = Some i.
Proof. destruct T as [|f r]; cbn; [discriminate|]. destruct (f x); congruence. Qed.

Lemma wf_open E kd x : wf E -> kd <> KEnum -> wf (E ++ [Ent kd x None]).
Proof.
  intros W N. apply wf_app; [exact W| |discriminate]. split; [contradiction|]. intros (vs & Q). discriminate.
Qed.
Lemma open_rep E u x i : nth_error E i = Some (Ent (kind_of u) (Some x) None) -> rep E (record_type u false (Some x) []) (YTag i).
Proof.
  intros N. apply rep_record. exists i, (Ent (kind_of u) (Some x) None). repeat split; try assumption. discriminate.
Qed.
Lemma kind_not_enum u : kind_of u <> KEnum.
Proof. destruct u; discriminate. Qed.

(** ** Definitions *)
Lemma complete_sim O A s st y kd c T : R (y :: O) (y :: A) s st ->
  kind_ty T = Some kd -> is_complete T = true -> incomplete T = false -> k_check T = true ->
  (kd = KEnum <-> exists vs, c = CValues vs) ->
  (forall ms fl fx, c = CMembers ms fl fx -> fl = flatten (s_ents s) ms /\ wfm (s_ents s) ms) ->
  (forall E' i, ext (s_ents s) E' -> nth_error E' i = Some (Ent kd (Some y) (Some c)) -> rep E' T (YTag i)) ->
  (forall i e, in_scope (s_tags s) y = Some i -> nth_error (s_ents s) i = Some e -> in_scope (k_tags st) y = None -> e_kind e = kd) ->
  match complete_s kd y c s with
  | Some (s', t) => exists st', define_tag y T st = Some st' /\ R O A s' st' /\ grows s s' /\ rep (s_ents s') T t /\ sync (s_ents s') T t
  | None => define_tag y T st = None
  end.
Proof.
  intros HR Kt Ic In Kc Ke Wm Rp Pk.
  assert (Sy : forall E t, rep E T t -> sync E T t) by (intros E t H; unfold sync; now rewrite In, (rep_complete _ _ _ H In)).
  destruct (R_tops _ _ _ _ HR) as (f & r & g & h & Qf & Qg & H1 & H2). pose proof (R_wf _ _ _ _ HR) as W.
  unfold complete_s, define_tag. rewrite Qf, Qg. cbn [in_scope]. rewrite Qf, Qg in Pk. cbn [in_scope] in Pk.
  destruct (f y) as [i|] eqn:F.
  - assert (V : exists e, nth_error (s_ents s) i = Some e /\ e_tag e = Some y).
    { apply (bound_valid _ (y :: O) (y :: A) (s_tags s) (k_tags st)); [apply (R_tags _ _ _ _ HR)|]. rewrite Qf. cbn. now rewrite F. }
    destruct V as (e & N & Tg). rewrite N.
    assert (Go : e_content e = None -> e_kind e = kd ->
      exists st', Some (K (put y T g :: h) (k_consts st) (k_names st)) = Some st' /\
       R O A (SS (f :: r) (s_consts s) (set_nth (s_ents s) i (Ent kd (e_tag e) (Some c))) (s_names s)) st' /\
       grows s (SS (f :: r) (s_consts s) (set_nth (s_ents s) i (Ent kd (e_tag e) (Some c))) (s_names s)) /\
       rep (set_nth (s_ents s) i (Ent kd (e_tag e) (Some c))) T (YTag i) /\
       sync (set_nth (s_ents s) i (Ent kd (e_tag e) (Some c))) T (YTag i)).
    { intros Ce Kd. rewrite <- Kd in *. pose proof (ext_set _ _ _ (Some c) N Ce) as X.
      assert (Nw : nth_error (set_nth (s_ents s) i (Ent (e_kind e) (e_tag e) (Some c))) i = Some (Ent (e_kind e) (Some y) (Some c)))
        by (rewrite (nth_set_same _ _ _ _ N); now rewrite Tg).
      pose proof (Rp _ _ X Nw) as RT. eexists. split; [reflexivity|]. split; [|split; [|split; [exact RT|now apply Sy]]].
      - apply (R_close _ _ y).
        + rewrite <- Qf. apply (R_content _ _ s st f r g h y i e c T); try assumption. now apply wf_set.
        + cbn. rewrite F, put_same. split; [exact RT|]. split; [exact Kc|]. split.
          * unfold done, content_of. now rewrite Nw.
          * eexists. split; [exact Nw|reflexivity].
      - split; [exact X|]. intros z j. rewrite Qf. auto. }
    destruct (H1 y) as [Al|(i' & e' & Q & N' & Tg' & Ce & Gy & _)].
    + rewrite F in Al. destruct (g y) as [t0|] eqn:Gy; [|contradiction]. destruct Al as (Rt & _ & Dn & _).
      rewrite (same_kind_rep _ _ _ _ _ _ Rt N Kt), Ic, Dn. unfold done, content_of. rewrite N.
      destruct (e_content e) as [c0|] eqn:Ce; [now destruct (kind_eqb _ _)|].
      destruct (kind_eqb (e_kind e) kd) eqn:Kd; [|reflexivity]. apply kind_eqb_eq in Kd. now apply Go.
    + rewrite F in Q. injection Q as <-. rewrite N' in N. injection N as ->. rewrite Gy, Ce.
      rewrite (proj2 (kind_eqb_eq (e_kind e) kd)) by (now apply (Pk i e)).
      apply Go; [exact Ce|now apply (Pk i e)].
  - assert (Gy : g y = None).
    { destruct (H1 y) as [Al|(i' & e' & Q & _)]; rewrite F in *; [|discriminate]. destruct (g y); [contradiction|reflexivity]. }
    rewrite Gy.
    assert (Nw : nth_error (s_ents s ++ [Ent kd (Some y) (Some c)]) (List.length (s_ents s)) = Some (Ent kd (Some y) (Some c))) by apply nth_app_new.
    pose proof (Rp _ _ (ext_app (s_ents s) _) Nw) as RT.
    assert (Wn : wf (s_ents s ++ [Ent kd (Some y) (Some c)])).
    { apply wf_app; [exact W| |].
      - rewrite Ke. split; intros (vs & Q); exists vs; congruence.
      - intros ms fl fx Q. apply (Wm ms fl fx). congruence. }
    assert (Al : aligned (s_ents s ++ [Ent kd (Some y) (Some c)]) y (Some (List.length (s_ents s))) (put y T g y)).
    { rewrite put_same. split; [exact RT|]. split; [exact Kc|]. split.
      - unfold done, content_of. now rewrite Nw.
      - eexists. split; [exact Nw|reflexivity]. }
    unfold new_entity. eexists. split; [reflexivity|]. split; [|split; [|split; [exact RT|now apply Sy]]].
    + apply (R_close _ _ y).
      * apply (R_new (y :: O) (y :: A) s st kd y (Some c) g h (put y T g) HR Qg Wn); [|now left].
        intros z Nz. now apply put_other.
      * cbn. rewrite Qf. cbn. unfold bind. rewrite String.eqb_refl. exact Al.
    + apply (grows_new kd (Some y) (Some c) s). intros z Q. injection Q as <-. rewrite Qf. exact F.
Qed.

(** ** Enumerations *)
Lemma enum_sim es : forall next mn seen vs st c tags names,
  cov_enum es next c -> st = K tags c names -> c <> [] ->
  map fst seen = map fst vs -> (forall p, In p seen -> in_scope c (fst p) <> None) ->
  (0 <=? mn) = forallb (fun p => 0 <=? snd p) vs ->
  match enumerators_s es next vs c with
  | Some (c', vs') => exists mn' seen', k_enumerators es next mn seen st = Some (K tags c' names, mn', seen') /\
      map fst seen' = map fst vs' /\ (0 <=? mn') = forallb (fun p => 0 <=? snd p) vs' /\
      List.length c' = List.length c /\ (vs' = [] <-> (vs = [] /\ es = []))
  | None => k_enumerators es next mn seen st = None
  end.
Proof.
  induction es as [|[x e] r IH]; intros next mn seen vs st c tags names C -> Nc Ms Is Mn; cbn.
  - exists mn, seen. repeat split; auto. tauto.
  - change (lookup c) with (visible c). cbn in C.
    destruct (match e with Some f => f (visible c) | None => Some next end) as [v|]; [|reflexivity].
    destruct C as (Rg & C). rewrite Rg. cbn [andb]. unfold define_constant. cbn [k_consts].
    destruct c as [|f0 c0]; [contradiction|]. cbn [in_scope] in C |- *. destruct (f0 x) as [z|] eqn:F.
    + destruct (existsb _ seen); reflexivity.
    + replace (existsb (fun p => String.eqb (fst p) x) seen) with false.
      2:{ symmetry. destruct (existsb _ seen) eqn:X; [|reflexivity]. exfalso. apply existsb_exists in X.
          destruct X as (p & I & Q). apply String.eqb_eq in Q. apply (Is p I). rewrite Q. exact F. }
      cbn [bind_top k_tags k_names] in *.
      specialize (IH (v + 1) (Z.min mn v) (seen ++ [(x, match e with Some _ => Some v | None => None end)]) (vs ++ [(x, v)])
                     (K tags (put x v f0 :: c0) names) (put x v f0 :: c0) tags names C eq_refl ltac:(discriminate)).
      change (bind f0 x v) with (put x v f0). 
      assert (G : match enumerators_s r (v + 1) (vs ++ [(x, v)]) (put x v f0 :: c0) with
        | Some (c', vs') => exists mn' seen', k_enumerators r (v + 1) (Z.min mn v) (seen ++ [(x, match e with Some _ => Some v | None => None end)]) (K tags (put x v f0 :: c0) names) = Some (K tags c' names, mn', seen') /\
            map fst seen' = map fst vs' /\ (0 <=? mn') = forallb (fun p => 0 <=? snd p) vs' /\
            List.length c' = List.length (put x v f0 :: c0) /\ (vs' = [] <-> (vs ++ [(x, v)] = [] /\ r = []))
        | None => k_enumerators r (v + 1) (Z.min mn v) (seen ++ [(x, match e with Some _ => Some v | None => None end)]) (K tags (put x v f0 :: c0) names) = None
        end).
      { apply IH.
        - rewrite !map_app, Ms. reflexivity.
        - intros p I. cbn. apply in_app_or in I. destruct I as [I|[<-|[]]].
          + specialize (Is p I). cbn in Is. unfold put. destruct (String.eqb x (fst p)); [discriminate|exact Is].
          + cbn. rewrite put_same. discriminate.
        - rewrite forallb_app, <- Mn. cbn. rewrite andb_true_r. destruct (Z.leb_spec 0 mn), (Z.leb_spec 0 v); cbn; lia. }
      destruct (enumerators_s r _ _ _) as [[c' vs']|]; [|exact G].
      destruct G as (mn' & seen' & G1 & G2 & G3 & G4 & G5). exists mn', seen'. repeat (split; [assumption|]).
      rewrite G5. split; intros (Q1 & Q2); exfalso; [destruct vs; discriminate Q1|discriminate Q2].
Qed.

(** ** Specifiers *)
Scheme spec_mind := Induction for spec Sort Prop with mdecls_mind := Induction for mdecls Sort Prop.
Combined Scheme spec_mdecls_ind from spec_mind, mdecls_mind.

Definition spec_ok (p : spec) : Prop := forall O A s st, cov_spec O A p s -> R O A s st ->
  match spec_s p s with
  | Some (s', t) =>
    exists st' k, k_spec p st = Some (st', k) /\ R O A s' st' /\ grows s s' /\ rep (s_ents s') k t /\ k_check k = true /\ sync (s_ents s') k t
  | None => k_spec p st = None \/ exists st' k, k_spec p st = Some (st', k) /\ k_check k = false
  end.
Definition members_ok (ms : mdecls) : Prop := forall O A u l s st fs, cov_members O A u ms l s -> R O A s st ->
  reps (s_ents s) fs l -> forallb kf_good fs = true -> wfm (s_ents s) l ->
  match members_s u ms l s with
  | Some (s', l') =>
    exists st' fs', k_members ms fs st = Some (st', fs') /\ R O A s' st' /\ grows s s' /\ reps (s_ents s') fs' l' /\
      forallb kf_good fs' = true /\ wfm (s_ents s') l'
  | None => k_members ms fs st = None \/ exists st' fs', k_members ms fs st = Some (st', fs') /\ forallb kf_good fs' = false
  end.

Lemma k_members_prefix ms : forall fs st st' fs', k_members ms fs st = Some (st', fs') -> exists r, fs' = fs ++ r.
Proof.
  induction ms as [|q p ds r IH]; cbn; intros fs st st' fs' H.
  - injection H as <- <-. exists []. now rewrite app_nil_r.
  - destruct (k_spec p st) as [[st1 t]|]; [|discriminate].
    destruct (match ds with [] => k_anonymous (qualified q t) fs | _ => k_declrs (qualified q t) fs ds end) as [fs1|] eqn:D; [|discriminate].
    assert (X : exists r1, fs1 = fs ++ r1).
    { destruct ds as [|d ds]; [|now apply k_declrs_prefix in D].
      unfold k_anonymous in D. destruct (qualified q t); try discriminate; cbn in D; injection D as <-; eauto. }
    destruct X as (r1 & ->). destruct (IH _ _ _ _ H) as (r2 & ->). exists (r1 ++ r2). now rewrite app_assoc.
Qed.

Lemma declr_wfm E u t ms d ms' : wfm E ms -> declr_s E u t ms d = Some ms' -> wfm E ms'.
Proof.
  intros (N & H & U). assert (X : forall m, match m with (Some x, _, _) => ~ In x (flatten E ms) | (None, t, Some _) => width_of E t <> None | _ => False end ->
    wfm E (ms ++ [m])).
  { intros [[[x|] t0] w] Q.
    - split; [|split].
      + unfold flatten. rewrite flat_map_app. cbn.
        clear - N Q. fold (flatten E ms). induction (flatten E ms) as [|a l IH]; cbn.
        * constructor; [auto|constructor].
        * inversion N; subst. cbn in Q. constructor.
          -- rewrite in_app_iff. cbn. intuition congruence.
          -- apply IH; [assumption|tauto].
      + intros t1 I. apply in_app_or in I. destruct I as [I|[I|[]]]; [auto|congruence].
      + intros t1 w1 I. apply in_app_or in I. destruct I as [I|[I|[]]]; [eauto|congruence].
    - destruct w; [|contradiction]. split; [|split].
      + unfold flatten. rewrite flat_map_app. cbn. rewrite app_nil_r. exact N.
      + intros t1 I. apply in_app_or in I. destruct I as [I|[I|[]]]; [auto|congruence].
      + intros t1 w1 I. apply in_app_or in I. destruct I as [I|[I|[]]]; [eauto|]. injection I as <- <-. exact Q. }
  destruct d as [x sh w|w]; cbn [declr_s].
  - destruct (shape_s E t sh) as [t'|]; [|discriminate]. destruct (fresh E ms [x]) eqn:F; [|discriminate]. cbn [andb].
    destruct (match w with Some _ => _ | None => _ end); [|discriminate]. intros Q. injection Q as <-. apply X. now apply fresh_in.
  - destruct (bitfield_ok E false t w) eqn:B; [|discriminate]. intros Q. injection Q as <-. apply X.
    unfold bitfield_ok in B. destruct (width_of E t); discriminate.
Qed.
Lemma declrs_wfm E u t ds : forall ms ms', wfm E ms -> declrs_s E u t ms ds = Some ms' -> wfm E ms'.
Proof.
  induction ds as [|d r IH]; cbn; intros ms ms' W Q; [injection Q as <-; exact W|].
  destruct (declr_s E u t ms d) as [m1|] eqn:D; [|discriminate]. eapply IH; [|exact Q]. eapply declr_wfm; eauto.
Qed.
Lemma anonymous_wfm E ms j a b c : wfm E ms -> wf E -> content_of E j = Some (CMembers a b c) -> fresh E ms b = true ->
  wfm E (ms ++ [(None, YTag j, None)]).
Proof.
  intros (N & H & U) W C F. split; [|split].
  - unfold flatten. rewrite flat_map_app. cbn. rewrite C, app_nil_r. fold (flatten E ms).
    assert (Nb : NoDup b) by (destruct (proj2 W _ _ _ _ C) as (-> & Nb & _); exact Nb).
    unfold fresh in F. rewrite forallb_forall in F.
    assert (D : forall x, In x (flatten E ms) -> ~ In x b).
    { intros x I J. specialize (F x J). rewrite negb_true_iff in F.
      assert (existsb (String.eqb x) (flatten E ms) = true); [|congruence]. apply existsb_exists. exists x. split; [exact I|apply String.eqb_refl]. }
    clear - N Nb D. induction (flatten E ms) as [|y l IH]; cbn; [exact Nb|]. inversion N; subst. constructor.
    + rewrite in_app_iff. intros [I|I]; [contradiction|]. apply (D y); [now left|exact I].
    + apply IH; [assumption|]. intros x I. apply D. now right.
  - intros t I. apply in_app_or in I. destruct I as [I|[I|[]]]; [auto|]. injection I as <-. exists j, a, b, c. auto.
  - intros t w I. apply in_app_or in I. destruct I as [I|[I|[]]]; [eauto|discriminate].
Qed.

Lemma def_result u ms s s' t : spec_s (SDef u None ms) s = Some (s', t) ->
  exists j a b c, t = YTag j /\ content_of (s_ents s') j = Some (CMembers a b c).
Proof.
  cbn. destruct (members_s u ms [] s) as [[s2 l]|]; [|discriminate]. destruct (flexible_ok _ _ _ _); [|discriminate].
  unfold new_entity. intros Q. injection Q as <- <-. eexists _, _, _, _. split; [reflexivity|].
  cbn. unfold content_of. rewrite nth_app_new. reflexivity.
Qed.

Lemma spec_sim : (forall p, spec_ok p) /\ (forall ms, members_ok ms).
Proof.
  apply spec_mdecls_ind.
  - (* basic types *)
    intros b O A s st _ HR. cbn. exists st, (TBasic b). split; [reflexivity|]. split; [exact HR|]. split; [apply grows_refl|].
    split; [reflexivity|]. split; [reflexivity|]. destruct b; reflexivity.
  - (* typedef names *)
    intros n O A s st C HR. cbn in C |- *. pose proof (R_names _ _ _ _ HR) as Hn.
    destruct (nth_error (s_names s) n) as [[td t]|] eqn:N.
    + assert (X : exists k, nth_error (k_names st) n = Some (td, k) /\ rep (s_ents s) k t /\ k_check k = true).
      { clear - Hn N. revert n N. induction Hn as [|p q l1 l2 H _ IH]; intros [|n] N; cbn in N; try discriminate.
        - injection N as ->. destruct q as [td' k]. cbn in H. destruct H as (<- & H1 & H2). exists k. auto.
        - now apply IH. }
      destruct X as (k & -> & Rk & Kk). destruct td; [|now left].
      destruct (completion_sim O A s st HR k t Rk Kk C) as (B & D & F).
      exists st, (completion (scope_of st) k). split; [reflexivity|]. split; [exact HR|]. split; [apply grows_refl|]. auto.
    + assert (X : nth_error (k_names st) n = None).
      { clear - Hn N. revert n N. induction Hn as [|p q l1 l2 H _ IH]; intros [|n] N; cbn in *; try discriminate; auto. }
      rewrite X. now left.
  - (* references *)
    intros u x O A s st (Na & Ck) HR. cbn [spec_s k_spec].
    pose proof (R_look O A s st x HR Na) as L. destruct (visible (s_tags s) x) as [i|] eqn:V.
    + destruct L as (e & N & T & L). rewrite N. destruct L as [(k & L & Rk & Kk & Dk)|(L & Sc & Kc & Ce & Io)].
      * rewrite L. rewrite (same_kind_rep _ _ _ _ (record_type u false None []) (kind_of u) Rk N) by (destruct u; reflexivity).
        destruct (kind_eqb (e_kind e) (kind_of u)); [|now left].
        exists st, k. split; [reflexivity|]. split; [exact HR|]. split; [apply grows_refl|]. split; [exact Rk|]. split; [exact Kk|].
        now apply sync_tag.
      * rewrite L. pose proof (Ck Io i e V N) as Kd. rewrite Kd. rewrite (proj2 (kind_eqb_eq _ _) eq_refl).
        destruct (R_tops _ _ _ _ HR) as (f & r & g & h & Qf & Qg & H1 & H2). cbn [k_define]. unfold define_tag. rewrite Qg.
        rewrite Qg in Kc. cbn in Kc. rewrite Kc.
        assert (RT : rep (s_ents s) (record_type u false (Some x) []) (YTag i)).
        { apply open_rep. rewrite N. destruct e; cbn in *; congruence. }
        assert (Dn : done (s_ents s) i = false) by (unfold done, content_of; now rewrite N, Ce).
        exists (K (put x (record_type u false (Some x) []) g :: h) (k_consts st) (k_names st)), (record_type u false (Some x) []).
        split; [reflexivity|]. split; [|split; [apply grows_refl|split; [exact RT|]]].
        -- destruct s as [tg cs en nm]. cbn in *. subst tg. cbn in Sc.
           apply (R_set O A _ st f r g h f (put x (record_type u false (Some x) []) g) x HR eq_refl Qg).
           ++ intros y Ny. split; [reflexivity|now apply put_other].
           ++ left. rewrite Sc, put_same. split; [exact RT|]. split; [destruct u; reflexivity|]. split; [cbn; rewrite Dn; destruct u; reflexivity|].
              exists e. auto.
           ++ intros j gg Q I. apply (proj1 (R_dist _ _ _ _ HR) x j gg Q I).
        -- split; [destruct u; reflexivity|]. apply sync_tag; [exact RT|]. rewrite Dn. destruct u; reflexivity.
    + rewrite L. destruct (R_tops _ _ _ _ HR) as (f & r & g & h & Qf & Qg & H1 & H2). cbn [k_define]. unfold define_tag. rewrite Qg.
      assert (Gx : g x = None) by (rewrite Qg in L; cbn in L; destruct (g x); congruence). rewrite Gx.
      set (E1 := s_ents s ++ [Ent (kind_of u) (Some x) None]).
      assert (Nw : nth_error E1 (List.length (s_ents s)) = Some (Ent (kind_of u) (Some x) None)) by apply nth_app_new.
      assert (RT : rep E1 (record_type u false (Some x) []) (YTag (List.length (s_ents s)))) by (now apply open_rep).
      assert (Dn : done E1 (List.length (s_ents s)) = false) by (unfold done, content_of; now rewrite Nw).
      unfold new_entity. eexists _, _. split; [reflexivity|]. split; [|split; [|split; [exact RT|]]].
      * apply (R_new O A s st (kind_of u) x None g h (put x (record_type u false (Some x) []) g) HR Qg).
        -- apply wf_open; [apply (R_wf _ _ _ _ HR)|apply kind_not_enum].
        -- intros z Nz. now apply put_other.
        -- left. rewrite put_same. split; [exact RT|]. split; [destruct u; reflexivity|]. split; [fold E1; rewrite Dn; destruct u; reflexivity|].
           exists (Ent (kind_of u) (Some x) None). split; [exact Nw|reflexivity].
      * apply (grows_new (kind_of u) (Some x) None s). intros y Q. injection Q as <-. now apply visible_scope.
      * split; [destruct u; reflexivity|]. apply sync_tag; [exact RT|]. cbn [s_ents]. fold E1. rewrite Dn. destruct u; reflexivity.
  - (* definitions *)
    intros u x ms IH O A s st (Cm & Cf) HR. cbn [spec_s k_spec].
    (* the state at the beginning of the members *)
    assert (Start : exists O' A',
      let s1 := match x with
                | Some y => match in_scope (s_tags s) y with Some _ => s | None => fst (new_entity (kind_of u) x None s) end
                | None => s
                end in
      cov_members O' A' u ms [] s1 /\ R O' A' s1 st /\ grows s s1 /\
      match x with
      | Some y => incl O' (y :: O) /\ incl A' (y :: A) /\
        (forall i e, in_scope (s_tags s1) y = Some i -> nth_error (s_ents s1) i = Some e ->
           (In y O \/ in_scope (s_tags s) y = None) -> e_kind e = kind_of u) /\
        (in_scope (s_tags s) y <> None -> O' = O) /\ exists i, in_scope (s_tags s1) y = Some i
      | None => O' = O /\ A' = A
      end).
    { destruct x as [y|]; [|exists O, A; cbn; split; [exact Cm|split; [exact HR|split; [apply grows_refl|auto]]]].
      destruct Cm as (Na & Ck & Cm). destruct (in_scope (s_tags s) y) as [i|] eqn:Sc.
      - exists O, A. cbn. split; [exact Cm|]. split; [exact HR|]. split; [apply grows_refl|].
        split; [intros z; cbn; auto|]. split; [intros z; cbn; auto|]. split; [|split; [reflexivity|rewrite Sc; eauto]].
        intros j e Q N [Io|Q']; [|congruence]. apply (Ck Io j e); [|exact N]. now apply scope_visible.
      - exists (y :: O), (match visible (s_tags s) y with Some _ => y :: A | None => A end).
        cbn zeta. split; [exact Cm|].
        destruct (R_tops _ _ _ _ HR) as (f & r & g & h & Qf & Qg & H1 & H2).
        set (A' := match visible (s_tags s) y with Some _ => y :: A | None => A end) in *.
        assert (Ia : incl A A') by (unfold A'; destruct (visible _ _); [apply incl_tl|]; apply incl_refl).
        assert (HR' : R (y :: O) A' s st) by (apply (R_weaken O A); [apply incl_tl, incl_refl|exact Ia|exact HR]).
        assert (Fy : f y = None) by (rewrite Qf in Sc; exact Sc).
        assert (Gy : g y = None).
        { destruct (H1 y) as [Al|(j & e & Q & _)]; rewrite Fy in *; [|discriminate]. destruct (g y); [contradiction|reflexivity]. }
        assert (Hl : lookup h y = None \/ In y A').
        { unfold A'. destruct (visible (s_tags s) y) eqn:V; [right; now left|]. left.
          pose proof (R_look O A s st y HR Na) as L. rewrite V, Qg in L. cbn in L. now rewrite Gy in L. }
        assert (R1 : R (y :: O) A' (fst (new_entity (kind_of u) (Some y) None s)) st).
        { assert (Q : st = K (g :: h) (k_consts st) (k_names st)) by (rewrite <- Qg; now destruct st).
          rewrite Q. apply (R_new (y :: O) A' s st (kind_of u) y None g h g HR' Qg).
          - apply wf_open; [apply (R_wf _ _ _ _ HR)|apply kind_not_enum].
          - reflexivity.
          - right. exists (List.length (s_ents s)), (Ent (kind_of u) (Some y) None). split; [reflexivity|].
            split; [apply nth_app_new|]. split; [reflexivity|]. split; [reflexivity|]. split; [exact Gy|]. split; [now left|exact Hl]. }
        split; [exact R1|]. split; [apply grows_new; intros z Q; injection Q as <-; exact Sc|].
        split; [apply incl_refl|]. split; [unfold A'; destruct (visible _ _); [apply incl_refl|apply incl_tl, incl_refl]|].
        split; [|split; [congruence|]].
        + intros j e. cbn. rewrite Qf. cbn. unfold bind. rewrite String.eqb_refl. intros Q N _. injection Q as <-.
          rewrite nth_app_new in N. injection N as <-. reflexivity.
        + cbn. rewrite Qf. cbn. unfold bind. rewrite String.eqb_refl. eauto. }
    cbn zeta in Start. destruct Start as (O' & A' & Cm' & R1 & G1 & Sx).
    set (s1 := match x with
               | Some y => match in_scope (s_tags s) y with Some _ => s | None => fst (new_entity (kind_of u) x None s) end
               | None => s
               end) in *.
    assert (M : match members_s u ms [] s1 with
      | Some (s', l') =>
        exists st' fs', k_members ms [] st = Some (st', fs') /\ R O' A' s' st' /\ grows s1 s' /\ reps (s_ents s') fs' l' /\
          forallb kf_good fs' = true /\ wfm (s_ents s') l'
      | None => k_members ms [] st = None \/ exists st' fs', k_members ms [] st = Some (st', fs') /\ forallb kf_good fs' = false
      end).
    { apply (IH O' A' u [] s1 st []); try assumption; try reflexivity; try exact I.
      split; [constructor|]. split; [intros t []|intros t w []]. }
    assert (Bad : forall st2 fs2, k_check (record_type u true x fs2) = false ->
      k_define x (record_type u true x fs2) st2 = None \/
      exists st' k, k_define x (record_type u true x fs2) st2 = Some (st', k) /\ k_check k = false).
    { intros st2 fs2 B. unfold k_define. destruct x as [y|]; [|right; eauto]. destruct (define_tag _ _ _); [right; eauto|now left]. }
    destruct (members_s u ms [] s1) as [[s2 l]|].
    2:{ destruct M as [->|(st2 & fs2 & -> & B)]; [now left|]. apply Bad. rewrite k_check_record, B. reflexivity. }
    destruct M as (st2 & fs2 & -> & R2 & G2 & Rp & Gd & Wm).
    assert (Fx : kf_flex u true fs2 = flexible_ok (s_ents s2) u [] l).
    { apply (flex_sim (s_ents s2) u fs2 l [] Rp). cbn. exact Cf. }
    destruct (flexible_ok (s_ents s2) u [] l) eqn:Fo.
    2:{ apply Bad. rewrite k_check_record, Gd, Fx. reflexivity. }
    set (T := record_type u true x fs2). set (c := CMembers l (flatten (s_ents s2) l) (has_flexible (s_ents s2) u l)).
    assert (Kc : k_check T = true) by (unfold T; rewrite k_check_record, Gd, Fx; reflexivity).
    assert (RT : forall E' i, ext (s_ents s2) E' -> nth_error E' i = Some (Ent (kind_of u) x (Some c)) -> rep E' T (YTag i)).
    { intros E' i X N. apply rep_record. exists i, (Ent (kind_of u) x (Some c)). repeat split; try assumption.
      exists l, (flatten (s_ents s2) l), (has_flexible (s_ents s2) u l). split; [reflexivity|]. now apply (reps_ext (s_ents s2)). }
    assert (Ke : kind_of u = KEnum <-> exists vs, c = CValues vs).
    { split; [intros Q; now apply kind_not_enum in Q|intros (vs & Q); discriminate]. }
    assert (Wc : forall ms fl fx, c = CMembers ms fl fx -> fl = flatten (s_ents s2) ms /\ wfm (s_ents s2) ms).
    { intros m fl fx Q. injection Q as <- <- <-. auto. }
    destruct x as [y|].
    + destruct Sx as (Io & Ia & Kd & Oo & (i & Si)).
      assert (R2' : R (y :: O) (y :: A) s2 st2) by (apply (R_weaken O' A'); assumption).
      pose proof (complete_sim O A s2 st2 y (kind_of u) c T R2') as CS.
      assert (Pk : forall i e, in_scope (s_tags s2) y = Some i -> nth_error (s_ents s2) i = Some e -> in_scope (k_tags st2) y = None -> e_kind e = kind_of u).
      { intros j e Q N Kn. pose proof (proj2 G2 y i Si) as Si2. rewrite Si2 in Q. injection Q as <-.
        destruct (bound_valid (s_ents s1) O' A' (s_tags s1) (k_tags st) y i (R_tags _ _ _ _ R1) (scope_visible _ _ _ Si)) as (e1 & N1 & _).
        destruct (proj1 G2 _ _ N1) as (e2 & N2 & K2 & _). rewrite N2 in N. injection N as <-. rewrite K2.
        apply (Kd i e1 Si N1).
        destruct (in_scope (s_tags s) y) as [i0|] eqn:Sc; [left|now right].
        (* pending, so that the definition is open *)
        rewrite <- (Oo ltac:(congruence)).
        destruct (R_tops _ _ _ _ R2) as (f & r & g & h & Qf & Qg & H1 & H2). rewrite Qf in Si2. rewrite Qg in Kn. cbn in Si2, Kn.
        destruct (H1 y) as [Al|(j & e & _ & _ & _ & _ & _ & Iy & _)]; [|exact Iy]. rewrite Si2, Kn in Al. contradiction. }
      specialize (CS ltac:(unfold T; destruct u; reflexivity) ltac:(unfold T; destruct u; reflexivity) ltac:(unfold T; destruct u; reflexivity) Kc Ke Wc RT Pk).
      cbn [k_define]. fold T. destruct (complete_s (kind_of u) y c s2) as [[s3 t]|].
      * destruct CS as (st3 & -> & R3 & G3 & Rt & Sy). exists st3, T. split; [reflexivity|]. split; [exact R3|].
        split; [eapply grows_trans; [exact G1|eapply grows_trans; [exact G2|exact G3]]|]. auto.
      * rewrite CS. now left.
    + destruct Sx as (-> & ->). cbn [k_define]. fold T.
      assert (Wn : wf (s_ents s2 ++ [Ent (kind_of u) None (Some c)])).
      { apply wf_app; [apply (R_wf _ _ _ _ R2)| |].
        - rewrite Ke. split; intros (vs & Q); exists vs; congruence.
        - intros m fl fx Q. apply (Wc m fl fx). congruence. }
      pose proof (RT _ _ (ext_app (s_ents s2) (Ent (kind_of u) None (Some c))) (nth_app_new _ _)) as Rt.
      unfold new_entity. exists st2, T. split; [reflexivity|]. split; [now apply R_app|].
      split; [eapply grows_trans; [exact G1|eapply grows_trans; [exact G2|apply (grows_new (kind_of u) None (Some c)); discriminate]]|].
      split; [exact Rt|]. split; [exact Kc|].
      assert (In : incomplete T = false) by (unfold T; destruct u; reflexivity).
      unfold sync. rewrite In. symmetry. now apply (rep_complete _ T).
  - (* references to enumerations *)
    intros x O A s st (Na & Ck & Nv) HR. cbn [spec_s k_spec].
    pose proof (R_look O A s st x HR Na) as L. destruct (visible (s_tags s) x) as [i|] eqn:V; [|contradiction].
    destruct L as (e & N & T & L). rewrite N. destruct L as [(k & L & Rk & Kk & Dk)|(L & Sc & Kc & Ce & Io)].
    + rewrite L. rewrite (same_kind_rep _ _ _ _ (TEnum true None [] BSInt) KEnum Rk N) by reflexivity.
      destruct (kind_eqb (e_kind e) KEnum); [|now left].
      exists st, k. split; [reflexivity|]. split; [exact HR|]. split; [apply grows_refl|]. split; [exact Rk|]. split; [exact Kk|].
      now apply sync_tag.
    + exfalso. pose proof (Ck Io i e V N) as Kd. destruct (proj1 (R_wf _ _ _ _ HR) i e N) as (W & _).
      destruct (W Kd) as (vs & Q). congruence.
  - (* enumerations *)
    intros x es O A s st (Cx & Ce) HR. cbn [spec_s k_spec].
    assert (Nc : s_consts s <> []).
    { intros Q. pose proof (R_len _ _ _ _ HR) as Hl. destruct (R_tops _ _ _ _ HR) as (f & r & g & h & Qf & _). rewrite Q, Qf in Hl. discriminate. }
    pose proof (enum_sim es 0 max_int64 [] [] st (s_consts s) (k_tags st) (k_names st) Ce) as X.
    specialize (X ltac:(rewrite (R_consts _ _ _ _ HR); now destruct st) Nc eq_refl ltac:(intros p []) eq_refl).
    destruct (enumerators_s es 0 [] (s_consts s)) as [[c vs]|]; [|rewrite X; now left].
    destruct X as (mn & seen & -> & Ms & Mn & Lc & Ne).
    set (under := match es with [] => BSInt | _ => if 0 <=? mn then BUInt else BSInt end).
    assert (Un : under = underlying vs).
    { unfold under, underlying. destruct es as [|e0 es].
      - replace vs with (@nil (string * Z)) by (symmetry; now apply Ne). reflexivity.
      - destruct vs as [|v0 vs]; [destruct (proj1 Ne eq_refl); discriminate|]. rewrite Mn. reflexivity. }
    set (T := TEnum true x seen under). set (s2 := SS (s_tags s) c (s_ents s) (s_names s)).
    assert (R2 : R O A s2 (K (k_tags st) c (k_names st))).
    { destruct HR as [Ht Hd Hc Hl Hn Hw]. constructor; cbn; try assumption; [reflexivity|congruence]. }
    assert (RT : forall E' i, ext (s_ents s2) E' -> nth_error E' i = Some (Ent KEnum x (Some (CValues vs))) -> rep E' T (YTag i)).
    { intros E' i _ N. cbn. exists i, vs. auto. }
    destruct x as [y|].
    + destruct Cx as (Na & Ck).
      assert (R2' : R (y :: O) (y :: A) s2 (K (k_tags st) c (k_names st))) by (apply (R_weaken O A); [apply incl_tl, incl_refl|apply incl_tl, incl_refl|exact R2]).
      pose proof (complete_sim O A s2 _ y KEnum (CValues vs) T R2' eq_refl eq_refl eq_refl eq_refl) as CS.
      specialize (CS ltac:(split; [eauto|reflexivity]) ltac:(discriminate) RT).
      assert (Pk : forall i e, in_scope (s_tags s2) y = Some i -> nth_error (s_ents s2) i = Some e -> in_scope (k_tags (K (k_tags st) c (k_names st))) y = None -> e_kind e = KEnum).
      { cbn. intros j e Q N Kn. apply (Ck) with (i := j); [|now apply scope_visible|exact N].
        destruct (R_tops _ _ _ _ HR) as (f & r & g & h & Qf & Qg & H1 & H2). rewrite Qf in Q. rewrite Qg in Kn. cbn in Q, Kn.
        destruct (H1 y) as [Al|(j' & e' & _ & _ & _ & _ & _ & Iy & _)]; [|exact Iy]. rewrite Q, Kn in Al. contradiction. }
      specialize (CS Pk). cbn [k_define]. fold T. destruct (complete_s KEnum y (CValues vs) s2) as [[s3 t]|].
      * destruct CS as (st3 & -> & R3 & G3 & Rt & Sy). exists st3, T. split; [reflexivity|]. split; [exact R3|].
        split; [exact G3|]. auto.
      * rewrite CS. now left.
    + cbn [k_define]. fold T.
      assert (Wn : wf (s_ents s2 ++ [Ent KEnum None (Some (CValues vs))])).
      { apply wf_app; [apply (R_wf _ _ _ _ R2)|split; [eauto|reflexivity]|discriminate]. }
      pose proof (RT _ _ (ext_app (s_ents s2) (Ent KEnum None (Some (CValues vs)))) (nth_app_new _ _)) as Rt.
      unfold new_entity. eexists _, T. split; [reflexivity|]. split; [now apply (R_app O A s2)|].
      split; [apply (grows_new KEnum None (Some (CValues vs)) s2); discriminate|]. split; [exact Rt|]. split; [reflexivity|].
      unfold sync. symmetry. apply (rep_complete _ T); [exact Rt|reflexivity].
  - (* no more members *)
    intros O A u l s st fs _ HR Rp Gd Wm. cbn. exists st, fs. split; [reflexivity|]. split; [exact HR|]. split; [apply grows_refl|]. auto.
  - (* members *)
    intros q p IHp ds r IHr O A u l s st fs (Cp & Cd) HR Rp Gd Wm. cbn [members_s k_members].
    pose proof (IHp O A s st Cp HR) as P.
    assert (Bad : forall st1 fs1, forallb kf_good fs1 = false ->
      k_members r fs1 st1 = None \/ exists st' fs', k_members r fs1 st1 = Some (st', fs') /\ forallb kf_good fs' = false).
    { intros st1 fs1 B. destruct (k_members r fs1 st1) as [[st' fs']|] eqn:X; [|now left]. right. exists st', fs'.
      split; [reflexivity|]. destruct (k_members_prefix _ _ _ _ _ X) as (r1 & ->). now apply bad_prefix. }
    destruct (spec_s p s) as [[s' t]|] eqn:Sp.
    2:{ destruct P as [->|(st1 & k & -> & Kb)]; [now left|]. rewrite <- (check_qualified q) in Kb.
        destruct ds as [|d ds].
        - unfold k_anonymous. destruct (qualified q k) eqn:Qk; try (now left).
          + apply Bad. apply bad_app, bad_type. exact Kb.
          + apply Bad. apply bad_app, bad_type. exact Kb.
        - destruct (declrs_bad (qualified q k) (d :: ds) fs Kb ltac:(discriminate) Cd) as [->|(fs1 & -> & B)]; [now left|]. now apply Bad. }
    destruct P as (st1 & k & -> & R1 & G1 & Rk & Kk & Sy). destruct Cd as (Cq & Cd).
    destruct (qualified_sim (s_ents s') q k t Rk Sy Cq) as (t' & Qt & Rq & Sq). rewrite Qt in *.
    assert (Kq : k_check (qualified q k) = true) by (now rewrite check_qualified).
    pose proof (reps_ext _ _ _ _ (proj1 G1) Rp) as Rp1. pose proof (wfm_ext _ _ _ (proj1 G1) Wm) as Wm1.
    destruct Cd as (Cd & Cr).
    assert (Step : match (match ds with [] => anonymous_s (s_ents s') u p t' l | _ => declrs_s (s_ents s') u t' l ds end) with
      | Some l' => exists fs', (match ds with [] => k_anonymous (qualified q k) fs | _ => k_declrs (qualified q k) fs ds end) = Some fs' /\
          reps (s_ents s') fs' l' /\ forallb kf_good fs' = true /\ wfm (s_ents s') l'
      | None => (match ds with [] => k_anonymous (qualified q k) fs | _ => k_declrs (qualified q k) fs ds end) = None \/
          exists fs', (match ds with [] => k_anonymous (qualified q k) fs | _ => k_declrs (qualified q k) fs ds end) = Some fs' /\ forallb kf_good fs' = false
      end).
    { destruct ds as [|d ds].
      - destruct Cd as [(b & ->)|((v & ml & ->) & Zq & Fr & Fl)].
        + cbn. left. cbn in Sp. injection Sp as <- <-. unfold k_anonymous. clear - Rq Qt. unfold qualified_s in Qt.
          assert (X : forall c, rep c (qualified q k) t' -> match t' with YTag _ => False | _ => True end ->
            match qualified q k with TStruct _ _ _ | TUnion _ _ _ => False | _ => True end).
          { intros c H N. destruct (qualified q k); cbn in H; auto; destruct H as (i & e & -> & _); exact N. }
          specialize (X _ Rq). destruct (qualified q k); try reflexivity; exfalso; apply X;
            destruct (_ && _); try discriminate; destruct (zero_qual q); injection Qt as <-; exact I.
        + destruct (def_result _ _ _ _ _ Sp) as (j & a & b & c & -> & Cj).
          unfold qualified_s in Qt. rewrite (zero_restrict q Zq), Zq in Qt. cbn in Qt. injection Qt as <-.
          cbn [names_of] in Fr. rewrite Cj in Fr.
          pose proof (member_sim (s_ents s') u (qualified q k) (YTag j) Rq Kq Sq Fl None) as Mk.
          assert (An : k_anonymous (qualified q k) fs = Some (fs ++ [Field None (qualified q k) 0 None])).
          { unfold k_anonymous. destruct (qualified q k) eqn:Qk; cbn in Rq; try discriminate; try (destruct Rq as (? & ? & _); discriminate);
              try (destruct Rq as (? & ? & ? & _); discriminate); try reflexivity.
            destruct Rq as (i & vs & Q & N & _). injection Q as <-. unfold content_of in Cj. rewrite N in Cj. discriminate. }
          rewrite An. cbn [anonymous_s names_of]. rewrite Cj, Fr, andb_true_r, <- Mk.
          destruct (kf_good (Field None (qualified q k) 0 None)) eqn:Gk.
          * eexists. split; [reflexivity|]. split; [|split].
            -- apply reps_app; [exact Rp1|]. cbn. auto.
            -- now apply good_app.
            -- eapply anonymous_wfm; eauto. apply (R_wf _ _ _ _ R1).
          * right. eexists. split; [reflexivity|]. now apply bad_app.
      - pose proof (declrs_sim (s_ents s') u (qualified q k) t' (d :: ds) (proj1 (R_wf _ _ _ _ R1)) Rq Kq Sq fs l Rp1 Gd Cd) as D.
        destruct (declrs_s (s_ents s') u t' l (d :: ds)) as [l'|] eqn:Dl; [|exact D].
        destruct D as (fs' & D1 & D2 & D3). exists fs'. repeat (split; [assumption|]). eapply declrs_wfm; eauto. }
    destruct (match ds with [] => anonymous_s (s_ents s') u p t' l | _ => declrs_s (s_ents s') u t' l ds end) as [l'|].
    + destruct Step as (fs1 & -> & Rp2 & Gd2 & Wm2). pose proof (IHr O A u l' s' st1 fs1 Cr R1 Rp2 Gd2 Wm2) as M.
      destruct (members_s u r l' s') as [[s3 l3]|]; [|exact M].
      destruct M as (st3 & fs3 & M1 & M2 & M3 & M4). exists st3, fs3. split; [exact M1|]. split; [exact M2|].
      split; [eapply grows_trans; eassumption|exact M4].
    + destruct Step as [->|(fs1 & -> & B)]; [now left|]. now apply Bad.
Qed.
