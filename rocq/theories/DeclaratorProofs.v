(** Proofs about declarators. *)

From Coq Require Import ZArith Bool List Lia.
From Verif Require Import SpecifierModel DeclaratorModel DeclaratorSpec.
Import ListNotations.

(** * Types *)

Section Meaning.
  Variable constant : expr -> option Z.

  (** [s]: the analyzer accepts; otherwise it may refuse *)
  Definition okay {A} (s : bool) (o : option A) (v : A) : Prop :=
    match o with Some w => w = v | None => s = false end.
  Definition means (s : bool) (d : dcl) (x : option nat) (L : list deriv) : Prop :=
    forall t, okay s (analyze constant d t) (x, build constant L t).

  Lemma qualification_step : forall qs c r v,
    match qualification (c, r, v) qs with
    | Some q => q = (c || fst (fst (set_of qs)), r || snd (fst (set_of qs)), v || snd (set_of qs))
    | None => In QAtomic qs
    end.
  Proof.
    induction qs as [|q qs IH]; intros c r v; cbn.
    - rewrite !orb_false_r. reflexivity.
    - destruct q; cbn.
      + specialize (IH true r v). destruct (qualification (true, r, v) qs); [|auto].
        rewrite IH. cbn. rewrite orb_true_r. reflexivity.
      + specialize (IH c true v). destruct (qualification (c, true, v) qs); [|auto].
        rewrite IH. cbn. rewrite orb_true_r. reflexivity.
      + specialize (IH c r true). destruct (qualification (c, r, true) qs); [|auto].
        rewrite IH. cbn. rewrite orb_true_r. reflexivity.
      + auto.
  Qed.
  Lemma qualification_set : forall qs, 
    match qualification no_quals qs with Some q => q = set_of qs | None => In QAtomic qs end.
  Proof. intros qs. exact (qualification_step qs false false false). Qed.

  Lemma qualify_set : forall qs t, qualify (set_of qs) t = with_quals qs t.
  Proof.
    intros qs t. unfold qualify, with_quals. cbn [set_of].
    replace (has (fun q => match q with QAtomic => false | _ => true end) qs) with
      (has (fun q => match q with QConst => true | _ => false end) qs
       || has (fun q => match q with QRestrict => true | _ => false end) qs
       || has (fun q => match q with QVolatile => true | _ => false end) qs); [reflexivity|].
    induction qs as [|q qs IH]; [reflexivity|]. cbn. unfold has in *. rewrite <- IH.
    destruct q; cbn; auto; rewrite ?orb_true_r; auto.
  Qed.

  Lemma build_app : forall L v t, build constant (L ++ [v]) t = build constant L (derive constant v t).
  Proof. intros. unfold build. rewrite fold_right_app. reflexivity. Qed.

  Fixpoint aparams (ps : list prm) : option (list (option cty)) :=
    match ps with
    | [] => Some []
    | p :: ps =>
      match (match p with
             | PDecl ws d => option_map (fun r => Some (adjust (snd r))) (analyze constant d (YBase ws))
             | PId _ => Some None
             end) with
      | Some p => option_map (cons p) (aparams ps)
      | None => None
      end
    end.
  Lemma analyze_fun : forall ps dots d t, analyze constant (DFun ps dots d) t =
    match aparams ps with Some ps => analyze constant d (YFun t ps dots) | None => None end.
  Proof. reflexivity. Qed.

  Inductive pmeans (s : bool) : prm -> list word * list deriv -> Prop :=
    | PM ws d x L : means s d x L -> pmeans s (PDecl ws d) (ws, L).

  Lemma m_name : forall s x, means s (DId x) x [].
  Proof. intros s x t. reflexivity. Qed.
  Lemma m_pointer : forall s d x L qs, (s = true -> plain qs) -> means s d x L -> means s (DPtr qs d) x (L ++ [Pointer qs]).
  Proof.
    intros s d x L qs HS M t. cbn [analyze]. pose proof (qualification_set qs) as Q.
    destruct (qualification no_quals qs) as [q|].
    - subst q. rewrite build_app, qualify_set. apply M.
    - destruct s; [|reflexivity]. exfalso. exact (HS eq_refl Q).
  Qed.
  Lemma m_array : forall s d x L b st qs, (s = true -> plain qs) -> means s d x L ->
    means s (DArr b st qs d) x (L ++ [Array b st qs]).
  Proof.
    intros s d x L b st qs HS M t. cbn [analyze]. pose proof (qualification_set qs) as Q.
    destruct (qualification no_quals qs) as [q|].
    - subst q. rewrite build_app. apply M.
    - destruct s; [|reflexivity]. exfalso. exact (HS eq_refl Q).
  Qed.
  Lemma aparams_meaning : forall s ps P, Forall2 (pmeans s) ps P ->
    okay s (aparams ps) (map (fun p : list word * list deriv =>
        let (ws, L) := p in
        let all := fold_right (derive constant) (YBase ws) in
        Some (match L with
              | Array _ _ qs :: L => with_quals qs (YPtr (all L))
              | (Function _ _ | Unprototyped _) :: _ => YPtr (all L)
              | _ => all L
              end)) P).
  Proof.
    intros s ps P F. induction F as [|p pl ps P [ws d x L M] F IH]; [reflexivity|].
    cbn [aparams map]. specialize (M (YBase ws)).
    destruct (analyze constant d (YBase ws)) as [[y t]|]; cbn in M |- *; [|exact M].
    destruct (aparams ps) as [k|]; cbn in IH |- *; [|exact IH].
    injection M as -> ->. subst k. f_equal. f_equal. unfold build.
    destruct L as [|[qs|b st qs|P' dots|n] L]; cbn; try reflexivity.
    - unfold with_quals. destruct (has _ qs); reflexivity.
    - apply (qualify_set qs).
  Qed.
  Lemma m_function : forall s d x L ps P dots, Forall2 (pmeans s) ps P -> means s d x L ->
    means s (DFun ps dots d) x (L ++ [Function P dots]).
  Proof.
    intros s d x L ps P dots F M t. rewrite analyze_fun. pose proof (aparams_meaning s ps P F) as A.
    destruct (aparams ps) as [k|]; cbn in A; [|exact A]. subst k. rewrite build_app. apply M.
  Qed.
  Lemma aparams_ids : forall xs, aparams (map PId xs) = Some (repeat None (List.length xs)).
  Proof. induction xs as [|x xs IH]; [reflexivity|]. cbn [map aparams]. rewrite IH. reflexivity. Qed.
  Lemma m_names : forall s d x L xs, means s d x L -> means s (DFun (map PId xs) false d) x (L ++ [Unprototyped (List.length xs)]).
  Proof.
    intros s d x L xs M t. rewrite analyze_fun, aparams_ids, build_app. apply M.
  Qed.
End Meaning.

(** * More fuel gives the same result *)

Section Fuel.
  Variable T : nat -> bool.
  Lemma declarator_S : forall n (ts : list tok), declarator T (S n) ts =
      match ts with
      | KStar :: r =>
        let (qs, r) := quals_of r in
        match declarator T n r with Ok (d, r) => Ok (DPtr qs d, r) | e => e end
      | KLp :: r =>
        match declarator T n r with
        | Ok (d, KRp :: r) => tail T n false d r
        | Ok _ => Err
        | e => e
        end
      | KId x :: r => tail T n false (DId (Some x)) r
      | _ => NoMatch
      end.
  Proof. reflexivity. Qed.
  Lemma tail_S : forall n (abstr : bool) (d : dcl) (ts : list tok), tail T (S n) abstr d ts =
      match ts with
      | KLb :: r =>
        match array r with
        | Ok ((b, st, qs), r) => tail T n abstr (DArr b st qs d) r
        | NoMatch => NoMatch | Err => Err | Stuck => Stuck
        end
      | KLp :: r =>
        match function T n abstr r with
        | Ok ((ps, dots), r) => tail T n abstr (DFun ps dots d) r
        | NoMatch => NoMatch | Err => Err | Stuck => Stuck
        end
      | _ => Ok (d, ts)
      end.
  Proof. reflexivity. Qed.
  Lemma function_S : forall n (abstr : bool) (ts : list tok), function T (S n) abstr ts =
      let fin (a : list prm * bool) (r : list tok) :=
        match r with KRp :: r => Ok (a, r) | _ => Err end in
      match parameters T n ts with
      | Ok (a, r) => fin a r
      | NoMatch =>
        if abstr then fin ([], false) ts else
        match identifiers ts with
        | Ok (ps, r) => fin (ps, false) r
        | NoMatch => Err | Err => Err | Stuck => Stuck
        end
      | Err => Err
      | Stuck => Stuck
      end.
  Proof. reflexivity. Qed.
  Lemma parameters_S : forall n (ts : list tok), parameters T (S n) ts =
      match parameter T n ts with
      | Ok (p, r) => more T n [p] r
      | NoMatch => NoMatch | Err => Err | Stuck => Stuck
      end.
  Proof. reflexivity. Qed.
  Lemma more_S : forall n (ps : list prm) (ts : list tok), more T (S n) ps ts =
      match ts with
      | KComma :: r =>
        match parameter T n r with
        | Ok (p, r) => more T n (ps ++ [p]) r
        | NoMatch => match r with KDots :: r => Ok ((ps, true), r) | _ => Err end
        | Err => Err | Stuck => Stuck
        end
      | _ => Ok ((ps, false), ts)
      end.
  Proof. reflexivity. Qed.
  Lemma parameter_S : forall n (ts : list tok), parameter T (S n) ts =
      let (ws, r) := specifiers T false ts in
      match ws with
      | [] => NoMatch
      | _ =>
        match declarator T n r with
        | Ok (d, r) => Ok (PDecl ws d, r)
        | NoMatch =>
          match abstract T n r with
          | Ok (d, r) => Ok (PDecl ws d, r)
          | NoMatch => Ok (PDecl ws (DId None), r)
          | Err => Err | Stuck => Stuck
          end
        | Err => Err | Stuck => Stuck
        end
      end.
  Proof. reflexivity. Qed.
  Lemma abstract_S : forall n (ts : list tok), abstract T (S n) ts =
      match ts with
      | KStar :: r =>
        let (qs, r) := quals_of r in
        match pointer_tail T n r with Ok (d, r) => Ok (DPtr qs d, r) | e => e end
      | _ => direct_abstract T n false ts
      end.
  Proof. reflexivity. Qed.
  Lemma pointer_tail_S : forall n (ts : list tok), pointer_tail T (S n) ts =
      match ts with
      | KStar :: r =>
        let (qs, r) := quals_of r in
        match pointer_tail T n r with Ok (d, r) => Ok (DPtr qs d, r) | e => e end
      | _ => direct_abstract T n true ts
      end.
  Proof. reflexivity. Qed.
  Lemma direct_abstract_S : forall n (empty : bool) (ts : list tok), direct_abstract T (S n) empty ts =
      let base :=
        match ts with
        | KLp :: r =>
          match abstract T n r with
          | Ok (d, KRp :: r) => Ok (d, r)
          | Ok _ => Err
          | NoMatch => Ok (DId None, ts)
          | e => e
          end
        | _ => Ok (DId None, ts)
        end in
      match base with
      | Ok (d, r) =>
        match tail T n true d r with
        | Ok (DId None, r) => if empty then Ok (DId None, r) else NoMatch
        | e => e
        end
      | e => e
      end.
  Proof. reflexivity. Qed.


  Definition same {B} (a b : res B) : Prop := a = Stuck \/ b = a.

  Lemma fuel_all : forall n m, (n <= m)%nat ->
    (forall ts, same (declarator T n ts) (declarator T m ts)) /\
    (forall b d ts, same (tail T n b d ts) (tail T m b d ts)) /\
    (forall b ts, same (function T n b ts) (function T m b ts)) /\
    (forall ts, same (parameters T n ts) (parameters T m ts)) /\
    (forall ps ts, same (more T n ps ts) (more T m ps ts)) /\
    (forall ts, same (parameter T n ts) (parameter T m ts)) /\
    (forall ts, same (abstract T n ts) (abstract T m ts)) /\
    (forall ts, same (pointer_tail T n ts) (pointer_tail T m ts)) /\
    (forall e ts, same (direct_abstract T n e ts) (direct_abstract T m e ts)).
  Proof.
    induction n as [|n IH]; intros m Hm; [repeat apply conj; intros; left; reflexivity|].
    destruct m as [|m]; [lia|].
    destruct (IH m (le_S_n _ _ Hm)) as (I1 & I2 & I3 & I4 & I5 & I6 & I7 & I8 & I9).
    Ltac known H := let K := fresh "K" in pose proof H as K; destruct K as [K|K]; rewrite K; [left; reflexivity|].
    Ltac inner x :=
      match x with
      | match ?y with _ => _ end => inner y
      | _ => destruct x
      end.
    repeat apply conj; intros;
      rewrite ?declarator_S, ?tail_S, ?function_S, ?parameters_S, ?more_S, ?parameter_S, ?abstract_S, ?pointer_tail_S,
        ?direct_abstract_S; cbv zeta;
      repeat first
      [ right; reflexivity
      | left; reflexivity
      | match goal with
        | |- context [declarator T m ?a] => known (I1 a)
        | |- context [tail T m ?b ?d ?a] => known (I2 b d a)
        | |- context [function T m ?b ?a] => known (I3 b a)
        | |- context [parameters T m ?a] => known (I4 a)
        | |- context [more T m ?b ?a] => known (I5 b a)
        | |- context [parameter T m ?a] => known (I6 a)
        | |- context [abstract T m ?a] => known (I7 a)
        | |- context [pointer_tail T m ?a] => known (I8 a)
        | |- context [direct_abstract T m ?b ?a] => known (I9 b a)
        end
      | match goal with |- same (match ?x with _ => _ end) _ => inner x end ].
  Qed.
End Fuel.

Scheme dtor_mut := Induction for dtor Sort Prop
  with ddtor_mut := Induction for ddtor Sort Prop
  with plist_mut := Induction for plist Sort Prop
  with pdecl_mut := Induction for pdecl Sort Prop
  with adtor_mut := Induction for adtor Sort Prop
  with adirect_mut := Induction for adirect Sort Prop
  with abase_mut := Induction for abase Sort Prop.
Combined Scheme grammar_ind from dtor_mut, ddtor_mut, plist_mut, pdecl_mut, adtor_mut, adirect_mut, abase_mut.

(** * What begins each phrase *)

Section Heads.
  Variables (T : nat -> bool) (lim : limits).
  Definition named_head (ts : list tok) : Prop :=
    match ts with KStar :: _ | KLp :: _ | KId _ :: _ => True | _ => False end.
  Definition abstract_head (ts : list tok) : Prop :=
    match ts with KStar :: _ | KLp :: _ | KLb :: _ => True | _ => False end.
  Definition word_head (ts : list tok) : Prop :=
    match ts with KSpec _ _ :: _ | KQual _ :: _ | KStatic :: _ | KId _ :: _ => True | _ => False end.

  Lemma app_head : forall (P : list tok -> Prop) a b, (forall t r s, P (t :: r) -> P (t :: s)) -> a <> [] -> P a -> P (a ++ b).
  Proof. intros P [|t a] b S N H; [congruence|]. exact (S t a _ H). Qed.
  Lemma named_app : forall a b, named_head a -> named_head (a ++ b).
  Proof. intros [|[] a] b H; cbn in *; tauto. Qed.
  Lemma abstract_app : forall a b, abstract_head a -> abstract_head (a ++ b).
  Proof. intros [|[] a] b H; cbn in *; tauto. Qed.
  Lemma word_app : forall a b, word_head a -> word_head (a ++ b).
  Proof. intros [|[] a] b H; cbn in *; tauto. Qed.
  Lemma words_head : forall ws ts, ws <> [] -> word_head (map wtok ws ++ ts).
  Proof. intros [|[] ws] ts N; cbn; congruence || exact I. Qed.

  Lemma heads :
    (forall p ts x L, dtor T lim p ts x L -> named_head ts) /\
    (forall p ts x L, ddtor T lim p ts x L -> named_head ts) /\
    (forall ts P dots, plist T lim ts P dots -> word_head ts) /\
    (forall ts ws L, pdecl T lim ts ws L -> word_head ts) /\
    (forall ts L, adtor T lim ts L -> abstract_head ts) /\
    (forall ts L, adirect T lim ts L -> abstract_head ts) /\
    (forall ts L, abase T lim ts L -> ts = [] \/ abstract_head ts).
  Proof.
    apply grammar_ind; intros; auto using named_app, abstract_app, word_app, words_head; try exact I.
    - rewrite <- (app_nil_r (map wtok ws)). auto using words_head.
    - destruct H as [-> | H]; [exact I|auto using abstract_app].
    - destruct H as [-> | H]; [exact I|auto using abstract_app].
    - destruct H as [-> | H]; [exact I|auto using abstract_app].
  Qed.
End Heads.

(** * Completeness *)

(** with enough fuel *)
Definition ev {B} (f : nat -> res B) (r : res B) : Prop := exists N, forall n, (N <= n)%nat -> f n = r.
Lemma ev_step : forall B (f g : nat -> res B) r, (forall n, f (S n) = g n) -> ev g r -> ev f r.
Proof.
  intros B f g r E [N H]. exists (S N). intros [|n] Hn; [lia|]. rewrite E. apply H. lia.
Qed.
Lemma ev_bind : forall A B (f : nat -> res A) (h : nat -> res A -> res B) a r,
  ev f a -> ev (fun n => h n a) r -> ev (fun n => h n (f n)) r.
Proof.
  intros A B f h a r [N H] [M K]. exists (Nat.max N M). intros n Hn. rewrite H, K by lia. reflexivity.
Qed.
Lemma ev_const : forall B (r : res B), ev (fun _ => r) r.
Proof. intros. exists O. reflexivity. Qed.

Section Complete.
  Variable T : nat -> bool.
  Variable constant : expr -> option Z.
  Let lim := covered T.

  Definition not_qual (ts : list tok) : Prop := match ts with KQual _ :: _ => False | _ => True end.
  Lemma quals_of_app : forall qs ts, not_qual ts -> quals_of (qtoks qs ++ ts) = (qs, ts).
  Proof.
    induction qs as [|q qs IH]; intros ts H; cbn.
    - destruct ts as [|[] ts]; cbn in *; tauto.
    - unfold qtoks in IH. rewrite IH by exact H. reflexivity.
  Qed.
  Lemma named_not_qual : forall ts, named_head ts -> not_qual ts.
  Proof. intros [|[] ts] H; cbn in *; tauto. Qed.
  Lemma abstract_not_qual : forall ts, abstract_head ts -> not_qual ts.
  Proof. intros [|[] ts] H; cbn in *; tauto. Qed.

  Lemma expression_app : forall e ts, expression (etoks e ++ ts) = Ok (e, ts).
  Proof. induction e as [n|e IH]; intros ts; cbn; [reflexivity|]. rewrite IH. reflexivity. Qed.

  Lemma array_app : forall bs b st qs rest, brackets lim bs b st qs -> array (bs ++ KRb :: rest) = Ok ((b, st, qs), rest).
  Proof.
    intros bs b st qs rest B.
    assert (NS : forall qs ts, not_qual ts -> (forall r, ts <> KStatic :: r) ->
      static_of (qtoks qs ++ ts) = (false, qtoks qs ++ ts)).
    { intros [|q qs'] ts _ N; cbn; [|reflexivity]. destruct ts as [|[] ts]; try reflexivity. exfalso. exact (N ts eq_refl). }
    destruct B as [qs Q|qs e Q E|qs e Q E|qs e NE Q E|qs Q]; unfold array; rewrite <- ?app_assoc.
    - rewrite NS by (try exact I; discriminate). rewrite quals_of_app by exact I. reflexivity.
    - destruct e as [k|e]; [|destruct E]. rewrite NS by (try exact I; discriminate). rewrite quals_of_app by exact I.
      reflexivity.
    - destruct e as [k|e]; [|destruct E]. cbn [app static_of]. rewrite <- app_assoc, quals_of_app by exact I. reflexivity.
    - destruct e as [k|e]; [|destruct E]. destruct qs as [|q qs]; [congruence|].
      cbn [app]. cbn [qtoks map app static_of]. change (KQual q :: map KQual qs ++ KStatic :: etoks (ENum k) ++ KRb :: rest)
        with (qtoks (q :: qs) ++ KStatic :: etoks (ENum k) ++ KRb :: rest).
      rewrite quals_of_app by exact I. reflexivity.
    - rewrite NS by (try exact I; discriminate). rewrite quals_of_app by exact I. reflexivity.
  Qed.

  Definition stops (seen : bool) (ts : list tok) : Prop :=
    match ts with
    | KSpec _ _ :: _ | KQual _ :: _ | KStatic :: _ => False
    | KId x :: _ => seen = true \/ T x = false
    | _ => True
    end.
  Lemma specifiers_app : forall ws seen ts, words T seen ws -> stops (seen || existsb type_word ws) ts ->
    specifiers T seen (map wtok ws ++ ts) = (ws, ts).
  Proof.
    induction ws as [|w ws IH]; intros seen ts W S.
    - cbn in *. rewrite orb_false_r in S. destruct ts as [|[] ts]; cbn in *; try tauto.
      destruct S as [-> | ->]; rewrite ?andb_false_r; reflexivity.
    - destruct w as [t w|q|x|]; cbn in W, S |- *.
      + rewrite IH; auto. rewrite <- orb_assoc. exact S.
      + rewrite orb_false_r in W. rewrite IH; auto.
      + destruct W as (-> & Tx & W). rewrite Tx. cbn. rewrite IH; auto.
      + rewrite orb_false_r in W. rewrite IH; auto.
  Qed.
  Lemma named_stops : forall ts, named_head ts -> stops true ts.
  Proof. intros [|[] ts] H; cbn in *; tauto. Qed.
  Lemma abstract_stops : forall ts, abstract_head ts -> stops true ts.
  Proof. intros [|[] ts] H; cbn in *; tauto. Qed.

  Lemma identifiers_app : forall xs r, identifiers (itoks xs ++ KRp :: r) = Ok (map PId xs, KRp :: r).
  Proof.
    induction xs as [|x [|y xs] IH]; intros r; try reflexivity.
    specialize (IH r). change (itoks (x :: y :: xs)) with (KId x :: KComma :: itoks (y :: xs)).
    cbn [app identifiers]. rewrite IH. destruct xs; reflexivity.
  Qed.

  (** After a parameter or an abstract declarator *)
  Definition ends (ts : list tok) : Prop := match ts with KRp :: _ | KComma :: _ => True | _ => False end.
  Definition closed (ts : list tok) : Prop := match ts with KLb :: _ | KLp :: _ => False | _ => True end.
  Lemma ends_closed : forall ts, ends ts -> closed ts.
  Proof. intros [|[] ts] H; cbn in *; tauto. Qed.

  Lemma tail_end : forall b d ts, closed ts -> ev (fun n => tail T n b d ts) (Ok (d, ts)).
  Proof.
    intros b d ts H. exists 1%nat. intros [|n] Hn; [lia|]. rewrite tail_S.
    destruct ts as [|[] ts]; cbn in H; tauto.
  Qed.
  Lemma tail_array : forall a d bs b st qs rest r, brackets lim bs b st qs ->
    ev (fun n => tail T n a (DArr b st qs d) rest) r -> ev (fun n => tail T n a d (KLb :: bs ++ KRb :: rest)) r.
  Proof.
    intros a d bs b st qs rest r B. apply ev_step. intros n. rewrite tail_S, (array_app _ _ _ _ _ B). reflexivity.
  Qed.
  Lemma tail_function : forall a d ts ps dots rest r,
    ev (fun n => function T n a ts) (Ok ((ps, dots), rest)) ->
    ev (fun n => tail T n a (DFun ps dots d) rest) r -> ev (fun n => tail T n a d (KLp :: ts)) r.
  Proof.
    intros a d ts ps dots rest r [N F] [M H]. exists (S (Nat.max N M)). intros [|n] Hn; [lia|].
    rewrite tail_S, F by lia. apply H. lia.
  Qed.
  Lemma function_params : forall a ts ps dots rest, ev (fun n => parameters T n ts) (Ok ((ps, dots), KRp :: rest)) ->
    ev (fun n => function T n a ts) (Ok ((ps, dots), rest)).
  Proof.
    intros a ts ps dots rest [N H]. exists (S N). intros [|n] Hn; [lia|]. rewrite function_S, H by lia. reflexivity.
  Qed.
  Lemma no_parameters : forall ts, fst (specifiers T false ts) = [] -> ev (fun n => parameters T n ts) NoMatch.
  Proof.
    intros ts H. exists 2%nat. intros [|[|n]] Hn; try lia. rewrite parameters_S, parameter_S.
    destruct (specifiers T false ts) as [ws r]. cbn in H. subst ws. reflexivity.
  Qed.
  Lemma function_names : forall xs rest, (forall x, In x xs -> T x = false) ->
    ev (fun n => function T n false (itoks xs ++ KRp :: rest)) (Ok ((map PId xs, false), rest)).
  Proof.
    intros xs rest H.
    destruct (no_parameters (itoks xs ++ KRp :: rest)) as [N K].
    { destruct xs as [|x [|y xs]]; cbn; try reflexivity; rewrite (H x) by (left; reflexivity); reflexivity. }
    exists (S N). intros [|n] Hn; [lia|]. rewrite function_S, K by lia. cbv zeta. rewrite identifiers_app. reflexivity.
  Qed.
  Lemma function_empty : forall rest, ev (fun n => function T n true (KRp :: rest)) (Ok (([], false), rest)).
  Proof.
    intros rest. destruct (no_parameters (KRp :: rest) eq_refl) as [N K].
    exists (S N). intros [|n] Hn; [lia|]. rewrite function_S, K by lia. reflexivity.
  Qed.

  (** An abstract declarator is not taken for a named one *)
  Lemma unnamed_app : forall ts star rest, unnamed star ts = true -> ends rest ->
    if star then ev (fun n => declarator T n (snd (quals_of (ts ++ rest)))) NoMatch
    else ev (fun n => declarator T n (ts ++ rest)) NoMatch.
  Proof.
    assert (STOP : forall t r, match t with KStar | KLp | KId _ => False | _ => True end ->
      ev (fun n => declarator T n (t :: r)) NoMatch).
    { intros t r H. exists 1%nat. intros [|n] Hn; [lia|]. rewrite declarator_S. destruct t; tauto. }
    assert (STAR : forall r, ev (fun n => declarator T n (snd (quals_of r))) NoMatch ->
      ev (fun n => declarator T n (KStar :: r)) NoMatch).
    { intros r [N H]. exists (S N). intros [|n] Hn; [lia|]. rewrite declarator_S.
      destruct (quals_of r) as [qs r']. cbn in H. rewrite H by lia. reflexivity. }
    assert (LP : forall r, ev (fun n => declarator T n r) NoMatch -> ev (fun n => declarator T n (KLp :: r)) NoMatch).
    { intros r [N H]. exists (S N). intros [|n] Hn; [lia|]. rewrite declarator_S, H by lia. reflexivity. }
    induction ts as [|t ts IH]; intros star rest U E.
    - destruct rest as [|[] rest]; cbn in E; try tauto; destruct star; cbn; apply STOP; exact I.
    - destruct t; cbn in U; try discriminate; try (destruct star; cbn; apply STOP; exact I).
      + destruct star.
        * specialize (IH true rest U E). cbn in IH |- *. destruct (quals_of (ts ++ rest)). exact IH.
        * apply STOP. exact I.
      + pose proof (IH false rest U E) as H. cbn in H. destruct star; cbn; apply LP; exact H.
      + pose proof (IH true rest U E) as H. cbn in H. destruct star; cbn; apply STAR; exact H.
  Qed.

  Definition word_or_end (ts : list tok) : Prop := word_head ts \/ exists r, ts = KRp :: r.
  Lemma abstract_none : forall ts, word_or_end ts -> ev (fun n => abstract T n ts) NoMatch.
  Proof.
    intros ts H. exists 3%nat. intros [|[|[|n]]] Hn; try lia. rewrite abstract_S.
    destruct H as [H | [r ->]]; [destruct ts as [|[] ts]; cbn in H; try tauto|]; reflexivity.
  Qed.

  Notation means := (means constant true).
  Definition not_name (d : dcl) : Prop := match d with DId _ => False | _ => True end.

  Definition Q_dtor (ts : list tok) (x : nat) (L : list deriv) : Prop :=
    exists d, means d (Some x) L /\ forall rest, closed rest -> ev (fun n => declarator T n (ts ++ rest)) (Ok (d, rest)).
  Definition Q_ddtor (ts : list tok) (x : nat) (L : list deriv) : Prop :=
    exists d, means d (Some x) L /\
      forall rest r, ev (fun n => tail T n false d rest) r -> ev (fun n => declarator T n (ts ++ rest)) r.
  Definition Q_plist (ts : list tok) (P : list (list word * list deriv)) (dots : bool) : Prop :=
    exists ps, Forall2 (pmeans constant true) ps P /\
      forall rest, ev (fun n => parameters T n (ts ++ KRp :: rest)) (Ok ((ps, dots), KRp :: rest)) /\
        forall acc, ev (fun n => more T n acc (KComma :: ts ++ KRp :: rest)) (Ok ((acc ++ ps, dots), KRp :: rest)).
  Definition Q_pdecl (ts : list tok) (ws : list word) (L : list deriv) : Prop :=
    exists p, pmeans constant true p (ws, L) /\
      forall rest, ends rest -> ev (fun n => parameter T n (ts ++ rest)) (Ok (p, rest)).
  Definition Q_adtor (ts : list tok) (L : list deriv) : Prop :=
    exists d, means d None L /\ not_name d /\ forall rest, ends rest ->
      ev (fun n => abstract T n (ts ++ rest)) (Ok (d, rest)) /\ ev (fun n => pointer_tail T n (ts ++ rest)) (Ok (d, rest)).
  Definition Q_adirect (ts : list tok) (L : list deriv) : Prop :=
    exists d, means d None L /\ not_name d /\ forall rest d' r e, not_name d' ->
      ev (fun n => tail T n true d rest) (Ok (d', r)) -> ev (fun n => direct_abstract T n e (ts ++ rest)) (Ok (d', r)).
  Definition opens (ts : list tok) : Prop :=
    (exists r, ts = KLb :: r) \/ (exists r, ts = KLp :: r /\ word_or_end r).
  Definition Q_abase (ts : list tok) (L : list deriv) : Prop :=
    exists d, means d None L /\ forall rest d' r e, opens rest -> not_name d' ->
      ev (fun n => tail T n true d rest) (Ok (d', r)) -> ev (fun n => direct_abstract T n e (ts ++ rest)) (Ok (d', r)).

  Lemma direct_tail : forall r ts d r' d' e, not_name d' ->
    ev (fun n => match ts with
        | KLp :: r =>
          match abstract T n r with
          | Ok (d, KRp :: r) => Ok (d, r)
          | Ok _ => Err
          | NoMatch => Ok (DId None, ts)
          | e => e
          end
        | _ => Ok (DId None, ts)
        end) (Ok (d, r)) ->
    ev (fun n => tail T n true d r) (Ok (d', r')) -> ev (fun n => direct_abstract T n e ts) (Ok (d', r')).
  Proof.
    intros r ts d r' d' e ND [N H] [M K]. exists (S (Nat.max N M)). intros [|n] Hn; [lia|].
    rewrite direct_abstract_S. cbv zeta. rewrite H by lia. rewrite K by lia.
    destruct d' as [[x|]| | |]; try reflexivity; destruct ND.
  Qed.

  Lemma parameter_by : forall ws ts r, words T false ws -> ws <> [] -> some_type ws -> stops true ts ->
    ev (fun n => match declarator T n ts with
        | Ok (d, r) => Ok (PDecl ws d, r)
        | NoMatch =>
          match abstract T n ts with
          | Ok (d, r) => Ok (PDecl ws d, r)
          | NoMatch => Ok (PDecl ws (DId None), ts)
          | Err => Err | Stuck => Stuck
          end
        | Err => Err | Stuck => Stuck
        end) r -> ev (fun n => parameter T n (map wtok ws ++ ts)) r.
  Proof.
    intros ws ts r W N S ST. apply ev_step. intros n. rewrite parameter_S.
    rewrite specifiers_app; [destruct ws; [congruence|reflexivity]|exact W|]. unfold some_type in S. rewrite S. exact ST.
  Qed.

  Lemma complete :
    (forall p ts x L, dtor T lim p ts x L -> Q_dtor ts x L) /\
    (forall p ts x L, ddtor T lim p ts x L -> Q_ddtor ts x L) /\
    (forall ts P dots, plist T lim ts P dots -> Q_plist ts P dots) /\
    (forall ts ws L, pdecl T lim ts ws L -> Q_pdecl ts ws L) /\
    (forall ts L, adtor T lim ts L -> Q_adtor ts L) /\
    (forall ts L, adirect T lim ts L -> Q_adirect ts L) /\
    (forall ts L, abase T lim ts L -> Q_abase ts L).
  Proof.
    destruct (heads T lim) as (H1 & H2 & H3 & H4 & H5 & H6 & H7).
    apply grammar_ind.
    - (* D_direct *)
      intros p ts x L _ (d & M & E). exists d. split; [exact M|]. intros rest C. apply E, tail_end, C.
    - (* D_pointer *)
      intros p qs ts x L Q D (d & M & E). exists (DPtr qs d). split; [apply m_pointer; auto|].
      intros rest C. destruct (E rest C) as [N K]. exists (S N). intros [|n] Hn; [lia|].
      rewrite declarator_S. cbn [app]. rewrite <- app_assoc, quals_of_app, K by (lia || eauto using named_not_qual, named_app).
      reflexivity.
    - (* N_name *)
      intros p x. exists (DId (Some x)). split; [apply m_name|]. intros rest r H.
      eapply ev_step; [|exact H]. intros n. apply declarator_S.
    - (* N_paren *)
      intros p ts x L D (d & M & E) _. exists d. split; [exact M|]. intros rest r [N H].
      destruct (E (KRp :: rest) I) as [K HK]. exists (S (Nat.max N K)). intros [|n] Hn; [lia|].
      rewrite declarator_S. cbn [app]. rewrite <- app_assoc. cbn [app]. rewrite HK by lia. apply H. lia.
    - (* N_array *)
      intros p ts x L bs b st qs D (d & M & E) B. exists (DArr b st qs d). split.
      { apply m_array; [intros _; destruct B; assumption|exact M]. }
      intros rest r H. rewrite <- app_assoc. cbn [app]. rewrite <- app_assoc. apply E. apply (tail_array _ _ _ _ _ _ _ _ B). exact H.
    - (* N_function *)
      intros p ts x L ps P dots D (d & M & E) PL (prms & F & K). exists (DFun prms dots d).
      split; [apply m_function; auto|].
      intros rest r H. rewrite <- app_assoc. cbn [app]. rewrite <- app_assoc. apply E.
      eapply tail_function; [apply function_params, K|exact H].
    - (* N_names *)
      intros p ts x L xs D (d & M & E) NT. exists (DFun (map PId xs) false d). split; [apply m_names, M|].
      intros rest r H. rewrite <- app_assoc. cbn [app]. rewrite <- app_assoc. apply E.
      eapply tail_function; [apply function_names, NT|exact H].
    - (* L_one *)
      intros ts ws L PD (p & M & E). exists [p]. split; [auto|]. intros rest. destruct (E (KRp :: rest) I) as [N K]. split.
      + exists (S (S N)). intros [|[|n]] Hn; try lia. rewrite parameters_S, K by lia. reflexivity.
      + intros acc. exists (S (S N)). intros [|[|n]] Hn; try lia. rewrite more_S, K by lia. reflexivity.
    - (* L_dots *)
      intros ts ws L PD (p & M & E). exists [p]. split; [auto|]. intros rest.
      destruct (E (KComma :: KDots :: KRp :: rest) I) as [N K].
      assert (DOTS : forall n acc, more T (S (S n)) acc (KComma :: KDots :: KRp :: rest) = Ok ((acc, true), KRp :: rest)).
      { intros n acc. rewrite more_S, parameter_S. reflexivity. }
      rewrite <- app_assoc. cbn [app]. split.
      + exists (S (S (S N))). intros [|[|[|n]]] Hn; try lia. rewrite parameters_S, K by lia. apply DOTS.
      + intros acc. exists (S (S (S N))). intros [|[|[|n]]] Hn; try lia. rewrite more_S, K by lia. apply DOTS.
    - (* L_more *)
      intros ts ws L us P dots PD (p & M & E) PL (ps & F & K). exists (p :: ps). split; [auto|]. intros rest.
      destruct (K rest) as [_ K2]. destruct (E (KComma :: us ++ KRp :: rest) I) as [N1 E1].
      rewrite <- app_assoc. cbn [app]. split.
      + destruct (K2 [p]) as [N2 E2]. exists (S (Nat.max N1 N2)). intros [|n] Hn; [lia|].
        rewrite parameters_S, E1, E2 by lia. reflexivity.
      + intros acc. destruct (K2 (acc ++ [p])) as [N2 E2]. exists (S (Nat.max N1 N2)). intros [|n] Hn; [lia|].
        rewrite more_S, E1, E2 by lia. rewrite <- app_assoc. reflexivity.
    - (* P_named *)
      intros ws ts x L N W S D (d & M & E). exists (PDecl ws d). split; [econstructor; exact M|].
      intros rest R. rewrite <- app_assoc. apply parameter_by; auto.
      { eauto using named_stops, named_app. }
      destruct (E rest (ends_closed _ R)) as [K HK]. exists K. intros n Hn. rewrite HK by lia. reflexivity.
    - (* P_abstract *)
      intros ws ts L N W S A (d & M & ND & E) U. exists (PDecl ws d). split; [econstructor; exact M|].
      intros rest R. rewrite <- app_assoc. apply parameter_by; auto.
      { eauto using abstract_stops, abstract_app. }
      destruct (unnamed_app ts false rest U R) as [K1 HK1]. destruct (E rest R) as [[K2 HK2] _].
      exists (Nat.max K1 K2). intros n Hn. rewrite HK1, HK2 by lia. reflexivity.
    - (* P_none *)
      intros ws N W S. exists (PDecl ws (DId None)). split; [econstructor; apply m_name|].
      intros rest R. apply parameter_by; auto.
      { destruct rest as [|[] rest]; cbn in R; tauto. }
      destruct (unnamed_app [] false rest eq_refl R) as [K1 HK1].
      assert (AN : ev (fun n => abstract T n rest) NoMatch).
      { exists 3%nat. intros [|[|[|n]]] Hn; try lia. rewrite abstract_S.
        destruct rest as [|[] rest]; cbn in R; try tauto; reflexivity. }
      destruct AN as [K2 HK2]. exists (Nat.max K1 K2). intros n Hn. cbn [app] in HK1. rewrite HK1, HK2 by lia. reflexivity.
    - (* A_pointer *)
      intros qs Q. exists (DPtr qs (DId None)). split; [|split; [exact I|]].
      { apply (m_pointer constant true (DId None) None []); [auto|apply m_name]. }
      intros rest R.
      assert (NQ : not_qual rest) by (destruct rest as [|[] rest]; cbn in R |- *; tauto).
      assert (PT : forall n, pointer_tail T (S (S (S n))) rest = Ok (DId None, rest)).
      { intros n. rewrite pointer_tail_S. destruct rest as [|[] rest]; cbn in R; try tauto; reflexivity. }
      split; exists 4%nat; intros [|[|[|[|n]]]] Hn; try lia.
      + rewrite abstract_S. cbn [app]. rewrite quals_of_app, PT by exact NQ. reflexivity.
      + rewrite pointer_tail_S. cbn [app]. rewrite quals_of_app, PT by exact NQ. reflexivity.
    - (* A_pointer_more *)
      intros qs ts L Q A (d & M & ND & E). exists (DPtr qs d). split; [apply m_pointer; auto|split; [exact I|]].
      intros rest R. destruct (E rest R) as [_ [N K]].
      assert (NQ : not_qual (ts ++ rest)) by eauto using abstract_not_qual, abstract_app.
      split; exists (S N); intros [|n] Hn; try lia.
      + rewrite abstract_S. cbn [app]. rewrite <- app_assoc, quals_of_app, K by (lia || exact NQ). reflexivity.
      + rewrite pointer_tail_S. cbn [app]. rewrite <- app_assoc, quals_of_app, K by (lia || exact NQ). reflexivity.
    - (* A_direct *)
      intros ts L A (d & M & ND & E). exists d. split; [exact M|split; [exact ND|]]. intros rest R.
      pose proof (H6 _ _ A) as HD.
      assert (TD : forall e, ev (fun n => direct_abstract T n e (ts ++ rest)) (Ok (d, rest))).
      { intros e. apply E; auto. apply tail_end, ends_closed, R. }
      destruct ts as [|t ts]; [destruct HD|].
      assert (NS : t <> KStar \/ t = KStar) by (destruct t; auto; left; discriminate).
      destruct NS as [NS | ->].
      + split; eapply ev_step; try (apply TD); intros n; [rewrite abstract_S|rewrite pointer_tail_S];
          destruct t; try reflexivity; congruence.
      + exfalso. clear - A H7. remember (KStar :: ts) as us eqn:EQ. revert EQ.
        assert (NO : forall us L, adirect T lim us L -> forall r, us <> KStar :: r).
        { clear. destruct (grammar_ind T lim (fun _ _ _ _ _ => True) (fun _ _ _ _ _ => True) (fun _ _ _ _ => True)
            (fun _ _ _ _ => True) (fun _ _ _ => True) (fun us _ _ => forall r, us <> KStar :: r)
            (fun us _ _ => forall r, us <> KStar :: r)) as (_ & _ & _ & _ & _ & G & _); auto; try discriminate.
          - intros [|t ts] L bs b st qs _ H _ r; cbn; [discriminate|]. intros E. injection E as -> _. exact (H ts eq_refl).
          - intros [|t ts] L ps P dots _ H _ _ r; cbn; [discriminate|]. intros E. injection E as -> _. exact (H ts eq_refl).
          - intros [|t ts] L _ H r; cbn; [discriminate|]. intros E. injection E as -> _. exact (H ts eq_refl). }
        exact (NO us L A ts).
    - (* T_paren *)
      intros ts L A (d & M & ND & E). exists d. split; [exact M|split; [exact ND|]].
      intros rest d' r e ND' H. eapply (direct_tail rest); [exact ND'| |exact H].
      destruct (E (KRp :: rest) I) as [[N K] _]. exists N. intros n Hn. cbn [app]. rewrite <- app_assoc. cbn [app].
      rewrite K by exact Hn. reflexivity.
    - (* T_array *)
      intros ts L bs b st qs A (d & M & E) B. exists (DArr b st qs d). split; [|split; [exact I|]].
      { apply m_array; [intros _; destruct B; assumption|exact M]. }
      intros rest d' r e ND' H. rewrite <- app_assoc. cbn [app]. rewrite <- app_assoc. apply E; auto.
      { left. eexists. reflexivity. }
      apply (tail_array _ _ _ _ _ _ _ _ B). exact H.
    - (* T_function *)
      intros ts L ps P dots A (d & M & E) PL (prms & F & K). exists (DFun prms dots d).
      split; [apply m_function; auto|split; [exact I|]].
      intros rest d' r e ND' H. rewrite <- app_assoc. cbn [app]. rewrite <- app_assoc. apply E; auto.
      { right. eexists. split; [reflexivity|]. left. eauto using word_app. }
      eapply tail_function; [apply function_params, K|exact H].
    - (* T_empty *)
      intros ts L A (d & M & E). exists (DFun [] false d).
      split; [exact (m_names constant true d None L [] M)|split; [exact I|]].
      intros rest d' r e ND' H. rewrite <- app_assoc. cbn [app]. apply E; auto.
      { right. eexists. split; [reflexivity|]. right. eexists. reflexivity. }
      eapply tail_function; [apply function_empty|exact H].
    - (* Z_none *)
      exists (DId None). split; [apply m_name|]. intros rest d' r e O ND H.
      eapply (direct_tail rest); [exact ND| |exact H].
      destruct O as [[s ->] | [s [-> W]]]; [exists 0%nat; reflexivity|]. cbn [app].
      destruct (abstract_none s W) as [N K]. exists N. intros n Hn. rewrite K by exact Hn. reflexivity.
    - (* Z_some *)
      intros ts L A (d & M & ND & E). exists d. split; [exact M|]. intros rest d' r e _ ND' H. apply E; auto.
  Qed.
End Complete.

(** * Soundness *)

Section Sound.
  Variable T : nat -> bool.
  Variable constant : expr -> option Z.
  Let lim := accepted T.
  Notation means := (means constant false).

  Lemma quals_of_sound : forall ts qs r, quals_of ts = (qs, r) -> ts = qtoks qs ++ r.
  Proof.
    induction ts as [|t ts IH]; intros qs r H; cbn in H; [injection H as <- <-; reflexivity|].
    destruct t; try (injection H as <- <-; reflexivity).
    destruct (quals_of ts) as [qs' r']. injection H as <- <-. cbn. f_equal. apply IH. reflexivity.
  Qed.
  Lemma expression_sound : forall ts e r, expression ts = Ok (e, r) -> ts = etoks e ++ r.
  Proof.
    induction ts as [|t ts IH]; intros e r H; cbn in H; [discriminate|].
    destruct t; try discriminate.
    - destruct (expression ts) as [[e' r']| | |] eqn:E; try discriminate. injection H as <- <-.
      cbn. f_equal. apply IH. reflexivity.
    - injection H as <- <-. reflexivity.
  Qed.
  Lemma static_of_sound : forall ts b r, static_of ts = (b, r) -> ts = (if b then [KStatic] else []) ++ r.
  Proof. intros [|[] ts] b r H; cbn in H; injection H as <- <-; reflexivity. Qed.
  Lemma close_sound : forall A (a b : A) ts r, close a ts = Ok (b, r) -> a = b /\ ts = KRb :: r.
  Proof. intros A a b [|[] ts] r H; cbn in H; try discriminate. injection H as <- <-. auto. Qed.

  Lemma array_sound : forall ts b st qs rest, array ts = Ok ((b, st, qs), rest) ->
    exists bs, ts = bs ++ KRb :: rest /\ brackets lim bs b st qs.
  Proof.
    intros ts b st qs rest H. unfold array in H.
    destruct (static_of ts) as [s1 t1] eqn:E1. destruct (quals_of t1) as [q t2] eqn:E2.
    destruct (static_of t2) as [s2 t3] eqn:E3.
    pose proof (static_of_sound _ _ _ E1) as F1. pose proof (quals_of_sound _ _ _ E2) as F2.
    pose proof (static_of_sound _ _ _ E3) as F3.
    assert (NE : s1 = false -> s2 = true -> q <> []).
    { intros -> -> ->. cbn in F1, F2, F3. subst t1 t2 ts. cbn in E1. discriminate. }
    destruct (s1 && s2) eqn:ES; [discriminate|].
    assert (REST : forall e r, (s1 || s2) = st -> Bounded e = b -> q = qs -> t3 = etoks e ++ r -> r = KRb :: rest ->
      exists bs, ts = bs ++ KRb :: rest /\ brackets lim bs b st qs).
    { intros e r Hs <- <- -> ->. subst t2 t1 ts. destruct s1, s2; cbn in ES, Hs; try discriminate; subst st.
      - eexists. split; [|apply B_static; exact I]. cbn. rewrite <- app_assoc. reflexivity.
      - eexists. split; [|apply B_static_after; [auto|exact I|exact I]]. cbn. rewrite <- app_assoc. reflexivity.
      - eexists. split; [|apply B_length; exact I]. cbn. rewrite <- app_assoc. reflexivity. }
    assert (EXP : match expression t3 with
      | Ok (e, r) => close (Bounded e, s1 || s2, q) r
      | NoMatch => if s1 || s2 then Err else close (Unbounded, s1 || s2, q) t3
      | Err => Err
      | Stuck => Stuck
      end = Ok ((b, st, qs), rest) -> exists bs, ts = bs ++ KRb :: rest /\ brackets lim bs b st qs).
    { intros H'. destruct (expression t3) as [[e r]| | |] eqn:EE; try discriminate.
      - apply close_sound in H'. destruct H' as [H' ->]. injection H' as <- <- <-.
        apply expression_sound in EE. eapply REST; eauto.
      - destruct (s1 || s2) eqn:EO; [discriminate|]. apply close_sound in H'. destruct H' as [H' ->].
        injection H' as <- <- <-. apply orb_false_iff in EO. destruct EO as [-> ->]. cbn in F1, F3. subst t2 t1 ts.
        eexists. split; [|apply B_none; exact I]. reflexivity. }
    destruct t3 as [|[] t3]; try (apply EXP; exact H).
    destruct (s1 || s2) eqn:EO; [discriminate|]. apply close_sound in H. destruct H as [H ->].
    injection H as <- <- <-. apply orb_false_iff in EO. destruct EO as [-> ->]. cbn in F1, F3. subst t2 t1 ts.
    eexists. split; [|apply B_star; exact I]. rewrite <- app_assoc. reflexivity.
  Qed.

  Lemma identifiers_sound : forall n ts ps r, (List.length ts <= n)%nat -> identifiers ts = Ok (ps, r) ->
    exists xs, ps = map PId xs /\ ts = itoks xs ++ r /\ (forall x s, ts = KId x :: s -> xs <> []).
  Proof.
    induction n as [|n IH]; intros ts ps r Hn H.
    - destruct ts; [|cbn in Hn; lia]. cbn in H. injection H as <- <-. exists []. repeat split. discriminate.
    - destruct ts as [|t ts]; [cbn in H; injection H as <- <-; exists []; repeat split; discriminate|].
      destruct t; try (cbn in H; injection H as <- <-; exists []; repeat split; discriminate).
      assert (ONE : identifiers (KId x :: ts) = Ok ([PId x], ts) ->
        exists xs, ps = map PId xs /\ KId x :: ts = itoks xs ++ r /\ (forall y s, KId x :: ts = KId y :: s -> xs <> [])).
      { intros E. rewrite E in H. injection H as <- <-. exists [x]. repeat split. discriminate. }
      destruct ts as [|t ts]; [auto|]. destruct t; auto.
      cbn [identifiers] in H. destruct ts as [|t ts]; [discriminate|]. destruct t; try discriminate.
      match type of H with match ?a with _ => _ end = _ => destruct a as [[ps' r']| | |] eqn:E end; try discriminate.
      injection H as <- <-. apply IH in E; [|cbn in Hn |- *; lia]. destruct E as (xs & -> & E & NE).
      destruct xs as [|y xs]; [exfalso; exact (NE _ _ eq_refl eq_refl)|].
      exists (x :: y :: xs). split; [reflexivity|]. split; [rewrite E; reflexivity|discriminate].
  Qed.

  Lemma specifiers_sound : forall ts seen ws r, specifiers T seen ts = (ws, r) -> ts = map wtok ws ++ r /\ words T seen ws.
  Proof.
    induction ts as [|t ts IH]; intros seen ws r H; cbn in H; [injection H as <- <-; cbn; auto|].
    destruct t; try (injection H as <- <-; cbn; auto).
    - destruct (specifiers T (seen || type) ts) as [ws' r'] eqn:E. injection H as <- <-.
      apply IH in E. destruct E as [-> E]. cbn. auto.
    - destruct (specifiers T seen ts) as [ws' r'] eqn:E. injection H as <- <-.
      apply IH in E. destruct E as [-> E]. cbn. rewrite orb_false_r. auto.
    - destruct (negb seen && T x) eqn:B; [|injection H as <- <-; cbn; auto].
      apply andb_true_iff in B. destruct B as [B Tx]. apply negb_true_iff in B. subst seen.
      destruct (specifiers T true ts) as [ws' r'] eqn:E. injection H as <- <-.
      apply IH in E. destruct E as [-> E]. cbn. auto.
    - destruct (specifiers T seen ts) as [ws' r'] eqn:E. injection H as <- <-.
      apply IH in E. destruct E as [-> E]. cbn. rewrite orb_false_r. auto.
  Qed.

  Definition R_declarator (n : nat) : Prop := forall ts d rest, declarator T n ts = Ok (d, rest) ->
    exists pre x L, ts = pre ++ rest /\ (forall p, dtor T lim p pre x L) /\ means d (Some x) L.
  Definition R_tail (n : nat) : Prop := forall a d ts d' rest, tail T n a d ts = Ok (d', rest) ->
    exists post L', ts = post ++ rest /\ (forall x L, means d x L -> means d' x (L ++ L')) /\
      (a = false -> forall p pre x L, ddtor T lim p pre x L -> ddtor T lim p (pre ++ post) x (L ++ L')) /\
      (a = true -> forall pre L, abase T lim pre L -> abase T lim (pre ++ post) (L ++ L')) /\
      (d' = d /\ post = [] \/ not_name d' /\ post <> []).
  Definition R_function (n : nat) : Prop := forall a ts ps dots rest, function T n a ts = Ok ((ps, dots), rest) ->
    (exists pre P, ts = pre ++ KRp :: rest /\ plist T lim pre P dots /\ Forall2 (pmeans constant false) ps P) \/
    (exists xs, dots = false /\ ps = map PId xs /\ ts = itoks xs ++ KRp :: rest /\ (a = true -> xs = [])).
  Definition R_parameters (n : nat) : Prop := forall ts ps dots rest, parameters T n ts = Ok ((ps, dots), rest) ->
    exists pre P, ts = pre ++ rest /\ plist T lim pre P dots /\ Forall2 (pmeans constant false) ps P.
  Definition R_more (n : nat) : Prop := forall acc ts ps dots rest, more T n acc ts = Ok ((ps, dots), rest) ->
    exists post P ps', ts = post ++ rest /\ ps = acc ++ ps' /\ Forall2 (pmeans constant false) ps' P /\
      (post = [] /\ P = [] /\ dots = false \/ post = [KComma; KDots] /\ P = [] /\ dots = true \/
       exists us, post = KComma :: us /\ plist T lim us P dots).
  Definition R_parameter (n : nat) : Prop := forall ts p rest, parameter T n ts = Ok (p, rest) ->
    exists pre ws L, ts = pre ++ rest /\ pdecl T lim pre ws L /\ pmeans constant false p (ws, L).
  Definition is_abstract (ts : list tok) (d : dcl) (rest : list tok) : Prop :=
    exists pre L, ts = pre ++ rest /\ adtor T lim pre L /\ means d None L /\ not_name d.
  Definition R_abstract (n : nat) : Prop := forall ts d rest, abstract T n ts = Ok (d, rest) -> is_abstract ts d rest.
  Definition R_pointer_tail (n : nat) : Prop := forall ts d rest, pointer_tail T n ts = Ok (d, rest) ->
    d = DId None /\ ts = rest \/ is_abstract ts d rest.
  Definition R_direct (n : nat) : Prop := forall e ts d rest, direct_abstract T n e ts = Ok (d, rest) ->
    e = true /\ d = DId None /\ ts = rest \/
    exists pre L, ts = pre ++ rest /\ adirect T lim pre L /\ means d None L /\ not_name d.

  Lemma pointer_case : forall n, R_pointer_tail n -> forall r qs r' d rest,
    quals_of r = (qs, r') -> match pointer_tail T n r' with Ok (d, r) => Ok (DPtr qs d, r) | e => e end = Ok (d, rest) ->
    is_abstract (KStar :: r) d rest.
  Proof.
    intros n PT r qs r' d rest Q H. apply quals_of_sound in Q. subst r.
    destruct (pointer_tail T n r') as [[d1 r1]| | |] eqn:E; try discriminate. injection H as <- <-.
    destruct (PT _ _ _ E) as [(-> & ->) | (pre & L & -> & A & M & ND)].
    - exists (KStar :: qtoks qs), [Pointer qs]. repeat split.
      + apply A_pointer. exact I.
      + apply (m_pointer constant false (DId None) None []); [discriminate|apply m_name].
    - exists (KStar :: qtoks qs ++ pre), (L ++ [Pointer qs]). repeat split.
      + cbn. rewrite <- app_assoc. reflexivity.
      + apply A_pointer_more; [exact I|exact A].
      + apply m_pointer; [discriminate|exact M].
  Qed.
  Lemma direct_case : forall n e ts d rest, R_direct n -> direct_abstract T n e ts = Ok (d, rest) ->
    e = true /\ d = DId None /\ ts = rest \/ is_abstract ts d rest.
  Proof.
    intros n e ts d rest R H. destruct (R _ _ _ _ H) as [H' | (pre & L & -> & A & M & ND)]; [auto|].
    right. exists pre, L. repeat split; auto. apply A_direct, A.
  Qed.

  Lemma sound : forall n, R_declarator n /\ R_tail n /\ R_function n /\ R_parameters n /\ R_more n /\ R_parameter n /\
    R_abstract n /\ R_pointer_tail n /\ R_direct n.
  Proof.
    induction n as [|n (ID & IT & IF & IP & IM & I1 & IA & IB & IC)].
    { repeat apply conj; repeat intro; discriminate. }
    repeat apply conj.
    - intros ts d rest H. rewrite declarator_S in H. destruct ts as [|t ts]; [discriminate|].
      destruct t; try discriminate.
      + (* name *)
        destruct (IT _ _ _ _ _ H) as (post & L' & -> & M & D & _ & _).
        exists (KId x :: post), x, L'. repeat split.
        * intros p. apply D_direct. apply (D eq_refl p [KId x] x []). apply N_name.
        * apply (M (Some x) []). apply m_name.
      + (* parenthesis *)
        destruct (declarator T n ts) as [[d1 r1]| | |] eqn:E; try discriminate.
        destruct r1 as [|[] r1]; try discriminate.
        destruct (ID _ _ _ E) as (pre & x & L & -> & DD & MM).
        destruct (IT _ _ _ _ _ H) as (post & L' & -> & M & D & _ & _).
        exists ((KLp :: pre ++ [KRp]) ++ post), x, (L ++ L'). repeat split.
        * cbn. rewrite <- !app_assoc. reflexivity.
        * intros p. apply D_direct. apply (D eq_refl). apply N_paren; [auto|intros; exact I].
        * apply M, MM.
      + (* pointer *)
        destruct (quals_of ts) as [qs r] eqn:Q. apply quals_of_sound in Q. subst ts.
        destruct (declarator T n r) as [[d1 r1]| | |] eqn:E; try discriminate. injection H as <- <-.
        destruct (ID _ _ _ E) as (pre & x & L & -> & DD & MM).
        exists (KStar :: qtoks qs ++ pre), x, (L ++ [Pointer qs]). repeat split.
        * cbn. rewrite <- app_assoc. reflexivity.
        * intros p. apply D_pointer; [exact I|auto].
        * apply m_pointer; [discriminate|exact MM].
    - intros a d ts d' rest H. rewrite tail_S in H.
      assert (STOP : Ok (d, ts) = Ok (d', rest) -> exists post L', ts = post ++ rest /\ (forall x L, means d x L -> means d' x (L ++ L')) /\
        (a = false -> forall p pre x L, ddtor T lim p pre x L -> ddtor T lim p (pre ++ post) x (L ++ L')) /\
        (a = true -> forall pre L, abase T lim pre L -> abase T lim (pre ++ post) (L ++ L')) /\
        (d' = d /\ post = [] \/ not_name d' /\ post <> [])).
      { intros E. injection E as <- <-. exists [], []. repeat split; auto; intros; rewrite !app_nil_r; auto. }
      destruct ts as [|t ts]; [auto|]. destruct t; auto; clear STOP.
      + (* function *)
        destruct (function T n a ts) as [[[ps dots] r]| | |] eqn:E; try discriminate.
        destruct (IT _ _ _ _ _ H) as (post & L' & -> & M & D & A & NN).
        assert (ND : not_name d') by (destruct NN as [[-> _] | [NN _]]; [exact I|exact NN]).
        destruct (IF _ _ _ _ _ E) as [(pre & P & -> & PL & F) | (xs & -> & -> & -> & HX)].
        * exists (KLp :: pre ++ KRp :: post), ([Function P dots] ++ L'). repeat split.
          -- cbn. rewrite <- app_assoc. reflexivity.
          -- intros x L HM. rewrite app_assoc. apply M. apply m_function; auto.
          -- intros HA p q x L HD.
             replace (q ++ KLp :: pre ++ KRp :: post) with ((q ++ KLp :: pre ++ [KRp]) ++ post)
               by (rewrite <- !app_assoc; cbn; rewrite <- app_assoc; reflexivity).
             rewrite app_assoc. apply (D HA). apply N_function; auto.
          -- intros HA q L HD.
             replace (q ++ KLp :: pre ++ KRp :: post) with ((q ++ KLp :: pre ++ [KRp]) ++ post)
               by (rewrite <- !app_assoc; cbn; rewrite <- app_assoc; reflexivity).
             rewrite app_assoc. apply (A HA). apply Z_some, T_function; auto.
          -- right. split; [exact ND|discriminate].
        * exists (KLp :: itoks xs ++ KRp :: post), ([Unprototyped (List.length xs)] ++ L'). repeat split.
          -- cbn. rewrite <- app_assoc. reflexivity.
          -- intros x L HM. rewrite app_assoc. apply M. apply m_names; auto.
          -- intros HA p q x L HD.
             replace (q ++ KLp :: itoks xs ++ KRp :: post) with ((q ++ KLp :: itoks xs ++ [KRp]) ++ post)
               by (rewrite <- !app_assoc; cbn; rewrite <- app_assoc; reflexivity).
             rewrite app_assoc. apply (D HA). apply N_names; [auto|exact I].
          -- intros HA q L HD. rewrite (HX HA). cbn [itoks app List.length].
             replace (q ++ KLp :: KRp :: post) with ((q ++ [KLp; KRp]) ++ post) by (rewrite <- app_assoc; reflexivity).
             change (Unprototyped 0 :: L') with ([Unprototyped 0] ++ L').
             rewrite app_assoc. apply (A HA). apply Z_some, T_empty; auto.
          -- right. split; [exact ND|discriminate].
      + (* array *)
        destruct (array ts) as [[[[b st] qs] r]| | |] eqn:E; try discriminate.
        destruct (IT _ _ _ _ _ H) as (post & L' & -> & M & D & A & NN).
        assert (ND : not_name d') by (destruct NN as [[-> _] | [NN _]]; [exact I|exact NN]).
        destruct (array_sound _ _ _ _ _ E) as (bs & -> & B).
        assert (CAT : forall q, q ++ KLb :: bs ++ KRb :: post = (q ++ KLb :: bs ++ [KRb]) ++ post)
          by (intros q; rewrite <- !app_assoc; cbn; rewrite <- app_assoc; reflexivity).
        exists (KLb :: bs ++ KRb :: post), ([Array b st qs] ++ L'). repeat split.
        * cbn. rewrite <- app_assoc. reflexivity.
        * intros x L HM. rewrite app_assoc. apply M. apply m_array; [discriminate|auto].
        * intros HA p q x L HD. rewrite CAT, app_assoc. apply (D HA). apply N_array; auto.
        * intros HA q L HD. rewrite CAT, app_assoc. apply (A HA). apply Z_some, T_array; auto.
        * right. split; [exact ND|discriminate].
    - intros a ts ps dots rest H. rewrite function_S in H. cbv zeta in H.
      destruct (parameters T n ts) as [[[ps1 dots1] r]| | |] eqn:E; try discriminate.
      + destruct r as [|[] r]; try discriminate. injection H as <- <- <-.
        destruct (IP _ _ _ _ E) as (pre & P & -> & PL & F). left. exists pre, P. auto.
      + right. destruct a.
        * destruct ts as [|[] ts]; try discriminate. injection H as <- <- <-. exists []. auto.
        * destruct (identifiers ts) as [[ps1 r]| | |] eqn:EI; try discriminate.
          destruct r as [|[] r]; try discriminate. injection H as <- <- <-.
          destruct (identifiers_sound _ _ _ _ (Nat.le_refl _) EI) as (xs & -> & -> & _). exists xs. repeat split. discriminate.
    - intros ts ps dots rest H. rewrite parameters_S in H.
      destruct (parameter T n ts) as [[p r]| | |] eqn:E; try discriminate.
      destruct (I1 _ _ _ E) as (pre & ws & L & -> & PD & PM).
      destruct (IM _ _ _ _ _ H) as (post & P & ps' & -> & -> & F & C).
      exists (pre ++ post), ((ws, L) :: P). split; [rewrite app_assoc; reflexivity|].
      split; [|cbn; auto].
      destruct C as [(-> & -> & ->) | [(-> & -> & ->) | (us & -> & PL)]].
      + rewrite app_nil_r. apply L_one, PD.
      + apply L_dots, PD.
      + apply L_more; auto.
    - intros acc ts ps dots rest H. rewrite more_S in H.
      assert (STOP : Ok ((acc, false), ts) = Ok ((ps, dots), rest) -> exists post P ps',
        ts = post ++ rest /\ ps = acc ++ ps' /\ Forall2 (pmeans constant false) ps' P /\
        (post = [] /\ P = [] /\ dots = false \/ post = [KComma; KDots] /\ P = [] /\ dots = true \/
         exists us, post = KComma :: us /\ plist T lim us P dots)).
      { intros E. injection E as <- <- <-. exists [], [], []. rewrite app_nil_r. auto 10. }
      destruct ts as [|t ts]; [auto|]. destruct t; auto; clear STOP.
      destruct (parameter T n ts) as [[p r]| | |] eqn:E; try discriminate.
      + destruct (I1 _ _ _ E) as (pre & ws & L & -> & PD & PM).
        destruct (IM _ _ _ _ _ H) as (post & P & ps' & -> & -> & F & C).
        exists (KComma :: pre ++ post), ((ws, L) :: P), (p :: ps'). split; [cbn; rewrite app_assoc; reflexivity|].
        split; [rewrite <- app_assoc; reflexivity|]. split; [auto|]. right. right. exists (pre ++ post). split; [reflexivity|].
        destruct C as [(-> & -> & ->) | [(-> & -> & ->) | (us & -> & PL)]].
        * rewrite app_nil_r. apply L_one, PD.
        * apply L_dots, PD.
        * apply L_more; auto.
      + destruct ts as [|[] ts]; try discriminate. injection H as <- <- <-.
        exists [KComma; KDots], [], []. rewrite app_nil_r. auto 10.
    - intros ts p rest H. rewrite parameter_S in H.
      destruct (specifiers T false ts) as [ws r] eqn:E. destruct (specifiers_sound _ _ _ _ E) as [-> W].
      assert (NW : ws = [] \/ ws <> []) by (destruct ws; [left|right]; congruence).
      destruct NW as [-> | NE]; [discriminate|].
      assert (H' : match declarator T n r with
        | Ok (d, r) => Ok (PDecl ws d, r)
        | NoMatch =>
          match abstract T n r with
          | Ok (d, r) => Ok (PDecl ws d, r)
          | NoMatch => Ok (PDecl ws (DId None), r)
          | Err => Err | Stuck => Stuck
          end
        | Err => Err | Stuck => Stuck
        end = Ok (p, rest)) by (destruct ws; [congruence|exact H]).
      clear H. destruct (declarator T n r) as [[d1 r1]| | |] eqn:ED; try discriminate.
      + injection H' as <- <-. destruct (ID _ _ _ ED) as (pre & x & L & -> & DD & M).
        exists (map wtok ws ++ pre), ws, L. repeat split.
        * rewrite app_assoc. reflexivity.
        * eapply P_named; auto. exact I.
        * econstructor. exact M.
      + destruct (abstract T n r) as [[d1 r1]| | |] eqn:EA; try discriminate; injection H' as <- <-.
        * destruct (IA _ _ _ EA) as (pre & L & -> & A & M & _).
          exists (map wtok ws ++ pre), ws, L. repeat split.
          -- rewrite app_assoc. reflexivity.
          -- apply P_abstract; auto; exact I.
          -- econstructor. exact M.
        * exists (map wtok ws), ws, []. repeat split; [apply P_none; auto; exact I|]. econstructor. apply m_name.
    - intros ts d rest H. rewrite abstract_S in H.
      assert (DIR : direct_abstract T n false ts = Ok (d, rest) -> is_abstract ts d rest).
      { intros E. destruct (direct_case _ _ _ _ _ IC E) as [(F & _) | A]; [discriminate|exact A]. }
      destruct ts as [|t ts]; [auto|]. destruct t; auto.
      destruct (quals_of ts) as [qs r] eqn:Q. exact (pointer_case n IB _ _ _ _ _ Q H).
    - intros ts d rest H. rewrite pointer_tail_S in H.
      assert (DIR : direct_abstract T n true ts = Ok (d, rest) -> d = DId None /\ ts = rest \/ is_abstract ts d rest).
      { intros E. destruct (direct_case _ _ _ _ _ IC E) as [(_ & F) | A]; auto. }
      destruct ts as [|t ts]; [auto|]. destruct t; auto.
      destruct (quals_of ts) as [qs r] eqn:Q. right. exact (pointer_case n IB _ _ _ _ _ Q H).
    - intros e ts d rest H. rewrite direct_abstract_S in H. cbv zeta in H.
      match type of H with match ?a with _ => _ end = _ => destruct a as [[d1 r1]| | |] eqn:EB end; try discriminate.
      destruct (tail T n true d1 r1) as [[d2 r2]| | |] eqn:ET; try discriminate.
      destruct (IT _ _ _ _ _ ET) as (post & L' & -> & M & _ & A & NN). specialize (A eq_refl).
      assert (BASE : (d1 = DId None /\ ts = post ++ r2) \/
        (exists pre L, ts = pre ++ post ++ r2 /\ adirect T lim pre L /\ means d1 None L /\ not_name d1)).
      { destruct ts as [|t ts]; [injection EB as <- <-; auto|].
        destruct t; try (injection EB as <- <-; auto).
        destruct (abstract T n ts) as [[d3 r3]| | |] eqn:EA; try discriminate.
        - destruct r3 as [|[] r3]; try discriminate. injection EB as <- <-.
          destruct (IA _ _ _ EA) as (pre & L & -> & A' & M' & ND). right.
          exists (KLp :: pre ++ [KRp]), L. repeat split; auto; [|apply T_paren, A'].
          cbn. rewrite <- app_assoc. reflexivity.
        - injection EB as <- <-. auto. }
      destruct BASE as [(-> & ->) | (pre & L & -> & AD & M1 & ND1)].
      + destruct NN as [(-> & ->) | (ND & NE)].
        * destruct e; [|discriminate]. injection H as <- <-. left. auto.
        * right. destruct d2 as [[y|]| | |]; try (destruct ND; fail); injection H as <- <-.
          all: exists post, L'; repeat split; [|apply (M None []); apply m_name].
          all: pose proof (A [] [] (Z_none T lim)) as AB; cbn in AB; inversion AB; subst; [congruence|assumption].
      + right. assert (ND : not_name d2) by (destruct NN as [(-> & _) | (ND & _)]; assumption).
        destruct d2 as [[y|]| | |]; try (destruct ND; fail); injection H as <- <-.
        all: exists (pre ++ post), (L ++ L'); repeat split; [rewrite app_assoc; reflexivity| |apply M, M1].
        all: pose proof (A pre L (Z_some T lim _ _ AD)) as AB; inversion AB; subst; [|assumption].
        all: destruct (heads T lim) as (_ & _ & _ & _ & _ & H6 & _); apply H6 in AD.
        all: destruct pre; [destruct AD|discriminate].
  Qed.
End Sound.
