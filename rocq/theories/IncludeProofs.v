(** Proofs about the search for included files and their insertion. *)
From Coq Require Import ZArith List Bool String Lia.
From Verif Require Import LexModel CondModel PropCond IncludeModel IncludeSpec.
Import ListNotations.
Open Scope Z_scope.

(** * dirname *)
Lemma strip_other : forall c r, c <> slash -> strip (c :: r) = c :: r.
Proof. intros c r H. cbn [strip]. now rewrite (proj2 (Z.eqb_neq _ _) H). Qed.

Lemma component_app : forall n r, ~ In slash n -> component (n ++ r) = component r.
Proof.
  induction n as [|c n IH]; intros r H; [reflexivity|]. cbn [app component].
  rewrite (proj2 (Z.eqb_neq c slash)) by (intros E; apply H; now left). apply IH. intros E. apply H. now right.
Qed.

Lemma rev_name : forall n, ~ In slash n -> n <> [] -> exists c r, rev n = c :: r /\ c <> slash /\ ~ In slash (c :: r).
Proof.
  intros n H E. destruct (rev n) as [|c r] eqn:R.
  - exfalso. apply E. rewrite <- (rev_involutive n), R. reflexivity.
  - exists c, r. split; [reflexivity|]. assert (~ In slash (c :: r)) by (rewrite <- R; intros I; apply in_rev in I; auto).
    split; [|assumption]. intros ->. apply H0. now left.
Qed.

Lemma dirname_directory : forall p d, directory p d -> dirname p = d.
Proof.
  intros p d H. destruct H as [n I E|n I E|d c n I E C]; destruct (rev_name n I E) as (k & r & R & K & N).
  - unfold dirname. destruct n as [|a n]; [congruence|]. rewrite R, (strip_other k r K).
    replace (component (k :: r)) with (component ((k :: r) ++ [])) by now rewrite app_nil_r.
    rewrite component_app by assumption. reflexivity.
  - unfold dirname. replace (rev (slash :: n)) with ((k :: r) ++ [slash]) by (cbn [rev]; now rewrite R).
    cbn [app]. rewrite (strip_other k) by assumption.
    change (k :: r ++ [slash]) with ((k :: r) ++ [slash]). rewrite component_app by assumption. reflexivity.
  - unfold dirname. replace (rev ((d ++ [c]) ++ slash :: n)) with ((k :: r) ++ slash :: c :: rev d).
    2:{ rewrite rev_app_distr. cbn [rev]. rewrite rev_app_distr, R. cbn [rev app]. now rewrite <- app_assoc. }
    cbn [app]. rewrite (strip_other k) by assumption.
    change (k :: r ++ slash :: c :: rev d) with ((k :: r) ++ slash :: c :: rev d). rewrite component_app by assumption.
    cbn [component]. rewrite Z.eqb_refl. cbn [strip]. rewrite Z.eqb_refl, (proj2 (Z.eqb_neq c slash)) by assumption.
    destruct ((d ++ [c]) ++ slash :: n) eqn:Z0; [destruct d; discriminate|].
    cbn [rev]. now rewrite rev_involutive.
Qed.

(** * The search *)
Definition look (F : fs) (q : path) : opened := try_open_file F None q.
Fixpoint search (F : fs) (l : list path) : opened :=
  match l with [] => NotFound | q :: r => match look F q with NotFound => search F r | x => x end end.

Lemma try_root : forall F r f, try_open_file F (Some r) f = look F (r ++ slash :: f).
Proof. reflexivity. Qed.

Lemma search_app : forall F a b, search F (a ++ b) = match search F a with NotFound => search F b | x => x end.
Proof.
  intros F a b. induction a as [|q a IH]; [reflexivity|]. cbn [app search]. destruct (look F q); [reflexivity| |reflexivity].
  exact IH.
Qed.

Lemma roots_search : forall F roots f, try_roots F roots f = search F (map (fun r => r ++ slash :: f) roots).
Proof.
  induction roots as [|r roots IH]; intros f; [reflexivity|]. cbn [try_roots map search]. rewrite try_root.
  destruct (look F (r ++ slash :: f)); [reflexivity| |reflexivity]. apply IH.
Qed.

Lemma open_search : forall F roots f system current dir, of_file current dir ->
  open_source F roots f system current = search F (places roots f system dir).
Proof.
  intros F roots f system current dir D. unfold open_source, places.
  assert (R : match try_roots F roots f with NotFound => match try_open_file F None f with NotFound => NotFound | x => x end
                                        | x => x end = search F (map (fun r => r ++ slash :: f) roots ++ [f])).
  { rewrite search_app, roots_search. cbn [search]. reflexivity. }
  cbv zeta. rewrite R. clear R.
  destruct current as [cur|], dir as [d|]; cbn [of_file] in D; try contradiction; [|reflexivity].
  rewrite (dirname_directory _ _ D), try_root. destruct system; reflexivity.
Qed.

Lemma look_absent : forall F q, absent F q <-> look F q = NotFound.
Proof.
  intros F q. unfold look, try_open_file, open_file, absent. destruct (real F q) as [p| |].
  - destruct (readable F p) eqn:R.
    + split; [intros [H|(p' & H & H')]; [discriminate H|injection H as <-; congruence]|destruct (content F p); discriminate].
    + split; [reflexivity|]. intros _. right. now exists p.
  - split; [reflexivity|now left].
  - split; [intros [H|(p' & H & _)]; discriminate H|discriminate].
Qed.

Lemma look_file : forall F q p c, names_file F q p c <-> look F q = Opened p c.
Proof.
  intros F q p c. unfold look, try_open_file, open_file, names_file. split.
  - intros (-> & -> & ->). reflexivity.
  - destruct (real F q) as [p'| |]; [|discriminate|discriminate].
    destruct (readable F p') eqn:R; [|discriminate]. destruct (content F p') eqn:C; [|discriminate].
    intros H. injection H as <- <-. auto.
Qed.

Lemma search_found : forall F l p c, search F l = Opened p c <-> found F l p c.
Proof.
  intros F l p c. split.
  - induction l as [|q l IH]; [discriminate|]. cbn [search]. destruct (look F q) as [p' c'| |] eqn:L; intros H.
    + injection H as <- <-. exists [], q, l. split; [reflexivity|]. split; [constructor|]. now apply look_file.
    + destruct (IH H) as (b & q' & a & -> & B & N). exists (q :: b), q', a. split; [reflexivity|].
      split; [|assumption]. constructor; [now apply look_absent|assumption].
    + discriminate H.
  - intros (b & q & a & -> & B & N). rewrite search_app.
    assert (search F b = NotFound) as ->.
    { induction B as [|x b A B IH]; [reflexivity|]. cbn [search]. now rewrite (proj1 (look_absent F x) A). }
    cbn [search]. now rewrite (proj1 (look_file F q p c) N).
Qed.

Lemma search_none : forall F l, search F l = NotFound <-> Forall (absent F) l.
Proof.
  intros F l. split.
  - induction l as [|q l IH]; [constructor|]. cbn [search]. destruct (look F q) eqn:L; try discriminate.
    intros H. constructor; [now apply look_absent|auto].
  - induction 1 as [|x b A B IH]; [reflexivity|]. cbn [search]. now rewrite (proj1 (look_absent F x) A).
Qed.

(** * Insertion *)
Scheme expands_i := Induction for expands Sort Prop
with expands1_i := Induction for expands1 Sort Prop
with expandst_i := Induction for expandst Sort Prop.
Combined Scheme expands_mut from expands_i, expands1_i, expandst_i.

Lemma wf_join : forall a b, wf a -> wf b -> wf (join a b).
Proof. fix IH 1. intros [|i s] b A B; [exact B|]. destruct A as [A1 A2]. split; [exact A1|]. now apply IH. Qed.

Section Runs.
Variables M Out : Type.
Variable txt : M -> list Z -> Out.
Variable eval : M -> list Z -> option bool.
Variable defd : M -> list Z -> option bool.
Variable line_ok : M -> list Z -> bool.
Variable define : M -> dtype -> list Z -> option (M * list Out).
Variable tokens : M -> list Z -> option (list itoken).
Variable F : fs.
Variable roots : list path.
Notation preprocess := (preprocess M Out txt eval defd line_ok define tokens F roots).
Notation expands := (expands M tokens F roots).
Notation expands1 := (expands1 M tokens F roots).
Notation expandst := (expandst M tokens F roots).
Notation flat := (flat M Out define).

Definition step (n : nat) (cur : option path) : M -> dtype -> list Z -> option (M * list Out) :=
  fun m d ops =>
       match d with
       | DInclude => match n with
                     | O => None
                     | S n' => process_include M Out tokens F roots cur (fun p c m => preprocess n' (Some p) c m) m ops
                     end
       | _ => define m d ops
       end.
Notation meanS st := (mean M Out txt eval defd st line_ok).
Notation mean1S st := (mean1 M Out txt eval defd st line_ok).
Notation meantS st := (meant M Out txt eval defd st line_ok).

(** Scope and output, without the log *)
Definition obs (r : res M Out) : option (M * list Out) :=
  match r with Some (m, o, _) => Some (m, o) | None => None end.
Definition seq (r : option (M * list Out)) (f : M -> option (M * list Out)) : option (M * list Out) :=
  match r with None => None | Some (m, o) => match f m with None => None | Some (m', o') => Some (m', o ++ o') end end.

Lemma obs_andthen : forall a f, obs (andthen M Out a f) = seq (obs a) (fun m => obs (f m)).
Proof. intros [[[m o] l]|] f; [|reflexivity]. cbn. destruct (f m) as [[[m' o'] l']|]; reflexivity. Qed.

Lemma seq_some : forall a f m o, seq a f = Some (m, o) -> exists m1 o1 o2, a = Some (m1, o1) /\ f m1 = Some (m, o2) /\ o = o1 ++ o2.
Proof.
  intros [[m1 o1]|] f m o H; [|discriminate H]. cbn in H. destruct (f m1) as [[m' o']|] eqn:E; [|discriminate H].
  injection H as <- <-. exists m1, o1, o'. auto.
Qed.

Lemma obs_ask : forall q d m x yes no, obs (ask M Out q d m x yes no) =
  match q m x with None => None | Some b => obs (if b then yes else no) end.
Proof.
  intros. unfold ask. destruct (q m x) as [b|]; [|reflexivity]. rewrite obs_andthen. cbn [obs seq].
  destruct b; [destruct yes as [[[? ?] ?]|]|destruct no as [[[? ?] ?]|]]; reflexivity.
Qed.

Lemma obs_join : forall st a b m, obs (meanS st (join a b) m) = seq (obs (meanS st a m)) (fun m => obs (meanS st b m)).
Proof.
  intros st. fix IH 1. intros [|i s] b m.
  - cbn [join mean]. unfold skipping. cbn. destruct (meanS st b m) as [[[? ?] ?]|]; reflexivity.
  - cbn [join]. rewrite !mean_cons, !obs_andthen.
    destruct (obs (mean1S st i m)) as [[m1 o1]|]; [|reflexivity]. cbn [seq]. rewrite IH.
    destruct (obs (meanS st s m1)) as [[m2 o2]|]; [|reflexivity]. cbn [seq].
    destruct (obs (meanS st b m2)) as [[m3 o3]|]; [|reflexivity]. now rewrite app_assoc.
Qed.

Lemma preprocess_mean : forall n cur s m, wf s ->
  preprocess n cur (spell s) m = match meanS (step n cur) s m with None => Fail | Some r => Done r end.
Proof.
  intros n cur s m W. destruct n; cbn [IncludeModel.preprocess]; now rewrite c10_conditional_inclusion_partial.
Qed.

Lemma designated : forall ops f system, designates M tokens ops f system -> forall m,
  exists l, tokens m ops = Some l /\ include_path l = Some (f, system).
Proof. intros ops f system [H|[-> H]] m; rewrite H; eexists; split; reflexivity. Qed.

(** An #include line of a found file acts as the file. *)
Lemma step_include : forall n cur dir x f system p c file m,
  designates M tokens (operands x) f system -> of_file cur dir -> found F (places roots f system dir) p c ->
  c = spell file -> wf file ->
  obs (mean1S (step (S n) cur) (Include x) m) = obs (meanS (step n (Some p)) file m).
Proof.
  intros n cur dir x f system p c file m D O Fo -> W. cbn [mean1]. unfold doit, step at 1, process_include.
  destruct (designated _ _ _ D m) as (l & -> & ->).
  rewrite (open_search _ _ _ _ _ _ O), (proj2 (search_found _ _ _ _) Fo), preprocess_mean by assumption.
  destruct (meanS (step n (Some p)) file m) as [[[m' o] lg]|]; reflexivity.
Qed.

Lemma flat_forward : forall all,
  (forall cur s s', expands all cur s s' -> forall m r, obs (meanS flat s' m) = Some r ->
     exists n, forall k, (n <= k)%nat -> obs (meanS (step k cur) s m) = Some r)
  /\ (forall cur i i', expands1 all cur i i' -> forall m r, obs (mean1S flat i' m) = Some r ->
     exists n, forall k, (n <= k)%nat -> obs (mean1S (step k cur) i m) = Some r)
  /\ (forall cur t t', expandst all cur t t' -> forall m r, obs (meantS flat t' m) = Some r ->
     exists n, forall k, (n <= k)%nat -> obs (meantS (step k cur) t m) = Some r).
Proof.
  intros all. apply expands_mut.
  - intros cur m r H. exists 0%nat. intros k _. exact H.
  - intros cur i i' s s' _ IH1 _ IH2 m [m' o] H. rewrite mean_cons, obs_andthen in H.
    destruct (seq_some _ _ _ _ H) as (m1 & o1 & o2 & A & B & ->).
    destruct (IH1 _ _ A) as [n1 N1]. destruct (IH2 _ _ B) as [n2 N2]. exists (Nat.max n1 n2). intros k K.
    rewrite mean_cons, obs_andthen, N1 by lia. cbn [seq]. now rewrite N2 by lia.
  - intros cur dir x f system p c file file' s s' D O Fo E W _ IH1 _ IH2 m [m' o] H. rewrite obs_join in H.
    destruct (seq_some _ _ _ _ H) as (m1 & o1 & o2 & A & B & ->).
    destruct (IH1 _ _ A) as [n1 N1]. destruct (IH2 _ _ B) as [n2 N2]. exists (S (Nat.max n1 n2)).
    intros [|k] K; [lia|]. rewrite mean_cons, obs_andthen, (step_include k cur dir x f system p c file) by assumption.
    rewrite N1 by lia. cbn [seq]. now rewrite N2 by lia.
  - intros cur l m r H. exists 0%nat. intros k _. exact H.
  - intros cur x m r H. exists 0%nat. intros k _. exact H.
  - intros cur x w m r H. exists 0%nat. intros k _. exact H.
  - intros cur x m r H. exists 0%nat. intros k _. exact H.
  - intros cur x m r H. exists 0%nat. intros k _. exact H.
  - intros cur x m r H. exists 0%nat. intros k _. exact H.
  - intros cur x m r H. exists 0%nat. intros k _. exact H.
  - intros cur x _ m r H. discriminate H.
  - intros cur x g g' t t' _ IH1 _ IH2 m r H. rewrite mean_if, obs_ask in H.
    destruct (eval m (operands x)) as [[]|] eqn:E; [destruct (IH1 _ _ H) as [n N]|destruct (IH2 _ _ H) as [n N]|discriminate H];
      exists n; intros k K; rewrite mean_if, obs_ask, E; auto.
  - intros cur x g g' t t' _ IH1 _ IH2 m r H. rewrite mean_ifdef, obs_ask in H.
    destruct (defd m (operands x)) as [[]|] eqn:E; [destruct (IH1 _ _ H) as [n N]|destruct (IH2 _ _ H) as [n N]|discriminate H];
      exists n; intros k K; rewrite mean_ifdef, obs_ask, E; auto.
  - intros cur x g g' t t' _ IH1 _ IH2 m r H. rewrite mean_ifndef, obs_ask in H.
    destruct (defd m (operands x)) as [[]|] eqn:E; [destruct (IH2 _ _ H) as [n N]|destruct (IH1 _ _ H) as [n N]|discriminate H];
      exists n; intros k K; rewrite mean_ifndef, obs_ask, E; auto.
  - intros cur x g g' t t' _ IH1 _ IH2 m r H. rewrite mean_elif, obs_ask in H.
    destruct (eval m (operands x)) as [[]|] eqn:E; [destruct (IH1 _ _ H) as [n N]|destruct (IH2 _ _ H) as [n N]|discriminate H];
      exists n; intros k K; rewrite mean_elif, obs_ask, E; auto.
  - intros cur x g g' y _ IH m r H. rewrite mean_else in H. destruct (IH _ _ H) as [n N]. exists n. intros k K.
    rewrite mean_else. auto.
  - intros cur y m r H. exists 0%nat. intros k _. exact H.
Qed.

Lemma flat_backward :
  (forall cur s s', expands true cur s s' -> forall k m r, obs (meanS (step k cur) s m) = Some r ->
     obs (meanS flat s' m) = Some r)
  /\ (forall cur i i', expands1 true cur i i' -> forall k m r, obs (mean1S (step k cur) i m) = Some r ->
     obs (mean1S flat i' m) = Some r)
  /\ (forall cur t t', expandst true cur t t' -> forall k m r, obs (meantS (step k cur) t m) = Some r ->
     obs (meantS flat t' m) = Some r).
Proof.
  apply expands_mut.
  - intros cur k m r H. exact H.
  - intros cur i i' s s' _ IH1 _ IH2 k m [m' o] H. rewrite mean_cons, obs_andthen in H.
    destruct (seq_some _ _ _ _ H) as (m1 & o1 & o2 & A & B & ->).
    rewrite mean_cons, obs_andthen, (IH1 _ _ _ A). cbn [seq]. now rewrite (IH2 _ _ _ B).
  - intros cur dir x f system p c file file' s s' D O Fo E W _ IH1 _ IH2 k m [m' o] H. rewrite mean_cons, obs_andthen in H.
    destruct (seq_some _ _ _ _ H) as (m1 & o1 & o2 & A & B & ->).
    rewrite obs_join. destruct k as [|k]; [discriminate A|].
    rewrite (step_include k cur dir x f system p c file) in A by assumption.
    rewrite (IH1 _ _ _ A). cbn [seq]. now rewrite (IH2 _ _ _ B).
  - intros cur l k m r H. exact H.
  - intros cur x k m r H. exact H.
  - intros cur x w k m r H. exact H.
  - intros cur x k m r H. exact H.
  - intros cur x k m r H. exact H.
  - intros cur x k m r H. exact H.
  - intros cur x k m r H. exact H.
  - intros cur x H. discriminate H.
  - intros cur x g g' t t' _ IH1 _ IH2 k m r H. rewrite mean_if, obs_ask in *.
    destruct (eval m (operands x)) as [[]|] eqn:E; eauto.
  - intros cur x g g' t t' _ IH1 _ IH2 k m r H. rewrite mean_ifdef, obs_ask in *.
    destruct (defd m (operands x)) as [[]|] eqn:E; eauto.
  - intros cur x g g' t t' _ IH1 _ IH2 k m r H. rewrite mean_ifndef, obs_ask in *.
    destruct (defd m (operands x)) as [[]|] eqn:E; eauto.
  - intros cur x g g' t t' _ IH1 _ IH2 k m r H. rewrite mean_elif, obs_ask in *.
    destruct (eval m (operands x)) as [[]|] eqn:E; eauto.
  - intros cur x g g' y _ IH k m r H. rewrite mean_else in *. eauto.
  - intros cur y k m r H. exact H.
Qed.

Lemma expands_wf : forall all,
  (forall cur s s', expands all cur s s' -> wf s -> wf s')
  /\ (forall cur i i', expands1 all cur i i' -> wf1 i -> wf1 i')
  /\ (forall cur t t', expandst all cur t t' -> wft t -> wft t').
Proof.
  intros all. apply expands_mut; try (intros; assumption).
  - intros cur i i' s s' _ IH1 _ IH2 [A B]. split; auto.
  - intros cur dir x f system p c file file' s s' _ _ _ _ W _ IH1 _ IH2 [_ B]. apply wf_join; auto.
  - intros cur x g g' t t' _ IH1 _ IH2 (A & B & C). repeat split; try apply A; auto.
  - intros cur x g g' t t' _ IH1 _ IH2 (A & B & C). repeat split; try apply A; auto.
  - intros cur x g g' t t' _ IH1 _ IH2 (A & B & C). repeat split; try apply A; auto.
  - intros cur x g g' t t' _ IH1 _ IH2 (A & B & C & D). repeat split; try apply A; auto.
  - intros cur x g g' y _ IH (A & B & C & D). repeat split; try apply A; try apply D; auto.
Qed.
End Runs.
