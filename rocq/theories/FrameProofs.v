(** The vector built from the scopes, read back as a tree. *)
From Coq Require Import ZArith Lia Bool List.
From Verif Require Import IrType LayoutModel FrameModel.
Import ListNotations.
Open Scope nat_scope.

(** ** The traversal in closed form *)

Lemma scope_ind2 : forall Q : scope -> Prop,
  (forall autos blocks, (forall c, In c blocks -> Q c) -> Q (Scope autos blocks)) -> forall s, Q s.
Proof.
  intros Q H. fix IH 1. intros [autos blocks]. apply H.
  induction blocks as [|c bs IHb]; [intros x []|intros x [E|I]].
  - rewrite <- E. apply IH.
  - now apply IHb.
Qed.

Definition aentry (c : tcode) (n : nat) : entry := {| tc := c; talign := 0%Z; tparam := Z.of_nat n |}.

Fixpoint gen (s : scope) : irtype :=
  match s with
  | Scope autos blocks =>
    if empty s then []
    else if forallb empty blocks then aentry CStruct (length autos) :: flats autos
    else aentry CStruct (S (length autos)) :: flats autos ++ aentry CUnion (length blocks) :: flat_map gen blocks
  end.

(** Positions of consecutive forests *)
Fixpoint var_positions (b : nat) (autos : list tree) : list nat :=
  match autos with [] => [] | T :: autos => b :: var_positions (b + tsize T) autos end.

Fixpoint lay_of (s : scope) (b : nat) : option slayout :=
  match s with
  | Scope autos blocks =>
    if empty s then None
    else
      let u := b + 1 + fsize autos in
      Some (SL b (var_positions (b + 1) autos)
        (if forallb empty blocks then None
         else Some (u, (fix go bs p := match bs with [] => [] | c :: bs => lay_of c p :: go bs (p + length (gen c)) end) blocks (u + 1))))
  end.

Fixpoint lays_of (bs : list scope) (p : nat) : list (option slayout) :=
  match bs with [] => [] | c :: bs => lay_of c p :: lays_of bs (p + length (gen c)) end.

Lemma lay_of_eq : forall autos blocks b,
  lay_of (Scope autos blocks) b =
  if empty (Scope autos blocks) then None
  else Some (SL b (var_positions (b + 1) autos)
    (if forallb empty blocks then None
     else Some (b + 1 + fsize autos, lays_of blocks (b + 1 + fsize autos + 1)))).
Proof. reflexivity. Qed.

Lemma bump_app : forall t e r,
  bump (t ++ e :: r) (length t) = t ++ {| tc := tc e; talign := talign e; tparam := tparam e + 1 |} :: r.
Proof. induction t as [|x t IH]; intros; cbn; [reflexivity|]. now rewrite IH. Qed.

Lemma bump_entry : forall t c n r, bump (t ++ aentry c n :: r) (length t) = t ++ aentry c (S n) :: r.
Proof. intros. rewrite bump_app. unfold aentry. cbn [tc talign tparam]. do 3 f_equal. lia. Qed.

Lemma traverse_objects_ok : forall autos pre c n r,
  traverse_objects (length pre) autos (pre ++ aentry c n :: r) =
  (pre ++ aentry c (n + length autos) :: r ++ flats autos, var_positions (length pre + 1 + length r) autos).
Proof.
  induction autos as [|T autos IH]; intros pre c n r; cbn [traverse_objects].
  - cbn [length var_positions]. unfold flats. cbn. now rewrite Nat.add_0_r, app_nil_r.
  - rewrite bump_entry. cbn [var_positions length].
    replace ((pre ++ aentry c (S n) :: r) ++ flatten T) with (pre ++ aentry c (S n) :: (r ++ flatten T))
      by now rewrite <- app_assoc.
    rewrite IH. rewrite flats_cons, <- app_assoc. f_equal.
    + do 2 f_equal. f_equal. lia.
    + f_equal; [rewrite app_length; cbn; lia|]. f_equal. rewrite app_length. unfold tsize. lia.
Qed.

Lemma empty_gen : forall s, empty s = true -> gen s = [].
Proof. intros [a b] H. cbn [gen]. now rewrite H. Qed.

Lemma empty_autos : forall autos blocks, empty (Scope autos blocks) = true -> autos = [] /\ forallb empty blocks = true.
Proof. intros [|T autos] blocks H; [now split|discriminate]. Qed.

Lemma nonempty_cases : forall autos blocks, empty (Scope autos blocks) = false -> forallb empty blocks = true -> autos <> [].
Proof. intros [|T autos] blocks H B; [|discriminate]. cbn in H. congruence. Qed.

Lemma not_empty_scope : forall autos blocks, forallb empty blocks = false -> empty (Scope autos blocks) = false.
Proof. intros [|T autos] blocks H; [exact H|reflexivity]. Qed.

Lemma traverse_ok : forall s t, traverse s t = (t ++ gen s, lay_of s (length t)).
Proof.
  induction s as [autos blocks IH] using scope_ind2. intros t.
  cbn [traverse]. rewrite lay_of_eq.
  assert (K : forall bs u t0, (forall c, In c bs -> forall t, traverse c t = (t ++ gen c, lay_of c (length t))) ->
     forall pre n r, t0 = pre ++ aentry CUnion n :: r -> u = length pre ->
     (fix children (bs : list scope) (t : irtype) :=
           match bs with
           | [] => (t, [])
           | c :: bs =>
             let (t, l) := traverse c (bump t u) in
             let (t, ls) := children bs t in
             (t, l :: ls)
           end) bs t0 = (pre ++ aentry CUnion (n + length bs) :: r ++ flat_map gen bs, lays_of bs (length t0))).
  { induction bs as [|c bs IHb]; intros u t0 H pre n r E U.
    - cbn [lays_of flat_map length]. now rewrite Nat.add_0_r, app_nil_r, E.
    - rewrite E, U, bump_entry. rewrite H by now left.
      erewrite IHb; [|intros; apply H; now right|rewrite <- app_assoc; reflexivity|reflexivity].
      cbn [flat_map lays_of length]. rewrite <- app_assoc.
      replace (S n + length bs) with (n + S (length bs)) by lia. f_equal. f_equal.
      + f_equal. rewrite ?app_length; cbn; rewrite ?app_length; lia.
      + f_equal. repeat (rewrite app_length; cbn [length]). lia. }
  assert (K2 : forall bs t0, (forall c, In c bs -> forall t, traverse c t = (t ++ gen c, lay_of c (length t))) ->
     forallb empty bs = true ->
     (fix children (bs : list scope) (t : irtype) :=
           match bs with [] => t | c :: bs => children bs (fst (traverse c t)) end) bs t0 = t0).
  { induction bs as [|c bs IHb]; intros t0 H E; [reflexivity|]. cbn in E. apply andb_true_iff in E as [E1 E2].
    rewrite H by now left. cbn [fst]. rewrite (empty_gen c E1), app_nil_r. apply IHb; auto. intros; apply H; now right. }
  destruct (empty (Scope autos blocks)) eqn:Em.
  - destruct (empty_autos _ _ Em) as (-> & B). cbn [traverse_objects]. rewrite B. cbn [negb].
    rewrite K2 by assumption. rewrite (empty_gen _ Em), app_nil_r. reflexivity.
  - change [{| tc := CStruct; talign := 0%Z; tparam := 0%Z |}] with [aentry CStruct 0].
    rewrite traverse_objects_ok. rewrite Nat.add_0_l, app_nil_l. cbn [length]. rewrite Nat.add_0_r.
    destruct (forallb empty blocks) eqn:B; cbn [negb].
    + rewrite K2 by assumption. cbn [gen]. rewrite Em, B. reflexivity.
    + rewrite bump_entry. change {| tc := CUnion; talign := 0%Z; tparam := 0%Z |} with (aentry CUnion 0).
      erewrite K with (r := []); [|exact IH| reflexivity|].
      * cbn [gen]. rewrite Em, B. cbn [app]. rewrite Nat.add_0_l. f_equal.
        { rewrite <- app_assoc. reflexivity. }
        { do 4 f_equal.
          - rewrite !app_length. cbn. unfold fsize. lia.
          - f_equal. rewrite !app_length. cbn. rewrite ?app_length. cbn. unfold fsize. lia. }
      * rewrite !app_length. reflexivity.
Qed.

Lemma local_type_eq : forall s, local_type s = gen s.
Proof. intros. unfold local_type. now rewrite traverse_ok. Qed.
Lemma local_layout_eq : forall s, local_layout s = lay_of s 0.
Proof. intros. unfold local_layout. now rewrite traverse_ok. Qed.

(** ** Vectors whose last aggregates announce more members than there are *)

Section REPS.
  Variable t : irtype.

  Definition ematch (b : nat) (e : entry) (T : tree) : Prop :=
    tc e = tc (root T) /\ talign e = talign (root T) /\
    (tparam e = tparam (root T) \/
     (exists un al ms, T = TAgg un al ms /\ (Z.of_nat (length ms) <= tparam e)%Z /\ b + tsize T = length t)).

  Inductive reps : nat -> list tree -> Prop :=
  | reps_nil : forall b, b <= length t -> reps b []
  | reps_cons : forall b T ts e, nth_error t b = Some e -> ematch b e T -> wf T = true ->
      reps (b + 1) (kids T) -> reps (b + tsize T) ts -> reps b (T :: ts).

  Lemma reps_bound : forall n ts b, fsize ts <= n -> reps b ts -> b + fsize ts <= length t.
  Proof.
    induction n as [|n IH]; intros ts b Hn R; inversion R as [b' B|b' T ts' e E M W Rk Rt]; subst.
    - rewrite fsize_nil; lia.
    - rewrite fsize_cons in *. pose proof (tsize_pos T). lia.
    - rewrite fsize_nil; lia.
    - rewrite fsize_cons in *. pose proof (tsize_pos T). apply IH in Rt; lia.
  Qed.

  Lemma at_pos_reps : forall n ts b, fsize ts <= n -> (forall T, In T ts -> wf T = true) -> at_pos t b ts -> reps b ts.
  Proof.
    induction n as [|n IH]; intros ts b Hn W A; (destruct ts as [|T ts]; [constructor; apply at_pos_bound in A; rewrite fsize_nil in A; lia|]).
    - rewrite fsize_cons in Hn. pose proof (tsize_pos T). lia.
    - rewrite fsize_cons, tsize_eq in Hn. apply at_pos_cons in A as [A1 A2].
      assert (WT : wf T = true) by (apply W; now left).
      apply reps_cons with (e := root T).
      + now apply at_pos_root.
      + repeat split. now left.
      + exact WT.
      + apply IH; [lia| |now apply at_pos_kids]. intros k I. eapply wf_kids; eauto.
      + apply IH; [lia| |exact A2]. intros; apply W; now right.
  Qed.

  Definition enough (n b : nat) (ts : list tree) : Prop := n = length ts \/ (length ts <= n /\ b + fsize ts = length t).

  Lemma reps_count : forall b e T, ematch b e T -> wf T = true -> is_su e = true ->
    enough (pcount e) (b + 1) (kids T) /\ (0 < tparam e)%Z.
  Proof.
    intros b e T (E1 & E2 & E3) W Hs. unfold is_su in Hs. rewrite E1 in Hs.
    destruct T as [c a p|un a ms|a k x].
    - cbn in W, Hs. destruct c; discriminate.
    - cbn in W. apply andb_true_iff in W as [W _]. apply negb_true_iff, Nat.eqb_neq in W.
      unfold enough, pcount. cbn [kids root tparam] in *. destruct E3 as [E3|(un' & al' & ms' & E & L & B)].
      + rewrite E3. split; [left; lia|lia].
      + injection E as <- <- <-. split; [|lia]. right. split; [lia|]. rewrite <- B, tsize_eq. cbn [kids]. lia.
    - discriminate.
  Qed.

  Lemma nth_past : forall b, length t <= b -> nth_error t b = None.
  Proof. intros. now apply nth_error_None. Qed.

  Lemma node_len_reps : forall T ts b fuel, reps b (T :: ts) -> length t < fuel + b -> node_len_fuel fuel t b = tsize T.
  Proof.
    induction T as [T IH] using tree_ind2. intros ts b fuel R F.
    pose proof (reps_bound _ _ _ (le_n _) R) as B. rewrite fsize_cons in B. pose proof (tsize_pos T).
    inversion R as [|b' T' ts' e E M W Rk Rt]; subst.
    destruct fuel as [|fuel]; [lia|]. cbn [node_len_fuel]. rewrite E. rewrite tsize_eq.
    destruct M as (M1 & M2 & M3). destruct T as [c a p|un a ms|a k x].
    - rewrite M1. cbn [root tc kids]. cbn in W. destruct c; try discriminate W; reflexivity.
    - assert (G : forall ks k, (forall y, In y ks -> In y ms) -> reps (b + k) ks -> 1 <= k ->
        Nat.iter (length ks) (fun len => len + node_len_fuel fuel t (b + len)) k = k + fsize ks).
      { induction ks as [|y ks IHk]; intros k Hin Hr Hk.
        - cbn. lia.
        - change (length (y :: ks)) with (S (length ks)). rewrite iter_S.
          rewrite (IH y (Hin y (or_introl eq_refl)) ks (b + k) fuel Hr) by lia.
          inversion Hr; subst.
          rewrite IHk; [rewrite fsize_cons; lia|intros; apply Hin; now right|now rewrite Nat.add_assoc|lia]. }
      assert (P : forall extra k, length t <= b + k ->
        Nat.iter extra (fun len => len + node_len_fuel fuel t (b + len)) k = k).
      { induction extra as [|x IHx]; intros k Hk; [reflexivity|]. rewrite iter_S.
        replace (node_len_fuel fuel t (b + k)) with 0; [rewrite Nat.add_0_r; now apply IHx|].
        destruct fuel; [reflexivity|]. cbn [node_len_fuel]. now rewrite nth_past. }
      specialize (G ms 1 (fun x h => h) Rk (le_n 1)).
      assert (SU : is_su e = true) by (unfold is_su; rewrite M1; cbn; destruct un; reflexivity).
      destruct (reps_count b e (TAgg un a ms) (conj M1 (conj M2 M3)) W SU) as [[C|[C1 C2]] _]; cbn [kids] in *.
      + rewrite C. rewrite M1. cbn [root tc]. destruct un; cbn [tc]; exact G.
      + replace (pcount e) with ((pcount e - length ms) + length ms) by lia.
        assert (X : forall A n m (f : A -> A) x, Nat.iter (n + m) f x = Nat.iter n f (Nat.iter m f x)).
        { intros A n0 m f x. unfold Nat.iter. induction n0; cbn; [reflexivity|]. now rewrite IHn0. }
        rewrite M1. cbn [root tc]. destruct un; cbn [tc]; rewrite X, G, P by lia; lia.
    - rewrite M1. cbn [root tc kids] in *. rewrite fsize_cons, fsize_nil.
      rewrite (IH x (or_introl eq_refl) [] (b + 1) fuel Rk) by lia. lia.
  Qed.

  Section VISIT.
    Context {P : Type}.
    Variable cb : @callback P.
    Variable F : nat -> tree -> P -> option P.

    Hypothesis Hcb : forall self i e T p, ematch i e T -> wf T = true ->
      (forall n p, enough n (i + 1) (kids T) -> self (i + 1) n p = fold_trees F (i + 1) (kids T) p) ->
      cb self i e p = F i T p.

    Lemma visit_reps : forall n ts b fuel cnt p, fsize ts <= n -> reps b ts -> enough cnt b ts ->
      length t < fuel + b -> visit_loop fuel cb t b cnt p = fold_trees F b ts p.
    Proof.
      induction n as [|n IH]; intros ts b fuel cnt p Hn R C Hf.
      - destruct ts as [|T ts]; [|rewrite fsize_cons in Hn; pose proof (tsize_pos T); lia].
        pose proof (reps_bound _ _ _ (le_n _) R) as B. rewrite fsize_nil in B.
        destruct fuel; [lia|]. cbn [visit_loop fold_trees]. destruct (b <? length t) eqn:L; [|reflexivity].
        apply Nat.ltb_lt in L. destruct C as [->|[_ C]]; [reflexivity|]. rewrite fsize_nil in C. lia.
      - destruct ts as [|T ts].
        + pose proof (reps_bound _ _ _ (le_n _) R) as B. rewrite fsize_nil in B.
          destruct fuel; [lia|]. cbn [visit_loop fold_trees]. destruct (b <? length t) eqn:L; [|reflexivity].
          apply Nat.ltb_lt in L. destruct C as [->|[_ C]]; [reflexivity|]. rewrite fsize_nil in C. lia.
        + pose proof (reps_bound _ _ _ (le_n _) R) as B. rewrite fsize_cons in B, Hn.
          pose proof (tsize_eq T) as Ts. pose proof (node_len_reps _ _ _ (S (length t)) R ltac:(lia)) as NL.
          inversion R as [|b' T' ts' e E M W Rk Rt]; subst.
          destruct fuel as [|fuel]; [lia|].
          assert (exists c, cnt = S c /\ enough c (b + tsize T) ts) as (c & -> & C').
          { unfold enough in *. rewrite fsize_cons in C. cbn [length] in C. destruct cnt as [|c]; [lia|]. exists c. split; [reflexivity|]. lia. }
          cbn [visit_loop fold_trees]. replace (b <? length t) with true by (symmetry; apply Nat.ltb_lt; lia).
          rewrite E.
          replace (is_su e && (tparam e <=? 0)%Z) with false.
          2:{ symmetry. destruct (is_su e) eqn:SU; [|reflexivity]. destruct (reps_count b e T M W SU) as [_ G].
              apply andb_false_iff. right. apply Z.leb_gt. exact G. }
          rewrite (Hcb _ b e T p M W).
          * destruct (F b T p) as [p'|]; [|reflexivity]. unfold node_len. rewrite NL. apply IH; auto; lia.
          * intros m q En. replace (b + 1 <=? length t) with true by (symmetry; apply Nat.leb_le; lia).
            apply IH; auto; lia.
    Qed.

    Lemma list_nodes_reps : forall ts b cnt p, reps b ts -> enough cnt b ts ->
      list_nodes cb t b cnt p = fold_trees F b ts p.
    Proof.
      intros ts b cnt p R C. unfold list_nodes. pose proof (reps_bound _ _ _ (le_n _) R).
      replace (b <=? length t) with true by (symmetry; apply Nat.leb_le; lia).
      apply (visit_reps (fsize ts)); auto. lia.
    Qed.
  End VISIT.
End REPS.

(** ** The scopes as a stream *)

Inductive reads : nat -> list scope -> list tree -> list scope -> Prop :=
| reads_0 : forall st, reads 0 st [] st
| reads_end : forall n, reads n [] [] []
| reads_S : forall n s st T st1 ts st2, reads_one s st T st1 -> reads n st1 ts st2 -> reads (S n) (s :: st) (T :: ts) st2
with reads_one : scope -> list scope -> tree -> list scope -> Prop :=
| one_flat : forall autos blocks st, forallb empty blocks = true ->
    reads_one (Scope autos blocks) st (TAgg false 0 autos) st
| one_blocks : forall autos blocks st kts st1, forallb empty blocks = false ->
    reads (length blocks) (filter (fun c => negb (empty c)) blocks ++ st) kts st1 ->
    reads_one (Scope autos blocks) st (TAgg false 0 (autos ++ [TAgg true 0 kts])) st1.

Scheme reads_mut := Induction for reads Sort Prop with reads_one_mut := Induction for reads_one Sort Prop.
Combined Scheme reads_both from reads_mut, reads_one_mut.

Fixpoint ssize (s : scope) : nat := match s with Scope _ blocks => S (list_sum (map ssize blocks)) end.
Definition stsize (st : list scope) : nat := list_sum (map ssize st).

Lemma stsize_app : forall a b, stsize (a ++ b) = stsize a + stsize b.
Proof. intros. unfold stsize. now rewrite map_app, list_sum_app. Qed.
Lemma stsize_cons : forall s st, stsize (s :: st) = ssize s + stsize st.
Proof. reflexivity. Qed.
Lemma stsize_filter : forall f st, stsize (filter f st) <= stsize st.
Proof.
  induction st as [|s st IH]; [apply le_n|]. cbn [filter]. destruct (f s); rewrite ?stsize_cons; lia.
Qed.
Lemma ssize_eq : forall autos blocks, ssize (Scope autos blocks) = S (stsize blocks).
Proof. reflexivity. Qed.

(** Reading never fails. *)
Lemma reads_total : forall m, (forall n st, stsize st <= m -> exists ts rest used, reads n st ts rest /\ st = used ++ rest /\
    Nat.min n (length st) <= length used) /\
  (forall s st, stsize (s :: st) <= m -> exists T rest used, reads_one s st T rest /\ st = used ++ rest).
Proof.
  induction m as [|m IHm].
  - assert (E : forall st, stsize st <= 0 -> st = []).
    { intros [|[a b] st] H; [reflexivity|]. rewrite stsize_cons, ssize_eq in H. lia. }
    split.
    + intros n st H. rewrite (E st H). exists [], [], []. split; [constructor|]. split; [reflexivity|]. cbn. lia.
    + intros s st H. apply E in H. discriminate.
  - assert (One : forall s st, stsize (s :: st) <= S m -> exists T rest used, reads_one s st T rest /\ st = used ++ rest).
    { intros [autos blocks] st H. rewrite stsize_cons, ssize_eq in H. destruct (forallb empty blocks) eqn:B.
      - exists (TAgg false 0 autos), st, []. split; [now constructor|reflexivity].
      - pose proof (stsize_filter (fun c => negb (empty c)) blocks) as Fs.
        destruct (proj1 IHm (length blocks) (filter (fun c => negb (empty c)) blocks ++ st)) as (ts & rest & used & R & U & L).
        { rewrite stsize_app. lia. }
        assert (LF : length (filter (fun c => negb (empty c)) blocks) <= length blocks).
        { clear. induction blocks as [|c bs IH]; [apply le_n|]. cbn [filter]. destruct (negb (empty c)); cbn [length]; lia. }
        rewrite app_length in L.
        assert (L' : length (filter (fun c => negb (empty c)) blocks) <= length used) by lia.
        exists (TAgg false 0 (autos ++ [TAgg true 0 ts])), rest, (skipn (length (filter (fun c => negb (empty c)) blocks)) used).
        split; [now constructor|].
        apply (f_equal (skipn (length (filter (fun c => negb (empty c)) blocks)))) in U.
        rewrite skipn_app, skipn_all, Nat.sub_diag in U. cbn [skipn app] in U. rewrite U, skipn_app.
        replace (_ - _) with 0 by lia. reflexivity. }
    split; [|exact One].
    intros n st H. destruct n as [|n]; [exists [], st, []; split; [constructor|]; split; [reflexivity|cbn; lia]|].
    destruct st as [|s st]; [exists [], [], []; split; [constructor|]; split; [reflexivity|cbn; lia]|].
    destruct (One s st H) as (T & st1 & used1 & R1 & U1).
    assert (S1 : stsize st1 <= m).
    { rewrite stsize_cons, U1, stsize_app in H. destruct s as [a b]. rewrite ssize_eq in H. lia. }
    destruct (proj1 IHm n st1 S1) as (ts & rest & used2 & R2 & U2 & L2).
    exists (T :: ts), rest, (s :: used1 ++ used2). split; [econstructor; eauto|]. split.
    + cbn [app]. now rewrite <- app_assoc, <- U2, <- U1.
    + rewrite U1. cbn [length]. rewrite !app_length. lia.
Qed.

(** All objects have well-formed types. *)
Fixpoint scope_wf (s : scope) : Prop :=
  match s with Scope autos blocks => (forall T, In T autos -> wf T = true) /\ fold_right (fun c p => scope_wf c /\ p) True blocks end.

Lemma scope_wf_blocks : forall autos blocks, scope_wf (Scope autos blocks) ->
  (forall T, In T autos -> wf T = true) /\ (forall c, In c blocks -> scope_wf c).
Proof.
  intros autos blocks (H1 & H2). split; [exact H1|]. clear H1.
  induction blocks as [|c bs IH]; intros x I; [destruct I|]. destruct H2 as (A & B), I as [<-|I]; auto.
Qed.

Definition nonempty (c : scope) : bool := negb (empty c).

Lemma gen_filter : forall bs, flat_map gen (filter nonempty bs) = flat_map gen bs.
Proof.
  induction bs as [|c bs IH]; [reflexivity|]. cbn [filter]. unfold nonempty at 1. destruct (empty c) eqn:E; cbn [negb flat_map].
  - rewrite (empty_gen c E). exact IH.
  - now rewrite IH.
Qed.

Lemma reps_app : forall t l1 l2 b, (forall T, In T l1 -> wf T = true) -> at_pos t b l1 -> reps t (b + fsize l1) l2 -> reps t b (l1 ++ l2).
Proof.
  intros t. induction l1 as [|T l1 IH]; intros l2 b W A R.
  - rewrite fsize_nil, Nat.add_0_r in R. exact R.
  - rewrite fsize_cons in R. pose proof (at_pos_cons _ _ _ _ A) as [A1 A2].
    assert (R1 : reps t b [T]).
    { apply (at_pos_reps t _ _ b (le_n _)); [|exact A1]. intros x [<-|[]]. apply W. now left. }
    inversion R1 as [|b' T' ts' e E M WT Rk Rt]; subst. cbn [app]. econstructor; eauto.
    apply IH; [intros; apply W; now right|exact A2|]. replace (b + tsize T + fsize l1) with (b + (tsize T + fsize l1)) by lia. exact R.
Qed.

Lemma reps_wf : forall t ts b, reps t b ts -> forallb wf ts = true.
Proof.
  intros t ts. induction ts as [|T ts IH]; intros b R; [reflexivity|]. inversion R as [|b' T' ts' e E M W Rk Rt]; subst. cbn. rewrite (IH _ Rt). now rewrite W.
Qed.

Lemma forallb_false_in : forall (f : scope -> bool) l, forallb f l = false -> exists x, In x l /\ f x = false.
Proof.
  induction l as [|a l IH]; intros H; [discriminate|]. cbn in H. destruct (f a) eqn:E.
  - destruct (IH H) as (x & I & Hx). exists x. split; [now right|exact Hx].
  - exists a. split; [now left|exact E].
Qed.

Lemma filter_stream : forall bs st, (forall c, In c bs -> scope_wf c) ->
  (forall c, In c st -> empty c = false /\ scope_wf c) ->
  forall c, In c (filter nonempty bs ++ st) -> empty c = false /\ scope_wf c.
Proof.
  intros bs st H1 H2 c I. apply in_app_or in I as [I|I]; [|auto]. apply filter_In in I as [I E].
  unfold nonempty in E. apply negb_true_iff in E. auto.
Qed.

Lemma reads_used :
  (forall n st ts rest, reads n st ts rest -> exists used, st = used ++ rest /\ Nat.min n (length st) <= length used) /\
  (forall s st T rest, reads_one s st T rest -> exists used, st = used ++ rest).
Proof.
  apply (reads_both
    (fun n st ts rest _ => exists used, st = used ++ rest /\ Nat.min n (length st) <= length used)
    (fun s st T rest _ => exists used, st = used ++ rest)).
  - intros st. exists []. split; [reflexivity|cbn; lia].
  - intros n. exists []. split; [reflexivity|cbn; lia].
  - intros n s st T st1 ts st2 R1 (u1 & E1) R2 (u2 & E2 & L2). exists (s :: u1 ++ u2). subst st st1. split; [cbn; now rewrite <- app_assoc|].
    cbn [length]. repeat rewrite app_length in *. lia.
  - intros. now exists [].
  - intros autos blocks st kts st1 B R (u & E & L).
    assert (LF : forall f (l : list scope), length (filter f l) <= length l).
    { clear. induction l as [|a l IH]; [apply le_n|]. cbn [filter]. destruct (f a); cbn [length]; lia. }
    specialize (LF (fun c => negb (empty c)) blocks). rewrite app_length in L.
    exists (skipn (length (filter (fun c => negb (empty c)) blocks)) u).
    assert (X : skipn (length (filter (fun c => negb (empty c)) blocks)) (filter (fun c => negb (empty c)) blocks ++ st) = st).
    { rewrite skipn_app, skipn_all, Nat.sub_diag. reflexivity. }
    rewrite <- X at 1. rewrite E, skipn_app. f_equal.
    replace (_ - length u) with 0 by lia. reflexivity.
Qed.

Lemma reads_reps :
  (forall n st ts rest, reads n st ts rest -> (forall c, In c st -> empty c = false /\ scope_wf c) ->
     forall t pre, t = pre ++ flat_map gen st ->
     reps t (length pre) ts /\ enough t n (length pre) ts /\ (n <> 0 -> st <> [] -> ts <> []) /\
     exists pre', t = pre' ++ flat_map gen rest /\ length pre' = length pre + fsize ts) /\
  (forall s st T rest, reads_one s st T rest -> empty s = false -> scope_wf s -> (forall c, In c st -> empty c = false /\ scope_wf c) ->
     forall t pre, t = pre ++ gen s ++ flat_map gen st ->
     exists e, nth_error t (length pre) = Some e /\ ematch t (length pre) e T /\ wf T = true /\ reps t (length pre + 1) (kids T) /\
     (exists pre', t = pre' ++ flat_map gen rest /\ length pre' = length pre + tsize T) /\
     exists used, st = used ++ rest).
Proof.
  apply (reads_both
    (fun n st ts rest _ => (forall c, In c st -> empty c = false /\ scope_wf c) ->
     forall t pre, t = pre ++ flat_map gen st ->
     reps t (length pre) ts /\ enough t n (length pre) ts /\ (n <> 0 -> st <> [] -> ts <> []) /\
     exists pre', t = pre' ++ flat_map gen rest /\ length pre' = length pre + fsize ts)
    (fun s st T rest _ => empty s = false -> scope_wf s -> (forall c, In c st -> empty c = false /\ scope_wf c) ->
     forall t pre, t = pre ++ gen s ++ flat_map gen st ->
     exists e, nth_error t (length pre) = Some e /\ ematch t (length pre) e T /\ wf T = true /\ reps t (length pre + 1) (kids T) /\
     (exists pre', t = pre' ++ flat_map gen rest /\ length pre' = length pre + tsize T) /\
     exists used, st = used ++ rest)).
  - intros st H t pre ->. split; [constructor; rewrite app_length; lia|]. split; [now left|]. split; [congruence|].
    exists pre. rewrite fsize_nil. auto.
  - intros n H t pre ->. split; [constructor; rewrite app_length; lia|]. split; [right; split; [cbn; lia|rewrite fsize_nil, app_length; cbn; lia]|].
    split; [congruence|]. exists pre. rewrite fsize_nil. auto.
  - intros n s st T st1 ts st2 R1 IH1 R2 IH2 H t pre E. cbn [flat_map] in E.
    destruct (H s (or_introl eq_refl)) as (Es & Ws).
    destruct (IH1 Es Ws (fun c h => H c (or_intror h)) t pre E) as (e & N & M & W & Rk & (pre' & E' & L') & used & U).
    destruct (IH2 (fun c h => H c (or_intror (eq_ind_r (fun l => In c l) (in_or_app _ _ _ (or_intror h)) U))) t pre' E')
      as (Rt & C & _ & pre2 & E2 & L2).
    rewrite L' in *. split; [econstructor; eauto|]. split.
    + unfold enough in *. rewrite fsize_cons. cbn [length]. lia.
    + split; [congruence|]. exists pre2. split; [exact E2|]. rewrite fsize_cons. lia.
  - intros autos blocks st B Es Ws H t pre E. apply scope_wf_blocks in Ws as (Wa & Wb).
    cbn [gen] in E. rewrite Es, B in E. exists (aentry CStruct (length autos)).
    assert (A : at_pos t (length pre + 1) autos).
    { exists (pre ++ [aentry CStruct (length autos)]), (flat_map gen st). split; [rewrite E; now rewrite <- app_assoc|rewrite app_length; reflexivity]. }
    split; [rewrite E, nth_error_app2, Nat.sub_diag by lia; reflexivity|].
    split; [repeat split; now left|].
    split.
    { cbn. pose proof (nonempty_cases _ _ Es B) as Na. destruct autos; [congruence|]. cbn [length Nat.eqb negb andb]. apply forallb_forall. exact Wa. }
    split; [apply (at_pos_reps t _ _ _ (le_n _)); assumption|].
    split; [|exists []; reflexivity].
    exists (pre ++ aentry CStruct (length autos) :: flats autos). split; [rewrite E; now rewrite <- app_assoc|].
    rewrite app_length, tsize_eq. cbn [length kids]. unfold fsize. lia.
  - intros autos blocks st kts st1 B R IH Es Ws H t pre E. apply scope_wf_blocks in Ws as (Wa & Wb).
    cbn [gen] in E. rewrite Es, B in E. exists (aentry CStruct (S (length autos))).
    assert (A : at_pos t (length pre + 1) autos).
    { exists (pre ++ [aentry CStruct (S (length autos))]), (aentry CUnion (length blocks) :: flat_map gen blocks ++ flat_map gen st).
      split; [|rewrite app_length; reflexivity]. rewrite E. cbn [app]. rewrite <- !app_assoc. reflexivity. }
    set (pre1 := pre ++ aentry CStruct (S (length autos)) :: flats autos ++ [aentry CUnion (length blocks)]).
    assert (L1 : length pre1 = length pre + 1 + fsize autos + 1).
    { unfold pre1. rewrite !app_length. cbn [length]. rewrite app_length. cbn. unfold fsize. lia. }
    destruct (IH (filter_stream blocks st Wb H) t pre1) as (Rk & C & NE & pre' & E' & L').
    { rewrite flat_map_app. fold nonempty. rewrite gen_filter, E. unfold pre1. cbn [app]. rewrite <- !app_assoc. cbn [app]. rewrite <- !app_assoc. reflexivity. }
    assert (NK : kts <> []).
    { apply NE.
      - destruct blocks; [discriminate B|cbn; lia].
      - apply forallb_false_in in B as (c & I & Ec). intros X.
        assert (In c (filter nonempty blocks ++ st)) as I'.
        { apply in_or_app. left. apply filter_In. split; [exact I|]. unfold nonempty. now rewrite Ec. }
        fold nonempty in X. rewrite X in I'. destruct I'. }
    pose proof (reps_wf _ _ _ Rk) as Wk.
    assert (WU : wf (TAgg true 0 kts) = true).
    { cbn. destruct kts; [congruence|]. exact Wk. }
    split; [rewrite E, nth_error_app2, Nat.sub_diag by lia; reflexivity|].
    split.
    { repeat split. left. cbn. rewrite app_length. cbn. lia. }
    split.
    { cbn [wf]. rewrite forallb_app. rewrite app_length. cbn [length forallb].
      replace (length autos + 1 =? 0) with false by (symmetry; apply Nat.eqb_neq; lia). cbn [negb andb].
      apply andb_true_iff. split; [apply forallb_forall; exact Wa|]. now rewrite WU. }
    split.
    { cbn [kids]. apply reps_app; [exact Wa|exact A|].
      assert (TU : length pre + 1 + fsize autos + tsize (TAgg true 0 kts) = length pre1 + fsize kts) by (rewrite tsize_eq; cbn [kids]; lia).
      apply reps_cons with (e := aentry CUnion (length blocks)).
      - rewrite E. rewrite nth_error_app2 by lia. replace (_ - _) with (S (fsize autos)) by lia. cbn [app nth_error].
        rewrite <- app_assoc, nth_error_app2 by (unfold fsize; lia). unfold fsize. now rewrite Nat.sub_diag.
      - repeat split. destruct C as [C|[C1 C2]].
        + left. cbn. lia.
        + right. exists true, 0%Z, kts. split; [reflexivity|]. split; [cbn; lia|]. lia.
      - exact WU.
      - cbn [kids]. replace (length pre + 1 + fsize autos + 1) with (length pre1) by lia. exact Rk.
      - constructor. rewrite TU. pose proof (reps_bound _ _ _ _ (le_n _) Rk). lia. }
    split.
    { exists pre'. split; [exact E'|]. rewrite L', tsize_eq. cbn [kids]. unfold fsize at 2. rewrite flats_app, app_length.
      fold (fsize autos). fold (fsize [TAgg true 0 kts]). rewrite fsize_cons, fsize_nil, tsize_eq. cbn [kids]. lia. }
    apply (proj2 reads_used (Scope autos blocks) st (TAgg false 0 (autos ++ [TAgg true 0 kts])) st1). now constructor.
Qed.

(** ** The layout of such a vector *)

Definition F_layout' (i : nat) (T : tree) (p : comp * vec) : option (comp * vec) :=
  if codes_ok T then F_layout i T p else None.

Lemma fold_layout' : forall ts b p,
  fold_trees F_layout' b ts p = if forallb codes_ok ts then fold_trees F_layout b ts p else None.
Proof.
  induction ts as [|T ts IH]; intros; [reflexivity|]. cbn [fold_trees forallb]. unfold F_layout' at 1.
  destruct (codes_ok T); cbn [andb]; [|reflexivity]. destruct (F_layout b T p) eqn:E.
  - apply IH.
  - destruct (forallb codes_ok ts); reflexivity.
Qed.

Lemma layout_cb_reps : forall t self i e T p, ematch t i e T -> wf T = true ->
  (forall n p, enough t n (i + 1) (kids T) -> self (i + 1) n p = fold_trees F_layout' (i + 1) (kids T) p) ->
  layout_cb self i e p = F_layout' i T p.
Proof.
  intros t self i e T [c v] M W H.
  assert (SU : is_su e = true -> enough t (pcount e) (i + 1) (kids T)) by (intros X; now destruct (reps_count t i e T M W X)).
  destruct M as (M1 & M2 & M3).
  assert (UC : forall d, update_compound c d e = update_compound c d (root T)).
  { intros d. unfold update_compound. now rewrite M1, M2. }
  unfold layout_cb, F_layout', F_layout. rewrite fill_eq.
  destruct T as [k a q|un a ms|a n x]; cbn [root tc kids tparam talign codes_ok] in *.
  - destruct M3 as [M3|(un & al & ms & X & _)]; [|discriminate X].
    assert (e = {| tc := k; talign := a; tparam := q |}) as -> by (destruct e; cbn in *; congruence).
    cbn [tc fill_list kids]. unfold upd1, upd2, own. cbn [root].
    destruct (leaf_layout {| tc := k; talign := a; tparam := q |}) as [[s al]|] eqn:E.
    + destruct k; try discriminate W; destruct (update_compound _ _ _); reflexivity.
    + destruct k; try discriminate W; reflexivity.
  - specialize (SU ltac:(unfold is_su; rewrite M1; destruct un; reflexivity)).
    rewrite M1. unfold upd1, upd2. cbn [own root kid_comp].
    destruct un; cbn [negb]; rewrite (H _ _ SU), fold_layout'; (destruct (forallb codes_ok ms); [|reflexivity]);
      rewrite fold_layout, UC; unfold comp_after, upd1; cbn [root negb];
      destruct (update_compound c _ _); reflexivity.
  - rewrite M1. cbn [kids] in H. rewrite (H 1 _ (or_introl eq_refl)), fold_layout'. cbn [forallb]. rewrite andb_true_r.
    destruct (codes_ok x); [|reflexivity]. rewrite fold_layout.
    destruct M3 as [M3|(un & al & ms & X & _)]; [|discriminate X].
    unfold upd1, upd2. cbn [own root kid_comp comp_after fold_left fill_list]. rewrite UC, M3.
    unfold upd1. destruct (update_compound c _ _); reflexivity.
Qed.

Lemma nodes_reps : forall t ts, reps t 0 ts -> enough t (length t) 0 ts -> nodes t = length ts.
Proof.
  intros t ts R C. unfold nodes.
  rewrite (list_nodes_reps t count_cb (fun _ _ n => Some (S n)) (fun _ _ _ _ _ _ _ _ => eq_refl) ts 0 (length t) 0 R C).
  assert (X : forall l b n, fold_trees (fun (_ : nat) (_ : tree) n => Some (S n)) b l n = Some (n + length l)).
  { induction l as [|a l IH]; intros; cbn [fold_trees length]; [now rewrite Nat.add_0_r|]. rewrite IH. f_equal. lia. }
  now rewrite X.
Qed.

Lemma type_layout_reps : forall t ts v0, reps t 0 ts -> fsize ts = length t -> forallb codes_ok ts = true ->
  nodes t = length ts /\ type_layout t v0 = Some (fill_list ts 0 (comp0 true) v0).
Proof.
  intros t ts v0 R L C.
  assert (E : enough t (length t) 0 ts).
  { right. split; [|lia]. rewrite <- L. clear. induction ts as [|T ts IH]; [cbn; lia|]. rewrite fsize_cons. pose proof (tsize_pos T). cbn. lia. }
  pose proof (nodes_reps t ts R E) as N. split; [exact N|].
  unfold type_layout, layout_of. rewrite N.
  rewrite (list_nodes_reps t layout_cb F_layout' (layout_cb_reps t) ts 0 (length ts) _ R (or_introl eq_refl)).
  now rewrite fold_layout', C, fold_layout.
Qed.

(** ** Where the scopes are *)

(** [Tc] at index [p] is a member of the union with members [kts] at index [b], possibly through the unions of the
    blocks of earlier members. *)
Inductive inunion : nat -> list tree -> nat -> tree -> Prop :=
| in_here : forall b l1 T l2, inunion b (l1 ++ T :: l2) (b + fsize l1) T
| in_deep : forall b l1 autos kts l2 p T, inunion (b + fsize l1 + 1 + fsize autos + 1) kts p T ->
    inunion b (l1 ++ TAgg false 0 (autos ++ [TAgg true 0 kts]) :: l2) p T.

Inductive laid : scope -> nat -> tree -> Prop :=
| laid_flat : forall autos blocks b, forallb empty blocks = true -> laid (Scope autos blocks) b (TAgg false 0 autos)
| laid_blocks : forall autos blocks b kts, forallb empty blocks = false ->
    (forall l1 c l2, blocks = l1 ++ c :: l2 -> empty c = false ->
       exists Tc, inunion (b + 1 + fsize autos + 1) kts (b + 1 + fsize autos + 1 + length (flat_map gen l1)) Tc /\
                  laid c (b + 1 + fsize autos + 1 + length (flat_map gen l1)) Tc) ->
    laid (Scope autos blocks) b (TAgg false 0 (autos ++ [TAgg true 0 kts])).

Lemma inunion_cons : forall b T ts p X, inunion (b + tsize T) ts p X -> inunion b (T :: ts) p X.
Proof.
  intros b T ts p X H. inversion H; subst.
  - replace (b + tsize T + fsize l1) with (b + fsize (T :: l1)) by (rewrite fsize_cons; lia). exact (in_here b (T :: l1) X l2).
  - apply (in_deep b (T :: l1)). replace (b + fsize (T :: l1)) with (b + tsize T + fsize l1) by (rewrite fsize_cons; lia). assumption.
Qed.

Lemma reads_laid :
  (forall n st ts rest, reads n st ts rest -> (forall c, In c st -> empty c = false) ->
     exists used, st = used ++ rest /\ Nat.min n (length st) <= length used /\ fsize ts = length (flat_map gen used) /\
     forall b i c, nth_error used i = Some c -> exists Tc,
       inunion b ts (b + length (flat_map gen (firstn i used))) Tc /\ laid c (b + length (flat_map gen (firstn i used))) Tc) /\
  (forall s st T rest, reads_one s st T rest -> empty s = false -> (forall c, In c st -> empty c = false) ->
     exists used, st = used ++ rest /\ tsize T = length (gen s) + length (flat_map gen used) /\
     (forall b, laid s b T) /\
     forall b i c, nth_error used i = Some c -> exists autos kts Tc, T = TAgg false 0 (autos ++ [TAgg true 0 kts]) /\
       inunion (b + 1 + fsize autos + 1) kts (b + length (gen s) + length (flat_map gen (firstn i used))) Tc /\
       laid c (b + length (gen s) + length (flat_map gen (firstn i used))) Tc).
Proof.
  apply (reads_both
  (fun n st ts rest _ => (forall c, In c st -> empty c = false) ->
     exists used, st = used ++ rest /\ Nat.min n (length st) <= length used /\ fsize ts = length (flat_map gen used) /\
     forall b i c, nth_error used i = Some c -> exists Tc,
       inunion b ts (b + length (flat_map gen (firstn i used))) Tc /\ laid c (b + length (flat_map gen (firstn i used))) Tc)
  (fun s st T rest _ => empty s = false -> (forall c, In c st -> empty c = false) ->
     exists used, st = used ++ rest /\ tsize T = length (gen s) + length (flat_map gen used) /\
     (forall b, laid s b T) /\
     forall b i c, nth_error used i = Some c -> exists autos kts Tc, T = TAgg false 0 (autos ++ [TAgg true 0 kts]) /\
       inunion (b + 1 + fsize autos + 1) kts (b + length (gen s) + length (flat_map gen (firstn i used))) Tc /\
       laid c (b + length (gen s) + length (flat_map gen (firstn i used))) Tc)).
  - intros st _. exists []. split; [reflexivity|]. split; [cbn; lia|]. split; [now rewrite fsize_nil|]. intros b [|i] c X; discriminate X.
  - intros n _. exists []. split; [reflexivity|]. split; [cbn; lia|]. split; [now rewrite fsize_nil|]. intros b [|i] c X; discriminate X.
  - intros n s st T st1 ts st2 R1 IH1 R2 IH2 H.
    destruct (IH1 (H s (or_introl eq_refl)) (fun c h => H c (or_intror h))) as (u1 & E1 & L1 & D1 & K1).
    destruct (IH2 (fun c h => H c (or_intror (eq_ind_r (fun l => In c l) (in_or_app _ _ _ (or_intror h)) E1)))) as (u2 & E2 & M2 & L2 & K2).
    exists (s :: u1 ++ u2). split; [subst; cbn; now rewrite <- app_assoc|].
    split; [subst; cbn [length]; repeat rewrite app_length in *; lia|].
    split; [rewrite fsize_cons, L1, L2; cbn [flat_map]; rewrite flat_map_app, !app_length; lia|].
    intros b [|i] c X; cbn [nth_error] in X.
    + injection X as <-. exists T. cbn [firstn flat_map length]. split; [|rewrite Nat.add_0_r; apply D1].
      exact (in_here b [] T ts).
    + cbn [firstn flat_map]. rewrite app_length, firstn_app. destruct (Nat.ltb_spec i (length u1)) as [Hi|Hi].
      * rewrite nth_error_app1 in X by exact Hi. replace (i - length u1) with 0 by lia. cbn [firstn]. rewrite app_nil_r.
        destruct (K1 b i c X) as (autos & kts & Tc & ET & I & D). exists Tc. rewrite Nat.add_assoc. split; [|exact D].
        subst T. apply (in_deep b []). rewrite fsize_nil, Nat.add_0_r. exact I.
      * rewrite nth_error_app2 in X by exact Hi. rewrite firstn_all2 by lia. rewrite flat_map_app, app_length.
        destruct (K2 (b + tsize T) _ c X) as (Tc & I & D). exists Tc.
        replace (b + (length (gen s) + (length (flat_map gen u1) + length (flat_map gen (firstn (i - length u1) u2)))))
          with (b + tsize T + length (flat_map gen (firstn (i - length u1) u2))) by lia.
        split; [now apply inunion_cons|exact D].
  - intros autos blocks st B Es H. exists []. split; [reflexivity|]. split.
    { cbn [gen]. rewrite Es, B, tsize_eq. cbn [kids flat_map length]. unfold fsize. lia. }
    split; [intros; now constructor|]. intros b [|i] c X; discriminate X.
  - intros autos blocks st kts st1 B R IH Es H. set (fb := filter (fun c => negb (empty c)) blocks) in *.
    destruct IH as (u & E & M & L & K).
    { intros c I. apply in_app_or in I as [I|I]; [|auto]. apply filter_In in I as [_ I]. now apply negb_true_iff. }
    assert (LF : length fb <= length blocks).
    { unfold fb. clear. induction blocks as [|a l IH]; [apply le_n|]. cbn [filter]. destruct (negb (empty a)); cbn [length]; lia. }
    assert (GF : flat_map gen fb = flat_map gen blocks) by apply gen_filter.
    rewrite app_length in M. assert (Lu : length fb <= length u) by lia.
    assert (Eu : u = fb ++ skipn (length fb) u).
    { rewrite <- (firstn_skipn (length fb) u) at 1. f_equal.
      assert (X : firstn (length fb) (fb ++ st) = firstn (length fb) (u ++ st1)) by now rewrite E.
      rewrite firstn_app, Nat.sub_diag, firstn_all, app_nil_r in X. rewrite firstn_app in X.
      replace (length fb - length u) with 0 in X by lia. cbn [firstn] in X. rewrite app_nil_r in X. now symmetry. }
    set (u' := skipn (length fb) u) in *.
    assert (GS : length (gen (Scope autos blocks)) = 1 + fsize autos + 1 + length (flat_map gen blocks)).
    { cbn [gen]. rewrite Es, B. cbn [length]. rewrite app_length. cbn [length]. unfold fsize. lia. }
    exists u'. split.
    { rewrite Eu, <- app_assoc in E. now apply app_inv_head in E. }
    split.
    { rewrite GS, tsize_eq. cbn [kids]. unfold fsize at 1. rewrite flats_app, app_length. fold (fsize autos). fold (fsize [TAgg true 0 kts]).
      rewrite fsize_cons, fsize_nil, tsize_eq. cbn [kids]. rewrite L, Eu, flat_map_app, app_length, GF. lia. }
    split.
    { intros b. constructor; [exact B|]. intros l1 c l2 Eb Ec.
      assert (F : fb = filter nonempty l1 ++ c :: filter nonempty l2).
      { unfold fb. rewrite Eb. fold nonempty. rewrite filter_app. cbn [filter]. unfold nonempty at 2. rewrite Ec. reflexivity. }
      assert (N : nth_error u (length (filter nonempty l1)) = Some c).
      { rewrite Eu, F, <- app_assoc, nth_error_app2, Nat.sub_diag by lia. reflexivity. }
      destruct (K (b + 1 + fsize autos + 1) _ _ N) as (Tc & I & D).
      assert (G : firstn (length (filter nonempty l1)) u = filter nonempty l1).
      { rewrite Eu, F, <- app_assoc, firstn_app, Nat.sub_diag, firstn_all. cbn [firstn]. now rewrite app_nil_r. }
      rewrite G, gen_filter in I, D. eauto. }
    intros b i c X. exists autos, kts.
    assert (N : nth_error u (length fb + i) = Some c).
    { rewrite Eu, nth_error_app2 by lia. replace (length fb + i - length fb) with i by lia. exact X. }
    destruct (K (b + 1 + fsize autos + 1) _ _ N) as (Tc & I & D). exists Tc.
    assert (G : flat_map gen (firstn (length fb + i) u) = flat_map gen blocks ++ flat_map gen (firstn i u')).
    { rewrite Eu, firstn_app, firstn_all2 by lia. replace (length fb + i - length fb) with i by lia. now rewrite flat_map_app, GF. }
    rewrite G, app_length in I, D. rewrite GS. split; [reflexivity|].
    replace (b + (1 + fsize autos + 1 + length (flat_map gen blocks)) + length (flat_map gen (firstn i u')))
      with (b + 1 + fsize autos + 1 + (length (flat_map gen blocks) + length (flat_map gen (firstn i u')))) by lia.
    now split.
Qed.

(** The whole function: one tree whose layout is the layout of the vector, and in which every scope is found at the
    index the layout tree gives it. *)
Lemma whole_function : forall s, empty s = false -> scope_wf s ->
  exists T, reads_one s [] T [] /\ reps (gen s) 0 [T] /\ tsize T = length (gen s) /\ laid s 0 T.
Proof.
  intros s E W.
  destruct (proj2 (reads_total (stsize [s])) s [] (le_n _)) as (T & rest & used & R & U).
  symmetry in U. apply app_eq_nil in U as [-> ->].
  destruct (proj2 reads_laid _ _ _ _ R E (fun _ h => match h with end)) as (u & U & L & D & _).
  symmetry in U. apply app_eq_nil in U as [-> _]. cbn [flat_map length] in L.
  destruct (proj2 reads_reps _ _ _ _ R E W (fun _ h => match h with end) (gen s) []) as (e & N & M & WT & Rk & _).
  { cbn [flat_map app]. now rewrite app_nil_r. }
  exists T. split; [exact R|]. split; [|split; [lia|apply D]].
  apply reps_cons with (e := e); auto. constructor. lia.
Qed.
