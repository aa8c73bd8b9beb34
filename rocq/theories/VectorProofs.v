(** Vectors are bounded lists of elements. *)
From Coq Require Import ZArith Bool List Lia.
From Verif Require Import VectorModel VectorSpec.
Import ListNotations.
Open Scope Z_scope.

(** One operation of a caller on a vector of the model; None: outside of a region *)
Definition answer_of (r : code) : answer := match r with Ok => Done | _ => Refused end.
Definition step (v : vec) (o : op) : option (answer * vec) :=
  match o with
  | Append x => match vector_append v x with Some (r, v') => Some (answer_of r, v') | None => None end
  | Copy xs =>
      match vector_copy v (match xs with [] => None | _ => Some (List.concat xs) end) (count xs) with
      | Some (r, v') => Some (answer_of r, v') | None => None
      end
  | Extend n => let (r, v') := vector_extend v n in Some (answer_of r, v')
  | Get i => match get v i with Some (Some x) => Some (Element x, v) | Some None => Some (Absent, v) | None => None end
  | Set_ i x => match set v i x with Some (Some v') => Some (Done, v') | Some None => Some (Absent, v) | None => None end
  | Realloc n al => let (r, v') := vector_realloc al n v in Some (answer_of r, v')
  | Length => Some (Number (v_length v), v)
  | Available => Some (Number (vector_available v), v)
  end.
Fixpoint run (v : vec) (os : list op) : option (list answer * vec) :=
  match os with
  | [] => Some ([], v)
  | o :: os =>
      match step v o with
      | Some (a, v') => match run v' os with Some (rs, v'') => Some (a :: rs, v'') | None => None end
      | None => None
      end
  end.

(** A vector of the model holds the elements [l] and has room for [c] *)
Definition content_ok (es c : Z) (l : list bytes) (b : option bytes) : Prop :=
  match b with
  | None => c = 0
  | Some b => 0 < c /\ size b = es * c /\ exists rest, b = List.concat l ++ rest
  end.
Definition holds (es : Z) (v : vec) (s : list bytes * Z) : Prop :=
  v_elem v = es /\ v_length v = count (fst s) /\ v_capacity v = snd s /\ 0 < es /\ es * snd s < 2 ^ 64 /\
  count (fst s) <= snd s /\ Forall (fun x => count x = es) (fst s) /\ content_ok es (snd s) (fst s) (v_content v).

Lemma wrap_id : forall z, 0 <= z < 2 ^ 64 -> wrap z = z.
Proof. intros; apply Z.mod_small; assumption. Qed.

Lemma count_nonneg : forall A (l : list A), 0 <= count l.
Proof. intros; unfold count; lia. Qed.

Lemma count_app : forall A (a b : list A), count (a ++ b) = count a + count b.
Proof. intros; unfold count; rewrite app_length; lia. Qed.

Lemma count_concat : forall es (l : list bytes), Forall (fun x => count x = es) l -> count (List.concat l) = es * count l.
Proof.
  induction 1; cbn [List.concat]; [unfold count; cbn; lia|].
  rewrite count_app, H, IHForall. unfold count; cbn [length]. lia.
Qed.

Lemma room : forall es n c, 0 < es -> 0 <= n <= c -> es * c < 2 ^ 64 -> 0 <= es * n < 2 ^ 64 /\ 0 <= n < 2 ^ 64 /\ 0 <= c < 2 ^ 64.
Proof. intros; nia. Qed.

Lemma load_ok : forall p x q, load (p ++ x ++ q) (count p) (count x) = Some x.
Proof.
  intros. unfold load, size, count. rewrite !app_length.
  replace (0 <=? Z.of_nat (length p)) with true by (symmetry; apply Z.leb_le; lia).
  replace (0 <=? Z.of_nat (length x)) with true by (symmetry; apply Z.leb_le; lia).
  replace (_ <=? _) with true by (symmetry; apply Z.leb_le; lia). cbn.
  rewrite !Nat2Z.id, skipn_app, skipn_all, Nat.sub_diag. cbn.
  rewrite firstn_app, firstn_all, Nat.sub_diag. cbn. now rewrite app_nil_r.
Qed.

Lemma store_ok : forall p y x q, count x = count y -> store (p ++ y ++ q) (count p) x = Some (p ++ x ++ q).
Proof.
  intros * E. unfold store, size, count in *. rewrite !app_length.
  replace (0 <=? Z.of_nat (length p)) with true by (symmetry; apply Z.leb_le; lia).
  replace (_ <=? _) with true by (symmetry; apply Z.leb_le; lia). cbn. apply Nat2Z.inj in E.
  rewrite !Nat2Z.id, firstn_app, firstn_all, Nat.sub_diag. cbn. rewrite app_nil_r.
  rewrite E. replace (length p + length y)%nat with (length (p ++ y)) by apply app_length.
  rewrite (app_assoc p y q), skipn_app, skipn_all, Nat.sub_diag. reflexivity.
Qed.

(** A prefix of given size *)
Lemma take : forall (b : bytes) n, 0 <= n <= count b -> exists p q, b = p ++ q /\ count p = n.
Proof.
  intros. exists (firstn (Z.to_nat n) b), (skipn (Z.to_nat n) b). split; [now rewrite firstn_skipn|].
  unfold count in *. rewrite firstn_length. lia.
Qed.

(** Cutting bytes into elements *)
Lemma cut : forall es n (b : bytes), 0 < es -> count b = es * Z.of_nat n ->
  exists u, List.concat u = b /\ count u = Z.of_nat n /\ Forall (fun x => count x = es) u.
Proof.
  induction n; intros b P E.
  - exists []. destruct b; [auto|]. unfold count in E; cbn in E; lia.
  - destruct (take b es) as (p & q & -> & C); [nia|].
    rewrite count_app in E. destruct (IHn q P) as (u & <- & N & F); [nia|].
    exists (p :: u). cbn. split; [auto|]. split; [unfold count in *; cbn [length]; lia|constructor; auto].
Qed.

Lemma append_ok : forall es v l c x, holds es v (l, c) -> count x = es ->
  exists r v' l', vector_append v x = Some (r, v') /\ expected es (l, c) (Append x) (answer_of r) (l', c) /\ holds es v' (l', c)
    /\ (count l < c -> r = Ok /\ l' = l ++ [x]).
Proof.
  intros * (E & L & C & P & B & R & F & K) X. cbn in *. unfold vector_append. rewrite L, C.
  pose proof (count_nonneg _ l).
  destruct (Z.ltb_spec (count l) c) as [Q|Q].
  2:{ exists OutOfBounds, v, l. split; [auto|]. split; [constructor; auto|]. split; [repeat split; auto|lia]. }
  destruct (v_content v) as [b|] eqn:V; cbn in K; [|lia]. destruct K as (_ & S & rest & ->).
  rewrite E. pose proof (load_ok [] x []) as LX. cbn in LX. rewrite app_nil_r in LX. change (count []) with 0 in LX. rewrite X in LX.
  rewrite LX. destruct (room es (count l) c) as (R1 & R2 & R3); [lia..|].
  assert (SC := count_concat es l F). unfold size in S. fold (@count Z (List.concat l ++ rest)) in S.
  rewrite count_app, SC in S.
  destruct (take rest es) as (y & q & -> & Y); [nia|].
  unfold store_at. rewrite (wrap_id (count l * es)) by lia. replace (count l * es) with (count (List.concat l)) by lia.
  rewrite store_ok by congruence.
  exists Ok, (with_content v (Some (List.concat l ++ x ++ q)) (wrap (count l + 1))), (l ++ [x]).
  split; [reflexivity|]. split; [now constructor|].
  assert (CL : count (l ++ [x]) = count l + 1) by now rewrite count_app.
  split; [|auto]. unfold holds, content_ok. cbn -[wrap Z.pow]. rewrite (wrap_id (count l + 1)) by lia.
  repeat split; auto; try lia.
  - apply Forall_app; auto.
  - unfold size. fold (@count Z (List.concat l ++ x ++ q)). rewrite count_app in S |- *. rewrite !count_app in *. lia.
  - exists q. rewrite concat_app. cbn. now rewrite app_nil_r, app_assoc.
Qed.

Lemma copy_ok : forall es v l c xs, holds es v (l, c) -> sensible es (l, c) (Copy xs) -> supported es (l, c) (Copy xs) ->
  exists r v' l', step v (Copy xs) = Some (r, v') /\ expected es (l, c) (Copy xs) r (l', c) /\ holds es v' (l', c).
Proof.
  intros * (E & L & C & P & B & R & F & K) (FX & SX) SU. cbn in SU. cbn [fst snd] in *. subst l.
  cbn [step]. unfold vector_copy, vector_available. rewrite L, C.
  change (count []) with 0 in *. rewrite Z.sub_0_r, Z.add_0_l, (wrap_id c) by (pose proof (room es 0 c); lia).
  destruct xs as [|x0 xs0].
  { replace (count (@nil (list Z)) =? 0) with true by reflexivity. change (count []) with 0.
    replace (0 <=? c) with true by (symmetry; apply Z.leb_le; lia).
    eexists Done, _, ([] ++ []). split; [reflexivity|]. split; [constructor; cbn; lia|].
    unfold holds. cbn. repeat split; auto. }
  remember (x0 :: xs0) as xs. assert (0 < count xs) by (subst; unfold count; cbn [length]; lia).
  replace (match xs with [] => None | _ => Some (List.concat xs) end) with (Some (List.concat xs)) by (subst; reflexivity).
  replace (0 <? count xs) with true by (symmetry; apply Z.ltb_lt; lia).
  destruct (Z.leb_spec (count xs) c) as [Q|Q].
  2:{ eexists Refused, v, []. split; [reflexivity|]. split; [constructor; cbn; lia|]. repeat split; auto. }
  rewrite E, (wrap_id (es * count xs)) by nia. rewrite <- (count_concat es xs FX).
  pose proof (load_ok [] (List.concat xs) []) as LX. cbn in LX. rewrite app_nil_r in LX. change (count []) with 0 in LX. rewrite LX.
  destruct (v_content v) as [b|]; cbn in K; [|lia]. destruct K as (_ & S & rest & ->). cbn [List.concat app] in *.
  assert (SC := count_concat es xs FX). change (count rest = es * c) in S.
  destruct (take rest (es * count xs)) as (y & q & -> & Y); [nia|].
  unfold store_at. pose proof (store_ok [] y (List.concat xs) q) as ST. cbn [app] in ST. change (count []) with 0 in ST. rewrite ST by congruence.
  destruct (room es (count xs) c) as (R1 & R2 & R3); [lia..|].
  rewrite (wrap_id (count xs)) by lia.
  eexists Done, _, ([] ++ xs). split; [reflexivity|]. split; [constructor; cbn; lia|].
  unfold holds, content_ok. cbn -[Z.pow]. repeat split; auto; try lia.
  - change (count (List.concat xs ++ q) = es * c). rewrite count_app in *. lia.
  - exists q. reflexivity.
Qed.

Lemma extend_ok : forall es v l c n, holds es v (l, c) -> sensible es (l, c) (Extend n) ->
  exists r v' l', step v (Extend n) = Some (r, v') /\ expected es (l, c) (Extend n) r (l', c) /\ holds es v' (l', c).
Proof.
  intros * (E & L & C & P & B & R & F & K) (N & M). cbn [fst snd] in *. cbn [step]. unfold vector_extend. rewrite L, C.
  pose proof (count_nonneg _ l). rewrite wrap_id by lia.
  destruct (Z.leb_spec (count l + n) c) as [Q|Q].
  2:{ eexists Refused, v, l. split; [reflexivity|]. split; [constructor; lia|]. repeat split; auto. }
  assert (exists u, count u = n /\ Forall (fun x => count x = es) u /\ content_ok es c (l ++ u) (v_content v)) as (u & U1 & U2 & U3).
  { destruct (v_content v) as [b|]; cbn in K.
    - destruct K as (C0 & S & rest & ->). assert (SC := count_concat es l F). change (count (List.concat l ++ rest) = es * c) in S.
      rewrite count_app, SC in S. destruct (take rest (es * n)) as (y & q & -> & Y); [nia|].
      destruct (cut es (Z.to_nat n) y P) as (u & <- & U & FU); [lia|]. exists u. split; [lia|]. split; [auto|].
      cbn. split; [auto|]. split; [|exists q; now rewrite concat_app, app_assoc].
      change (count (List.concat l ++ List.concat u ++ q) = es * c). rewrite count_app in S. rewrite !count_app. lia.
    - subst c. exists []. cbn. repeat split; auto. change (count []) with 0. lia. }
  eexists Done, _, (l ++ u). split; [reflexivity|]. split; [econstructor; eauto|].
  unfold holds. cbn [fst snd with_content v_elem v_length v_capacity v_content]. rewrite count_app. repeat split; auto; try lia.
  apply Forall_app; auto.
Qed.

Lemma split_at : forall (l : list bytes) i, 0 <= i < count l ->
  exists p x q, l = p ++ x :: q /\ count p = i /\ nth_error l (Z.to_nat i) = Some x /\ forall y, replace (Z.to_nat i) y l = p ++ y :: q.
Proof.
  intros. destruct (nth_error l (Z.to_nat i)) as [x|] eqn:N.
  2:{ apply nth_error_None in N. unfold count in *; lia. }
  destruct (nth_error_split _ _ N) as (p & q & -> & Q). exists p, x, q. repeat split; auto.
  - unfold count; lia.
  - intros. unfold replace. rewrite <- Q, firstn_app, firstn_all, Nat.sub_diag. cbn [firstn]. rewrite app_nil_r. f_equal. f_equal.
    replace (S (length p)) with (length (p ++ [x])) by (rewrite app_length; cbn; lia).
    change (p ++ x :: q) with (p ++ [x] ++ q). rewrite app_assoc, skipn_app, skipn_all, Nat.sub_diag. reflexivity.
Qed.

Lemma get_ok : forall es v l c i, holds es v (l, c) -> 0 <= i ->
  exists r, step v (Get i) = Some (r, v) /\ expected es (l, c) (Get i) r (l, c).
Proof.
  intros * (E & L & C & P & B & R & F & K) I0. cbn [fst snd] in *. cbn [step]. unfold get, vector_at. rewrite L, E.
  destruct (Z.ltb_spec i (count l)) as [Q|Q].
  2:{ eexists. split; [reflexivity|]. constructor; lia. }
  destruct (split_at l i) as (p & x & q & -> & N & NE & _); [lia|].
  destruct (room es i c) as (R1 & R2 & R3); [lia..|].
  destruct (v_content v) as [b|]; cbn in K; [|lia]. destruct K as (_ & _ & rest & ->).
  apply Forall_app in F as [F1 F2]. inversion F2 as [|? ? FX F3]; subst x0 l.
  rewrite wrap_id by lia. replace (i * es) with (count (List.concat p)) by (rewrite (count_concat es p F1); lia).
  rewrite concat_app. cbn [List.concat load_at]. rewrite <- !app_assoc, <- FX, load_ok.
  eexists. split; [reflexivity|]. constructor; auto.
Qed.

Lemma set_ok : forall es v l c i x, holds es v (l, c) -> sensible es (l, c) (Set_ i x) ->
  exists r v' l', step v (Set_ i x) = Some (r, v') /\ expected es (l, c) (Set_ i x) r (l', c) /\ holds es v' (l', c).
Proof.
  intros * (E & L & C & P & B & R & F & K) (I0 & X). cbn [fst snd] in *. cbn [step]. unfold set, vector_at. rewrite L, E.
  destruct (Z.ltb_spec i (count l)) as [Q|Q].
  2:{ eexists _, v, l. split; [reflexivity|]. split; [constructor; lia|]. repeat split; auto. }
  destruct (split_at l i) as (p & y & q & -> & N & NE & RE); [lia|].
  destruct (room es i c) as (R1 & R2 & R3); [lia..|].
  destruct (v_content v) as [b|]; cbn in K; [|lia]. destruct K as (C0 & S & rest & ->).
  pose proof F as F'. apply Forall_app in F' as [F1 F2]. inversion F2 as [|? ? FX F3]; subst x0 l.
  rewrite wrap_id by lia. replace (i * es) with (count (List.concat p)) by (rewrite (count_concat es p F1); lia).
  rewrite concat_app in S |- *. cbn [List.concat store_at] in S |- *. rewrite <- !app_assoc in S |- *. rewrite store_ok by congruence.
  eexists Done, _, (p ++ x :: q). split; [reflexivity|]. split; [rewrite <- (RE x) at 1; apply x_set; lia|].
  assert (count (p ++ x :: q) = count (p ++ y :: q)) as CE by (unfold count; rewrite !app_length; cbn [length]; lia).
  unfold holds, content_ok. cbn [fst snd with_content v_elem v_length v_capacity v_content]. rewrite CE. repeat split; auto; try lia.
  - apply Forall_app; split; auto.
  - change (count (List.concat p ++ y ++ List.concat q ++ rest) = es * c) in S.
    change (count (List.concat p ++ x ++ List.concat q ++ rest) = es * c). rewrite !count_app in *. lia.
  - exists rest. rewrite concat_app. cbn [List.concat]. now rewrite <- !app_assoc.
Qed.

(** Growing or shrinking within the supported cases keeps the elements *)
Lemma realloc_ok : forall es v l c n al, holds es v (l, c) -> sensible es (l, c) (Realloc n al) -> supported es (l, c) (Realloc n al) ->
  exists r v' c', vector_realloc al n v = (r, v') /\ expected es (l, c) (Realloc n al) (answer_of r) (l, c') /\ holds es v' (l, c')
    /\ (count l <= n -> r = Ok /\ c' = n).
Proof.
  intros * (E & L & C & P & B & R & F & K) (N & M & AL) (SU1 & SU2). cbn [fst snd] in *.
  unfold vector_realloc. rewrite L, E. pose proof (count_nonneg _ l).
  assert (ST : match v_content v with Some _ => 0 <? count l | None => count l =? 0 end = true).
  { destruct (v_content v) as [b|]; cbn in K.
    - apply Z.ltb_lt. destruct l; [specialize (SU1 eq_refl); lia|]. unfold count; cbn [length]; lia.
    - apply Z.eqb_eq. lia. }
  rewrite ST. destruct (Z.leb_spec (count l) n) as [Q|Q].
  2:{ exists OutOfBounds, v, c. split; [reflexivity|]. split; [constructor; lia|]. split; [repeat split; auto|lia]. }
  rewrite wrap_id by nia. unfold reallocate. destruct (al (es * n)) as [fresh|] eqn:A.
  2:{ exfalso; apply (SU2 Q eq_refl). }
  assert (CF := AL (es * n) fresh ltac:(nia) A).
  eexists Ok, _, n. split; [reflexivity|]. split; [constructor; [lia|congruence]|]. split; [|auto].
  unfold holds, content_ok. cbn [fst snd v_elem v_length v_capacity v_content]. repeat split; auto; try lia.
  - change (count (firstn (length fresh) match v_content v with Some b => b | None => [] end ++
      skipn (length (firstn (length fresh) match v_content v with Some b => b | None => [] end)) fresh) = es * n).
    unfold count in *. rewrite app_length, skipn_length, firstn_length. lia.
  - assert (SC := count_concat es l F). destruct (v_content v) as [b|]; cbn in K.
    + destruct K as (_ & S & rest & ->).
      exists (firstn (length fresh - length (List.concat l)) rest ++ skipn (length (firstn (length fresh) (List.concat l ++ rest))) fresh).
      rewrite firstn_app, firstn_all2 by (unfold count in *; nia). now rewrite <- app_assoc.
    + assert (l = []) as -> by (destruct l; [auto|unfold count in *; cbn [length] in *; lia]).
      rewrite firstn_nil. eexists. reflexivity.
Qed.

Theorem step_ok : forall es v s o, holds es v s -> sensible es s o -> supported es s o ->
  exists a v' s', step v o = Some (a, v') /\ expected es s o a s' /\ holds es v' s'.
Proof.
  intros es v (l, c) o H SE SU. destruct o.
  - destruct (append_ok es v l c x H SE) as (r & v' & l' & A & X & H' & _). cbn [step]. rewrite A. eauto 8.
  - destruct (copy_ok es v l c xs H SE SU) as (r & v' & l' & A & X & H'). eauto 8.
  - destruct (extend_ok es v l c n H SE) as (r & v' & l' & A & X & H'). eauto 8.
  - destruct (get_ok es v l c i H SE) as (r & A & X). eauto 8.
  - destruct (set_ok es v l c i x H SE) as (r & v' & l' & A & X & H'). eauto 8.
  - destruct (realloc_ok es v l c n al H SE SU) as (r & v' & c' & A & X & H' & _). cbn [step]. rewrite A. eauto 8.
  - pose proof H as (E & L & _). cbn [fst] in L. cbn [step]. rewrite L. exists (Number (count l)), v, (l, c). repeat split; auto; try apply H. constructor.
  - pose proof H as (E & L & C & P & B & R & _). cbn [fst snd] in *. cbn [step]. unfold vector_available. rewrite L, C.
    pose proof (count_nonneg _ l). rewrite wrap_id by (pose proof (room es (count l) c); lia).
    exists (Number (c - count l)), v, (l, c). repeat split; auto; try apply H. constructor.
Qed.

Theorem run_ok : forall os es v s, holds es v s -> may es s os ->
  exists rs v' s', run v os = Some (rs, v') /\ expected_run es s os rs s' /\ holds es v' s'.
Proof.
  induction os as [|o os]; intros * H M.
  - exists [], v, s. cbn. split; [auto|]. split; [constructor|auto].
  - destruct M as (SE & SU & M). destruct (step_ok es v s o H SE SU) as (a & v1 & s1 & S1 & X1 & H1).
    destruct (IHos es v1 s1 H1 (M a s1 X1)) as (rs & v2 & s2 & S2 & X2 & H2).
    exists (a :: rs), v2, s2. cbn [run]. rewrite S1, S2. split; [auto|]. split; [econstructor; eauto|auto].
Qed.

Lemma alloc_ok : forall al es c v, allocates al -> 0 < es -> 0 <= c -> es * c < 2 ^ 64 -> vector_alloc al es c = Some v -> holds es v ([], c).
Proof.
  intros * AL P C B A. unfold vector_alloc in A. destruct (Z.leb_spec es 0); [lia|].
  destruct (Z.ltb_spec 0 c).
  - rewrite wrap_id in A by nia. destruct (al (es * c)) as [b|] eqn:AB; [|discriminate A]. injection A as <-.
    unfold holds; cbn -[Z.pow Z.mul]. repeat split; auto; try lia.
    + apply (AL (es * c) b ltac:(nia) AB).
    + exists b; reflexivity.
  - injection A as <-. unfold holds; cbn -[Z.pow Z.mul]. repeat split; auto; try lia.
Qed.

Lemma block_alloc_ok : forall al es c v, allocates al -> 0 < es -> 0 <= c -> es * c < 2 ^ 64 -> block_alloc al es c = Some v -> holds es v ([], c).
Proof.
  intros * AL P C B A. apply (alloc_ok al es c v); auto. unfold block_alloc, vector_init in A. unfold vector_alloc.
  destruct (Z.leb_spec es 0); [lia|]. destruct (Z.eqb_spec c 0) as [->|].
  - cbn in *. exact A.
  - replace (0 <? c) with true in * by (symmetry; apply Z.ltb_lt; lia). destruct (al (wrap (es * c))); exact A.
Qed.

Definition generous (al : allocator) : Prop := allocates al /\ forall n, 0 <= n < 2 ^ 64 -> al n <> None.

Lemma build_ok : forall al es v l c x, holds es v (l, c) -> count x = es -> generous al -> es * (3 * count l + 5) < 2 ^ 64 ->
  exists v' c', build al v x = Some (Ok, v') /\ holds es v' (l ++ [x], c').
Proof.
  intros * H X (AL & G) BB. pose proof H as (E & L & C & P & B & R & F & K). cbn [fst snd] in *.
  pose proof (count_nonneg _ l). destruct (room es (count l) c) as (R1 & R2 & R3); [lia..|].
  unfold build, vector_available. rewrite L, C, wrap_id by lia.
  destruct (Z.eqb_spec (c - count l) 0) as [Q|Q].
  - assert (U : 3 * count l + 5 < 2 ^ 64) by nia. unfold grow. rewrite (wrap_id (3 * count l)) by lia.
    assert (D : 0 <= 3 * count l / 2 <= 3 * count l) by (split; [apply Z.div_pos; lia|apply Z.div_le_upper_bound; lia]).
    assert (D2 : count l <= 3 * count l / 2) by (apply Z.div_le_lower_bound; lia).
    rewrite wrap_id by lia. assert (GB : 0 <= es * (3 * count l / 2 + 5) < 2 ^ 64) by (split; nia). unfold block_realloc. destruct (Z.eqb_spec (3 * count l / 2 + 5) 0); [lia|].
    destruct (realloc_ok es v l c (3 * count l / 2 + 5) al H) as (r & v1 & c1 & A & _ & H1 & Y).
    + cbn [sensible supported fst snd]. split; [lia|]. split; [lia|auto].
    + cbn [sensible supported fst snd]. split; [intros ->; change (count (@nil (list Z))) with 0 in Q; lia|]. intros _. apply G. lia.
    + destruct (Y ltac:(lia)) as [-> ->]. rewrite A.
      destruct (append_ok es v1 l _ x H1 X) as (r & v2 & l2 & A2 & _ & H2 & Y2).
      destruct (Y2 ltac:(lia)) as [-> ->]. eauto.
  - destruct (append_ok es v l c x H X) as (r & v2 & l2 & A2 & _ & H2 & Y2).
    destruct (Y2 ltac:(lia)) as [-> ->]. eauto.
Qed.
