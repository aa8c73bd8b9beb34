(** Facts about the conditional-inclusion model: consumption, fuel, unfolding equations. *)
From Coq Require Import ZArith List Bool Lia String.
From Verif Require Import LexModel CondModel.
Import ListNotations.
Open Scope Z_scope.

Lemma skip_ws_len : forall l, (List.length (skip_ws l) <= List.length l)%nat.
Proof. induction l as [|c r IH]; cbn [skip_ws]; [lia|]. destruct (_ && _); cbn [List.length] in *; lia. Qed.

Lemma skip_line_len : forall l, (List.length (skip_line l) <= List.length l)%nat.
Proof.
  induction l as [|c r IH]; cbn [skip_line]; [lia|].
  destruct (c =? 0); [lia|]. destruct (c =? newline); cbn [List.length] in *; lia.
Qed.

Lemma skip_line_lt : forall c r, c <> 0 -> (List.length (skip_line (c :: r)) < List.length (c :: r))%nat.
Proof.
  intros c r H. cbn [skip_line]. rewrite (proj2 (Z.eqb_neq c 0) H). pose proof (skip_line_len r).
  destruct (c =? newline); cbn [List.length]; lia.
Qed.

Lemma scan_name_len : forall n l, (List.length (snd (scan_name n l)) <= List.length l)%nat.
Proof.
  induction n as [|n IH]; intros [|c r]; cbn [scan_name snd]; try lia.
  destruct (is_nondigit c); [|cbn [snd]; lia]. specialize (IH r). destruct (scan_name n r) as [w r'].
  cbn [snd List.length] in *. lia.
Qed.

Definition keyword_type (d : dtype) : bool :=
  match d with DEmpty | DNon | DPpToken | DSentinel => false | _ => true end.

Lemma known_keyword : forall w d, find_known known w = Some d -> keyword_type d = true.
Proof.
  intros w d. unfold known. generalize (text "if"), (text "ifdef"), (text "ifndef"), (text "elif"),
    (text "else"), (text "endif"), (text "include"), (text "define"), (text "undef"), (text "error"), (text "line").
  intros; cbn [find_known] in *.
  repeat match goal with X : (if ?b then _ else _) = _ |- _ => destruct b end;
  match goal with X : Some _ = Some _ |- _ => injection X as <- | X : None = Some _ |- _ => discriminate X end; reflexivity.
Qed.

Lemma match_shape : forall l d r, match_directive l = (d, r) ->
  match d with
  | DSentinel => (List.length r <= List.length l)%nat
  | DPpToken => r = l /\ exists c t, l = c :: t /\ c <> 0
  | DNon => (List.length r <= List.length l)%nat /\ exists t, r = 35 :: t
  | _ => (List.length r < List.length l)%nat
  end.
Proof.
  intros l d r H. unfold match_directive in H. pose proof (skip_ws_len l) as L.
  destruct (skip_ws l) as [|c t] eqn:E.
  - injection H as <- <-. cbn [List.length]. lia.
  - destruct (c =? 0) eqn:C0.
    + injection H as <- <-. cbn [List.length] in *. lia.
    + destruct (c =? 35) eqn:C1; cbn [negb] in H.
      * pose proof (skip_ws_len t) as L2. destruct (char_at (skip_ws t) 0 =? newline).
        -- injection H as <- <-. cbn [List.length] in *. lia.
        -- pose proof (scan_name_len 63 (skip_ws t)) as L3.
           destruct (scan_name 63 (skip_ws t)) as [w rest]. cbn [snd] in L3.
           destruct (find_known known w) as [d'|] eqn:F.
           ++ apply known_keyword in F. injection H as <- <-. cbn [List.length] in L.
              destruct d'; try discriminate F; lia.
           ++ injection H as <- <-. split; [lia|]. apply Z.eqb_eq in C1. subst. eauto.
      * injection H as <- <-. split; [reflexivity|].
        destruct l as [|c' t']; [discriminate E|]. exists c', t'. split; [reflexivity|].
        cbn [skip_ws] in E. intros ->. cbn in E. injection E as <- <-. discriminate C0.
Qed.

Lemma skip_group_fuel : forall n f1 f2 k l, (List.length l < n)%nat -> (n <= f1)%nat -> (n <= f2)%nat ->
  skip_group f1 k l = skip_group f2 k l /\
  exists s, skip_group f1 k l = Done s /\ (List.length s <= List.length l)%nat.
Proof.
  induction n as [|n IH]; intros f1 f2 k l L H1 H2; [lia|].
  destruct f1 as [|f1]; [lia|]. destruct f2 as [|f2]; [lia|]. cbn [skip_group].
  destruct (match_directive l) as [d r] eqn:E. apply match_shape in E.
  assert (Go : forall k' s, (List.length s < List.length l)%nat ->
            skip_group f1 k' s = skip_group f2 k' s /\
            exists s', skip_group f1 k' s = Done s' /\ (List.length s' <= List.length l)%nat).
  { intros k' s Ls. destruct (IH f1 f2 k' s) as (A & s' & B & D); [lia..|]. split; [exact A|].
    exists s'. split; [exact B|lia]. }
  pose proof (skip_line_len r).
  destruct d; try (apply Go; lia).
  - destruct k; [split; eauto|apply Go; lia].
  - destruct k; [split; eauto|apply Go; lia].
  - destruct k; [split; eauto|apply Go; lia].
  - destruct E as (E & t & ->). apply Go. pose proof (skip_line_lt 35 t ltac:(lia)). lia.
  - destruct E as (-> & c & t & -> & C). apply Go. now apply skip_line_lt.
  - split; [reflexivity|]. exists r. split; [reflexivity|lia].
Qed.

(** Skipping, without fuel *)
Definition skip (k : nat) (l : list Z) : outcome (list Z) := skip_group (S (List.length l)) k l.

Lemma skip_done : forall k l, exists s, skip k l = Done s /\ (List.length s <= List.length l)%nat.
Proof.
  intros k l. destruct (skip_group_fuel (S (List.length l)) (S (List.length l)) (S (List.length l)) k l)
    as (_ & H); [lia..|exact H].
Qed.

Lemma skip_any : forall f k l, (List.length l < f)%nat -> skip_group f k l = skip k l.
Proof. intros f k l H. apply (skip_group_fuel (S (List.length l)) f (S (List.length l)) k l); lia. Qed.

Lemma skip_eq : forall k l, skip k l =
  let (d, r) := match_directive l in
  match d with
  | DIf | DIfdef | DIfndef => skip (S k) (skip_line r)
  | DElif | DElse => match k with O => Done l | S _ => skip k r end
  | DEndif => match k with O => Done l | S n => skip n (skip_line r) end
  | DSentinel => Done r
  | _ => skip k (skip_line r)
  end.
Proof.
  intros k l. unfold skip at 1. cbn [skip_group]. destruct (match_directive l) as [d r] eqn:E.
  apply match_shape in E. pose proof (skip_line_len r).
  destruct d; try (apply skip_any; lia); try reflexivity; try (destruct k; [reflexivity|apply skip_any; lia]).
  - destruct E as (E & t & ->). apply skip_any. pose proof (skip_line_lt 35 t ltac:(lia)). lia.
  - destruct E as (-> & c & t & -> & C). apply skip_any. now apply skip_line_lt.
Qed.

Section Run.
Variables M Out : Type.
Variable txt : M -> list Z -> Out.
Variable eval : M -> list Z -> option bool.
Variable defd : M -> list Z -> option bool.
Variable step : M -> dtype -> list Z -> option (M * list Out).
Variable line_ok : M -> list Z -> bool.
Notation group := (group M Out txt eval defd step line_ok).
Notation flush := (flush M Out txt).

Definition fine (n : nat) (x y : outcome (pstate M Out)) : Prop :=
  x = y /\ x <> NoFuel /\ forall s m o lg, x = Done (s, m, o, lg) -> (List.length s <= n)%nat.

Lemma fine_done : forall n s m o lg, (List.length s <= n)%nat -> fine n (Done (s, m, o, lg)) (Done (s, m, o, lg)).
Proof. intros. split; [reflexivity|]. split; [discriminate|]. intros s' m' o' lg' E. injection E as <- <- <- <-. assumption. Qed.

Lemma fine_fail : forall n, fine n Fail Fail.
Proof. intros. split; [reflexivity|]. split; [discriminate|]. discriminate. Qed.

Lemma fine_weaken : forall n n' x y, (n <= n')%nat -> fine n x y -> fine n' x y.
Proof. intros n n' x y L (A & B & C). split; [exact A|]. split; [exact B|]. intros s m o lg E. apply C in E. lia. Qed.

Lemma group_fuel : forall n f1 f2 cs gb src m out log,
  (List.length src < n)%nat -> (n <= f1)%nat -> (n <= f2)%nat ->
  fine (List.length src) (group f1 cs gb src m out log) (group f2 cs gb src m out log).
Proof.
  induction n as [|n IH]; intros f1 f2 cs gb src m out log L H1 H2; [lia|].
  destruct f1 as [|f1]; [lia|]. destruct f2 as [|f2]; [lia|]. cbn [CondModel.group].
  destruct (match_directive src) as [d r] eqn:E. apply match_shape in E.
  assert (Go : forall cs gb s m out log, (List.length s < List.length src)%nat ->
            fine (List.length src) (group f1 cs gb s m out log) (group f2 cs gb s m out log)).
  { intros cs' gb' s m' out' log' Ls. eapply fine_weaken; [|apply IH; lia]. lia. }
  assert (Tk : forall lg, (List.length r < List.length src)%nat ->
     fine (List.length src)
      (bindO (group f1 CNone [] (skip_line r) m (flush m out gb) lg)
        (fun p => match p with (s, m', out', lg') => group f1 CSuccess [] s m' out' lg' end))
      (bindO (group f2 CNone [] (skip_line r) m (flush m out gb) lg)
        (fun p => match p with (s, m', out', lg') => group f2 CSuccess [] s m' out' lg' end))).
  { intros lg Lr. pose proof (skip_line_len r).
    destruct (IH f1 f2 CNone [] (skip_line r) m (flush m out gb) lg) as (A & B & C); [lia..|].
    rewrite <- A. destruct (group f1 CNone [] (skip_line r) m (flush m out gb) lg) as [[[[s m'] o'] lg']| |] eqn:Eg.
    - cbn [bindO]. specialize (C _ _ _ _ eq_refl). apply Go. lia.
    - apply fine_fail.
    - congruence. }
  assert (Sk : forall c gb' out' lg, (List.length r < List.length src)%nat ->
     fine (List.length src)
      (bindO (skip_group (S (List.length (skip_line r))) 0 (skip_line r)) (fun s => group f1 c gb' s m out' lg))
      (bindO (skip_group (S (List.length (skip_line r))) 0 (skip_line r)) (fun s => group f2 c gb' s m out' lg))).
  { intros c gb' out' lg Lr. pose proof (skip_line_len r).
    destruct (skip_done 0 (skip_line r)) as (s & Es & Ls). unfold skip in Es. rewrite Es. cbn [bindO].
    apply Go. lia. }
  pose proof (skip_line_len r).
  destruct d.
  - destruct (eval m (take_line r)) as [[|]|]; [apply Tk; lia|apply Sk; lia|apply fine_fail].
  - destruct (defd m (take_line r)) as [[|]|]; [apply Tk; lia|apply Sk; lia|apply fine_fail].
  - destruct (defd m (take_line r)) as [[|]|]; [apply Sk; lia|apply Tk; lia|apply fine_fail].
  - destruct cs; [apply fine_done; lia|apply Sk; lia|].
    destruct (eval m (take_line r)) as [[|]|]; [apply Tk; lia|apply Sk; lia|apply fine_fail].
  - destruct cs; [apply fine_done; lia|apply Sk; lia|apply Tk; lia].
  - destruct cs; [apply fine_done; lia|apply Go; lia|apply Go; lia].
  - destruct (step m DInclude (take_line r)) as [[m' o]|]; [apply Go; lia|apply fine_fail].
  - destruct (step m DDefine (take_line r)) as [[m' o]|]; [apply Go; lia|apply fine_fail].
  - destruct (step m DUndef (take_line r)) as [[m' o]|]; [apply Go; lia|apply fine_fail].
  - apply fine_fail.
  - destruct (line_ok m (take_line r)); [apply Go; lia|apply fine_fail].
  - apply Go; lia.
  - destruct E as (E & t & ->). apply Go. pose proof (skip_line_lt 35 t ltac:(lia)). lia.
  - destruct E as (-> & c & t & -> & C). apply Go. now apply skip_line_lt.
  - apply fine_done; lia.
Qed.

(** The loop, without fuel *)
Definition loop cs gb src m out log := group (S (List.length src)) cs gb src m out log.

Lemma loop_any : forall f cs gb src m out log, (List.length src < f)%nat ->
  group f cs gb src m out log = loop cs gb src m out log.
Proof. intros. apply (group_fuel (S (List.length src))); lia. Qed.

Lemma loop_result : forall cs gb src m out log,
  loop cs gb src m out log <> NoFuel /\
  forall s m' o lg, loop cs gb src m out log = Done (s, m', o, lg) -> (List.length s <= List.length src)%nat.
Proof.
  intros. destruct (group_fuel (S (List.length src)) (S (List.length src)) (S (List.length src)) cs gb src m out log)
    as (_ & A & B); [lia..|]. split; assumption.
Qed.

Definition take_group gb m out next log : outcome (pstate M Out) :=
  bindO (loop CNone [] next m (flush m out gb) log)
    (fun p => match p with (s, m', out', lg') => loop CSuccess [] s m' out' lg' end).
Definition skip_then c gb next m out log : outcome (pstate M Out) :=
  bindO (skip 0 next) (fun s => loop c gb s m out log).

Lemma loop_eq : forall cs gb src m out log, loop cs gb src m out log =
  let (d, r) := match_directive src in
  let ops := take_line r in
  let next := skip_line r in
  match d with
  | DIfdef | DIfndef =>
    match defd m ops with
    | None => Fail
    | Some b =>
      if (match d with DIfndef => negb b | _ => b end)
      then take_group gb m out next (log ++ [Asked m d ops])
      else skip_then CFail gb next m out (log ++ [Asked m d ops])
    end
  | DEndif => match cs with CNone => Done (src, m, flush m out gb, log) | _ => loop CNone gb next m out log end
  | DElse =>
    match cs with
    | CNone => Done (src, m, flush m out gb, log)
    | CFail => take_group gb m out next log
    | CSuccess => skip_then CSuccess gb next m out log
    end
  | DIf =>
    match eval m ops with
    | None => Fail
    | Some true => take_group gb m out next (log ++ [Asked m d ops])
    | Some false => skip_then CFail [] next m (flush m out gb) (log ++ [Asked m d ops])
    end
  | DElif =>
    match cs with
    | CNone => Done (src, m, flush m out gb, log)
    | CFail =>
      match eval m ops with
      | None => Fail
      | Some true => take_group gb m out next (log ++ [Asked m d ops])
      | Some false => skip_then CFail [] next m (flush m out gb) (log ++ [Asked m d ops])
      end
    | CSuccess => skip_then CSuccess [] next m (flush m out gb) log
    end
  | DInclude | DDefine | DUndef =>
    match step m d ops with
    | None => Fail
    | Some (m', o) => loop cs [] next m' (flush m out gb ++ o) (log ++ [Did m d ops])
    end
  | DError => Fail
  | DLine => if line_ok m ops then loop cs gb next m out (log ++ [Did m d ops]) else Fail
  | DEmpty => loop cs gb r m out log
  | DNon => loop cs gb next m out log
  | DPpToken => loop cs (gb ++ [ops]) next m out log
  | DSentinel => Done (r, m, flush m out gb, log)
  end.
Proof.
  intros. unfold loop at 1. cbn [CondModel.group].
  destruct (match_directive src) as [d r] eqn:E. apply match_shape in E.
  pose proof (skip_line_len r).
  assert (Tk : forall lg, (List.length r < List.length src)%nat ->
      bindO (group (List.length src) CNone [] (skip_line r) m (flush m out gb) lg)
        (fun p => match p with (s, m', out', lg') => group (List.length src) CSuccess [] s m' out' lg' end)
      = take_group gb m out (skip_line r) lg).
  { intros lg Lr. unfold take_group. rewrite loop_any by lia.
    destruct (loop_result CNone [] (skip_line r) m (flush m out gb) lg) as (A & B).
    destruct (loop CNone [] (skip_line r) m (flush m out gb) lg) as [[[[s m'] o'] lg']| |]; [|reflexivity..].
    cbn [bindO]. specialize (B _ _ _ _ eq_refl). apply loop_any. lia. }
  assert (Sk : forall c gb' out' lg, (List.length r < List.length src)%nat ->
      bindO (skip_group (S (List.length (skip_line r))) 0 (skip_line r)) (fun s => group (List.length src) c gb' s m out' lg)
      = skip_then c gb' (skip_line r) m out' lg).
  { intros c gb' out' lg Lr. unfold skip_then. fold (skip 0 (skip_line r)).
    destruct (skip_done 0 (skip_line r)) as (s & Es & Ls). rewrite Es. cbn [bindO]. apply loop_any. lia. }
  destruct d.
  - destruct (eval m (take_line r)) as [[|]|]; [apply Tk; lia|apply Sk; lia|reflexivity].
  - destruct (defd m (take_line r)) as [[|]|]; [apply Tk; lia|apply Sk; lia|reflexivity].
  - destruct (defd m (take_line r)) as [[|]|]; [apply Sk; lia|apply Tk; lia|reflexivity].
  - destruct cs; [reflexivity|apply Sk; lia|].
    destruct (eval m (take_line r)) as [[|]|]; [apply Tk; lia|apply Sk; lia|reflexivity].
  - destruct cs; [reflexivity|apply Sk; lia|apply Tk; lia].
  - destruct cs; [reflexivity|apply loop_any; lia|apply loop_any; lia].
  - destruct (step m DInclude (take_line r)) as [[m' o]|]; [apply loop_any; lia|reflexivity].
  - destruct (step m DDefine (take_line r)) as [[m' o]|]; [apply loop_any; lia|reflexivity].
  - destruct (step m DUndef (take_line r)) as [[m' o]|]; [apply loop_any; lia|reflexivity].
  - reflexivity.
  - destruct (line_ok m (take_line r)); [apply loop_any; lia|reflexivity].
  - apply loop_any; lia.
  - destruct E as (E & t & ->). apply loop_any. pose proof (skip_line_lt 35 t ltac:(lia)). lia.
  - destruct E as (-> & c & t & -> & C). apply loop_any. now apply skip_line_lt.
  - reflexivity.
Qed.

(** Whether text sits in the group buffer or is already substituted makes no difference. *)
Lemma loop_flush : forall n cs gb src m out log, (List.length src < n)%nat ->
  loop cs gb src m out log = loop cs [] src m (flush m out gb) log.
Proof.
  assert (FF : forall m out gb, flush m (flush m out gb) [] = flush m out gb).
  { intros. unfold CondModel.flush. cbn [map]. now rewrite app_nil_r. }
  assert (FA : forall m out gb x, flush m (flush m out gb) ([] ++ [x]) = flush m out (gb ++ [x])).
  { intros. unfold CondModel.flush. cbn [app]. now rewrite map_app, app_assoc. }
  induction n as [|n IH]; intros cs gb src m out log L; [lia|].
  rewrite (loop_eq cs gb), (loop_eq cs []).
  destruct (match_directive src) as [d r] eqn:E. apply match_shape in E.
  pose proof (skip_line_len r) as SL.
  assert (TG : forall lg, take_group gb m out (skip_line r) lg = take_group [] m (flush m out gb) (skip_line r) lg)
    by (intros; unfold take_group; now rewrite FF).
  assert (ST : forall c lg, (List.length r < List.length src)%nat ->
    skip_then c gb (skip_line r) m out lg = skip_then c [] (skip_line r) m (flush m out gb) lg).
  { intros c lg Lr. unfold skip_then. destruct (skip_done 0 (skip_line r)) as (s & Es & Ls). rewrite Es.
    cbn [bindO]. apply IH. lia. }
  rewrite ?FF.
  destruct d; cbv zeta; rewrite <- ?TG.
  - reflexivity.
  - destruct (defd m (take_line r)) as [[|]|]; [reflexivity|apply ST; lia|reflexivity].
  - destruct (defd m (take_line r)) as [[|]|]; [apply ST; lia|reflexivity|reflexivity].
  - reflexivity.
  - destruct cs; [reflexivity|apply ST; lia|reflexivity].
  - destruct cs; [reflexivity|apply IH; lia|apply IH; lia].
  - reflexivity.
  - reflexivity.
  - reflexivity.
  - reflexivity.
  - destruct (line_ok m (take_line r)); [apply IH; lia|reflexivity].
  - apply IH; lia.
  - destruct E as (E & t & ->). apply IH. pose proof (skip_line_lt 35 t ltac:(lia)). lia.
  - destruct E as (-> & c & t & -> & C). pose proof (skip_line_lt c t C).
    rewrite IH by lia. rewrite (IH _ ([] ++ _)) by lia. now rewrite FA.
  - reflexivity.
Qed.
End Run.
