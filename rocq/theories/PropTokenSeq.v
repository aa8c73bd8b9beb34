(** C42: preprocessor token sequences (source/preprocessor/token_sequence.c). *)

From Coq Require Import Bool List Lia Arith.
Import ListNotations.

Section Seq.
Variable T : Type. (* tokens *)
Variable is_space : T -> bool.

(** ** Model *)

(** struct buffer_element, token_sequence.c:25-28: tokens and read index.  A token moved
    out by kefir_token_move stays in the array in an unusable form: it is [None]. *)
Record element := { tokens : list (option T); index : nat }.
(** buffer_stack; its tail (the top of the stack) comes first here. *)
Definition seq := list element.

(** kefir_preprocessor_token_sequence_push_front, :60-91 *)
Definition push_front (s : seq) (src : list T) : seq := {| tokens := map Some src; index := 0 |} :: s.

(** next_buffer_elt, :92-104: drop exhausted buffers; [None] is KEFIR_ITERATOR_END. *)
Fixpoint next_buffer_elt (s : seq) : option (element * seq) :=
  match s with
  | [] => None
  | e :: r => if index e =? length (tokens e) then next_buffer_elt r else Some (e, r)
  end.

Inductive reply := End | Token (t : T) | Garbage | Done.

Fixpoint move_out (l : list (option T)) (i : nat) : list (option T) :=
  match l, i with
  | [], _ => []
  | _ :: r, O => None :: r
  | x :: r, S i => x :: move_out r i
  end.
Definition read (l : list (option T)) (i : nat) : reply :=
  match nth_error l i with Some (Some t) => Token t | _ => Garbage end.

(** kefir_preprocessor_token_sequence_next, :106-119, with [token_ptr] (the token is moved
    out) or without (it is only skipped). *)
Definition next (s : seq) (want : bool) : reply * seq :=
  match next_buffer_elt s with
  | None => (End, [])
  | Some (e, r) =>
    if want then (read (tokens e) (index e), {| tokens := move_out (tokens e) (index e); index := S (index e) |} :: r)
    else (Done, {| tokens := tokens e; index := S (index e) |} :: r)
  end.

(** kefir_preprocessor_token_sequence_current, :138-150 *)
Definition current (s : seq) : reply * seq :=
  match next_buffer_elt s with
  | None => (End, [])
  | Some (e, r) => (read (tokens e) (index e), e :: r)
  end.

(** kefir_preprocessor_token_sequence_skip_whitespaces, :152-182, with the white space
    shifted to a buffer (kefir_preprocessor_token_sequence_shift, :121-136) or dropped.
    The fuel bounds the iterations. *)
Fixpoint skip_whitespaces (fuel : nat) (s : seq) (keep : bool) (buf : list reply) : option (reply * list reply * seq) :=
  match fuel with
  | O => None
  | S fuel =>
    match current s with
    | (Token t, s1) =>
      if is_space t then
        let (r, s2) := next s1 keep in
        skip_whitespaces fuel s2 keep (if keep then buf ++ [r] else buf)
      else Some (Token t, buf, s1)
    | (r, s1) => Some (r, buf, s1)
    end
  end.

Inductive sop := Push (l : list T) | Next | Drop | Current.
Definition sstep (s : seq) (o : sop) : reply * seq :=
  match o with
  | Push l => (Done, push_front s l)
  | Next => next s true
  | Drop => next s false
  | Current => current s
  end.
Fixpoint srun (s : seq) (l : list sop) : list reply * seq :=
  match l with
  | [] => ([], s)
  | o :: l => let (r, s1) := sstep s o in let (rs, s2) := srun s1 l in (r :: rs, s2)
  end.

(** ** Specification: the sequence is the list of tokens still to come *)

Definition astep (l : list T) (o : sop) : reply * list T :=
  match o with
  | Push p => (Done, p ++ l)
  | Next => match l with [] => (End, []) | t :: r => (Token t, r) end
  | Drop => match l with [] => (End, []) | _ :: r => (Done, r) end
  | Current => match l with [] => (End, []) | t :: _ => (Token t, l) end
  end.
Fixpoint arun (l : list T) (os : list sop) : list reply * list T :=
  match os with
  | [] => ([], l)
  | o :: os => let (r, l1) := astep l o in let (rs, l2) := arun l1 os in (r :: rs, l2)
  end.
Fixpoint span (l : list T) : list T * list T :=
  match l with
  | t :: r => if is_space t then let (a, b) := span r in (t :: a, b) else ([], l)
  | [] => ([], [])
  end.

(** ** Proofs *)

(** What is left of an element is intact. *)
Definition left_of (e : element) (l : list T) : Prop :=
  index e <= length (tokens e) /\ skipn (index e) (tokens e) = map Some l.
Fixpoint yields (s : seq) (l : list T) : Prop :=
  match s with
  | [] => l = []
  | e :: r => exists a b, l = a ++ b /\ left_of e a /\ yields r b
  end.

Lemma next_elt_spec : forall s l, yields s l ->
  match next_buffer_elt s with
  | None => l = []
  | Some (e, r) => exists t a b, l = t :: a ++ b /\ left_of e (t :: a) /\ yields r b
  end.
Proof.
  induction s as [|e s IH]; intros l H; cbn in *; [exact H|].
  destruct H as (a & b & -> & [Hi Hs] & Hy). destruct (index e =? length (tokens e)) eqn:E.
  - apply Nat.eqb_eq in E. rewrite E, skipn_all in Hs. destruct a; [|discriminate]. cbn. apply IH. exact Hy.
  - apply Nat.eqb_neq in E. destruct a as [|t a].
    + exfalso. apply (f_equal (@length _)) in Hs. rewrite skipn_length in Hs. cbn in Hs. lia.
    + exists t, a, b. split; [reflexivity|]. split; [split; assumption|exact Hy].
Qed.

Lemma skipn_cons : forall A (l : list A) i x r, skipn i l = x :: r -> nth_error l i = Some x /\ skipn (S i) l = r /\ i < length l.
Proof.
  induction l; intros i x r H; [destruct i; discriminate|]. destruct i; cbn in *.
  - injection H as -> ->. repeat split. lia.
  - apply IHl in H. destruct H as (? & ? & ?). repeat split; auto. lia.
Qed.

Lemma move_out_skip : forall l i, skipn (S i) (move_out l i) = skipn (S i) l /\ length (move_out l i) = length l.
Proof.
  induction l; intros i; [destruct i; auto|]. destruct i; [auto|]. cbn [move_out length].
  destruct (IHl i) as [E1 E2]. split; [exact E1|]. rewrite E2. reflexivity.
Qed.

Lemma sstep_spec : forall s l o, yields s l ->
  fst (sstep s o) = fst (astep l o) /\ yields (snd (sstep s o)) (snd (astep l o)).
Proof.
  intros s l o H. destruct o as [p| | |]; cbn [sstep astep].
  - split; [reflexivity|]. cbn. exists p, l. split; [reflexivity|]. split; [|exact H].
    split; cbn; [lia|reflexivity].
  - unfold next. apply next_elt_spec in H. destruct (next_buffer_elt s) as [[e r]|].
    + destruct H as (t & a & b & -> & [Hi Hs] & Hy). cbn [fst snd]. cbn [map] in Hs.
      apply skipn_cons in Hs. destruct Hs as (H1 & H2 & H3). unfold read. rewrite H1. split; [reflexivity|].
      cbn [yields]. exists a, b. split; [reflexivity|]. split; [|exact Hy].
      destruct (move_out_skip (tokens e) (index e)) as [M1 M2].
      split; cbn [tokens index]; [rewrite M2; lia|]. rewrite M1. exact H2.
    + subst l. split; reflexivity.
  - unfold next. apply next_elt_spec in H. destruct (next_buffer_elt s) as [[e r]|].
    + destruct H as (t & a & b & -> & [Hi Hs] & Hy). cbn [fst snd]. cbn [map] in Hs.
      apply skipn_cons in Hs. destruct Hs as (H1 & H2 & H3). split; [reflexivity|].
      cbn [yields]. exists a, b. split; [reflexivity|]. split; [|exact Hy].
      split; cbn [tokens index]; [lia|]. exact H2.
    + subst l. split; reflexivity.
  - unfold current. apply next_elt_spec in H. destruct (next_buffer_elt s) as [[e r]|].
    + destruct H as (t & a & b & -> & [Hi Hs] & Hy). cbn [fst snd]. split.
      * cbn [map] in Hs. apply skipn_cons in Hs. destruct Hs as (H1 & _ & _). unfold read. rewrite H1. reflexivity.
      * exists (t :: a), b. split; [reflexivity|]. split; [split; assumption|exact Hy].
    + subst l. split; reflexivity.
Qed.

Lemma srun_spec : forall os s l, yields s l ->
  fst (srun s os) = fst (arun l os) /\ yields (snd (srun s os)) (snd (arun l os)).
Proof.
  induction os as [|o os IH]; intros s l H; [auto|]. cbn [srun arun].
  destruct (sstep_spec s l o H) as [H1 H2].
  destruct (sstep s o) as [r s1], (astep l o) as [r' l1]. cbn [fst snd] in *. subst r'.
  destruct (IH _ _ H2) as [H3 H4]. destruct (srun s1 os), (arun l1 os). cbn [fst snd] in *. split; congruence.
Qed.

Lemma skip_spec : forall fuel s l keep buf, yields s l -> length l < fuel ->
  exists s', skip_whitespaces fuel s keep buf =
    Some (match snd (span l) with [] => End | t :: _ => Token t end,
          buf ++ (if keep then map Token (fst (span l)) else []), s') /\ yields s' (snd (span l)).
Proof.
  induction fuel as [|fuel IH]; intros s l keep buf H Hl; [lia|]. cbn [skip_whitespaces].
  destruct (sstep_spec s l Current H) as [C1 C2]. cbn [sstep astep] in C1, C2.
  destruct (current s) as [r s1]. destruct l as [|t l]; cbn [fst snd] in C1, C2; subst r.
  - exists s1. cbn [span fst snd map]. split; [|exact C2]. destruct keep; rewrite app_nil_r; reflexivity.
  - cbn [span]. destruct (is_space t) eqn:E.
    + destruct (span l) as [a b] eqn:Es.
      destruct (sstep_spec s1 (t :: l) (if keep then Next else Drop) C2) as [N1 N2].
      assert (En : sstep s1 (if keep then Next else Drop) = next s1 keep) by (destruct keep; reflexivity).
      rewrite En in N1, N2. destruct (next s1 keep) as [r s2].
      assert (N3 : yields s2 l) by (destruct keep; exact N2).
      assert (N4 : r = if keep then Token t else Done) by (destruct keep; exact N1).
      cbn in Hl. destruct (IH s2 l keep (if keep then buf ++ [r] else buf) N3 ltac:(lia)) as (s' & E1 & E2).
      rewrite Es in E1, E2. cbn [fst snd] in *. exists s'. split; [|exact E2]. rewrite E1.
      destruct keep; [|reflexivity]. subst r. cbn [map]. rewrite <- app_assoc. reflexivity.
    + exists s1. cbn [fst snd]. split; [|exact C2]. destruct keep; cbn [map]; rewrite app_nil_r; reflexivity.
Qed.
End Seq.
Arguments Push {T} l. Arguments Next {T}. Arguments Drop {T}. Arguments Current {T}.
Arguments End {T}. Arguments Token {T} t. Arguments Done {T}. Arguments Garbage {T}.

(** ** Theorems *)

(** Whatever the interleaving of pushes, reads, skips and looks, the sequence behaves as
    the list of tokens to come; in particular no moved-out token is ever seen again. *)
Theorem c42_order : forall (T : Type) (os : list (sop T)),
  fst (srun T [] os) = fst (arun T [] os).
Proof. intros T os. apply srun_spec. reflexivity. Qed.

(** After any history, reading on to the end returns exactly the tokens to come. *)
Theorem c42_drain : forall (T : Type) (os : list (sop T)),
  let l := snd (arun T [] os) in
  fst (srun T (snd (srun T [] os)) (repeat Next (S (length l)))) = map Token l ++ [End].
Proof.
  intros T os l. destruct (srun_spec T os [] [] eq_refl) as [_ Y]. fold l in Y.
  destruct (srun_spec T (repeat Next (S (length l))) _ _ Y) as [E _]. rewrite E. clear.
  induction l as [|t l IH]; [reflexivity|].
  change (repeat Next (S (length (t :: l)))) with (@Next T :: repeat Next (S (length l))).
  revert IH. generalize (repeat (@Next T) (S (length l))). intros os1 IH. cbn [arun astep map app].
  destruct (arun T l os1). cbn [fst] in *. rewrite IH. reflexivity.
Qed.

(** Skipping white space: stops at the first other token, keeps the rest and, when asked,
    saves the white space in order. *)
Theorem c42_skip_whitespaces : forall (T : Type) (is_space : T -> bool) (os : list (sop T)) keep,
  let l := snd (arun T [] os) in
  exists s', skip_whitespaces T is_space (S (length l)) (snd (srun T [] os)) keep [] =
    Some (match snd (span T is_space l) with [] => End | t :: _ => Token t end,
          if keep then map Token (fst (span T is_space l)) else [], s') /\
    forall os', fst (srun T s' os') = fst (arun T (snd (span T is_space l)) os').
Proof.
  intros T is_space os keep l. destruct (srun_spec T os [] [] eq_refl) as [_ Y]. fold l in Y.
  destruct (skip_spec T is_space (S (length l)) _ _ keep [] Y (Nat.lt_succ_diag_r _)) as (s' & E & Y').
  exists s'. split; [exact E|]. intro os'. apply srun_spec. exact Y'.
Qed.

Example c42_example :
  fst (srun nat [] [Push [1; 2; 3]; Next; Current; Push [7; 8]; Push []; Next; Drop; Next; Current; Drop; Next]) =
  [Done; Token 1; Token 2; Done; Done; Token 7; Done; Token 2; Token 3; Done; End].
Proof. reflexivity. Qed.

Print Assumptions c42_order.
Print Assumptions c42_drain.
Print Assumptions c42_skip_whitespaces.
