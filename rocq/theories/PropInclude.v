(** C65: #include finds the first file of the search order and acts as the text of that file. *)
From Coq Require Import ZArith List Bool String Lia.
From Verif Require Import LexModel CondModel PropCond IncludeModel IncludeSpec IncludeProofs.
Import ListNotations.
Open Scope Z_scope.

(** * Which file *)

(** The file opened is the one at the first place that is not empty.  Missing for the full claim: places that hold
    something else than a readable file, see [c65_search_refuted]. *)
Theorem c65_search_partial : forall F roots f system current dir p c, of_file current dir ->
  (open_source F roots f system current = Opened p c <-> found F (places roots f system dir) p c).
Proof. intros. rewrite (open_search _ _ _ _ _ _ H). apply search_found. Qed.

(** "Not found" is reported exactly if there is nothing at any place. *)
Theorem c65_not_found : forall F roots f system current dir, of_file current dir ->
  (open_source F roots f system current = NotFound <-> Forall (absent F) (places roots f system dir)).
Proof. intros. rewrite (open_search _ _ _ _ _ _ H). apply search_none. Qed.

(** 6.10.2p3: if the quoted form finds nothing beside the including file, it is as if it were the bracketed form,
    and the bracketed form does not depend on the including file. *)
Theorem c65_fallback : forall F roots f cur d, directory cur d -> absent F (d ++ slash :: f) ->
  open_source F roots f false (Some cur) = open_source F roots f true (Some cur)
  /\ forall other, open_source F roots f true other = open_source F roots f true (Some cur).
Proof.
  intros F roots f cur d D A.
  rewrite (open_search _ _ _ false (Some cur) (Some d) D), (open_search _ _ _ true (Some cur) (Some d) D).
  unfold places. split.
  - cbn [app search]. now rewrite (proj1 (look_absent F (d ++ slash :: f)) A).
  - intros [o|].
    + unfold open_source. rewrite roots_search. cbn [app]. rewrite search_app. reflexivity.
    + now rewrite (open_search _ _ _ true None None Logic.I).
Qed.

(** * What it does *)
Section Runs.
Variables M Out : Type.
Variable txt : M -> list Z -> Out.
Variable eval : M -> list Z -> option bool.
Variable defd : M -> list Z -> option bool.
Variable line_ok : M -> list Z -> bool.
Variable define : M -> dtype -> list Z -> option (M * list Out).
Variable tokens : M -> list Z -> option (list itoken).
Variable F : fs.
Variable roots : list path.
Notation preprocess := (preprocess M Out txt eval defd line_ok define tokens F roots).
Notation expands := (expands M tokens F roots).
Notation plain := (run M Out txt eval defd (flat M Out define) line_ok).

Lemma done_obs : forall n cur s m m' o, wf s ->
  ((exists lg, preprocess n cur (spell s) m = Done (m', o, lg)) <->
   obs M Out (mean M Out txt eval defd (step M Out txt eval defd line_ok define tokens F roots n cur) line_ok s m) = Some (m', o)).
Proof.
  intros n cur s m m' o W. rewrite preprocess_mean by assumption.
  destruct (mean _ _ _ _ _ _ _ s m) as [[[m1 o1] l1]|]; cbn [obs].
  - split; [intros [lg H]; injection H as -> -> _; reflexivity|intros H; injection H as -> ->; now exists l1].
  - split; [intros [lg H]; discriminate H|discriminate].
Qed.

Lemma plain_obs : forall s m m' o, wf s ->
  ((exists lg, plain (spell s) m = Done (m', o, lg)) <->
   obs M Out (mean M Out txt eval defd (flat M Out define) line_ok s m) = Some (m', o)).
Proof.
  intros s m m' o W. rewrite c10_conditional_inclusion_partial by assumption.
  destruct (mean _ _ _ _ _ _ _ s m) as [[[m1 o1] l1]|]; cbn [obs].
  - split; [intros [lg H]; injection H as -> -> _; reflexivity|intros H; injection H as -> ->; now exists l1].
  - split; [intros [lg H]; discriminate H|discriminate].
Qed.

(** A file with #include lines gives some macro scope and output exactly if the text in which every such line is
    replaced by the contents of the file found gives them, without any #include.  Missing for the full claim: files
    that are not balanced by themselves ([c65_unbalanced_refuted]), and names produced by macros whose meaning
    changes on the way. *)
Theorem c65_insertion_partial : forall cur s s' m m' o, wf s -> expands true cur s s' ->
  ((exists n lg, preprocess n cur (spell s) m = Done (m', o, lg))
   <-> exists lg, plain (spell s') m = Done (m', o, lg)).
Proof.
  intros cur s s' m m' o W E. assert (W' : wf s') by (eapply (proj1 (expands_wf M tokens F roots true)); eauto).
  rewrite (plain_obs s' m m' o W'). split.
  - intros [n H]. apply (done_obs n cur s m m' o W) in H.
    eapply (proj1 (flat_backward M Out txt eval defd line_ok define tokens F roots)); eauto.
  - intros H. destruct (proj1 (flat_forward M Out txt eval defd line_ok define tokens F roots true) _ _ _ E _ _ H) as [n N].
    exists n. apply done_obs; [assumption|]. now apply N.
Qed.

(** #include lines in skipped groups need not be replaced: their files need not exist, and a file may include itself
    under a guard.  The result is the same at every greater depth. *)
Theorem c65_skipped_partial : forall cur s s' m m' o lg, wf s -> expands false cur s s' ->
  plain (spell s') m = Done (m', o, lg) ->
  exists n, forall k, (n <= k)%nat -> exists lg', preprocess k cur (spell s) m = Done (m', o, lg').
Proof.
  intros cur s s' m m' o lg W E H. assert (W' : wf s') by (eapply (proj1 (expands_wf M tokens F roots false)); eauto).
  assert (H' := proj1 (plain_obs s' m m' o W') (ex_intro _ lg H)).
  destruct (proj1 (flat_forward M Out txt eval defd line_ok define tokens F roots false) _ _ _ E _ _ H') as [n N].
  exists n. intros k K. apply done_obs; [assumption|]. now apply N.
Qed.

(** A file that includes, outside all conditionals, a file found nowhere is not accepted. *)
Theorem c65_missing_rejected : forall cur dir a x b f system, wf (join a (ICons (Include x) b)) ->
  designates M tokens (operands x) f system -> of_file cur dir -> Forall (absent F) (places roots f system dir) ->
  forall n m r, preprocess n cur (spell (join a (ICons (Include x) b))) m <> Done r.
Proof.
  intros cur dir a x b f system W D O A n m [[m' o] lg] H.
  assert (H' := proj1 (done_obs n cur _ m m' o W) (ex_intro _ lg H)). rewrite obs_join in H'.
  destruct (seq_some _ _ _ _ _ _ H') as (m1 & o1 & o2 & _ & B & _).
  rewrite mean_cons, obs_andthen in B. destruct (seq_some _ _ _ _ _ _ B) as (m2 & o3 & o4 & C & _ & _).
  cbn [mean1] in C. unfold doit, step in C. destruct n as [|n]; [discriminate C|]. unfold process_include in C.
  destruct (designated _ _ _ _ _ D m1) as (l & T & P). rewrite T, P in C.
  rewrite (open_search _ _ _ _ _ _ O), (proj2 (search_none _ _) A) in C. discriminate C.
Qed.

(** A file that includes itself outside all conditionals has no result, however deep the nesting may go. (The code
    has no limit of its own on the depth: it goes on until its stack is used up.) *)
Theorem c65_self_inclusion : forall p dir a x b f system, wf (join a (ICons (Include x) b)) ->
  designates M tokens (operands x) f system -> of_file (Some p) dir ->
  found F (places roots f system dir) p (spell (join a (ICons (Include x) b))) ->
  forall n m r, preprocess n (Some p) (spell (join a (ICons (Include x) b))) m <> Done r.
Proof.
  intros p dir a x b f system W D O Fo n. induction n as [|n IH]; intros m [[m' o] lg] H;
    assert (H' := proj1 (done_obs _ _ _ m m' o W) (ex_intro _ lg H)); rewrite obs_join in H';
    destruct (seq_some _ _ _ _ _ _ H') as (m1 & o1 & o2 & _ & B & _);
    rewrite mean_cons, obs_andthen in B; destruct (seq_some _ _ _ _ _ _ B) as (m2 & o3 & o4 & C & _ & _).
  - discriminate C.
  - rewrite (step_include M Out txt eval defd line_ok define tokens F roots n (Some p) dir x f system p _ _ m1 D O Fo eq_refl W) in C.
    destruct (proj2 (done_obs n (Some p) _ m1 m2 o3 W) C) as [lg' Dn]. exact (IH _ _ Dn).
Qed.
End Runs.

(** * Cases that meet the hypotheses *)
Fixpoint lookup {A} (p : list Z) (l : list (list Z * A)) : option A :=
  match l with [] => None | (q, a) :: r => if list_eq_dec Z.eq_dec p q then Some a else lookup p r end.
(** [None]: something that is not a readable file; [bad]: paths through something that is not a directory *)
Definition disk (l : list (list Z * option (list Z))) (bad : list (list Z)) : fs :=
  {| real := fun p => match lookup p l with Some _ => RPath p
                      | None => if in_dec (list_eq_dec Z.eq_dec) p bad then RError else RNoEnt end;
     readable := fun _ => true;
     content := fun p => match lookup p l with Some c => c | None => None end |}.

(** The scope is whether the guard is defined; operands are spelled "f" or <f>. *)
Definition header (ops : list Z) : list itoken :=
  match ops with
  | 32 :: 34 :: r => [HeaderName false (removelast r)]
  | 32 :: 60 :: r => [HeaderName true (removelast r)]
  | _ => [OtherToken]
  end.
Definition go_tokens tokens F roots n cur src := preprocess bool (list Z) (fun _ l => l) (fun _ _ => Some true) (fun m _ => Some m)
  (fun _ _ => true) (fun _ d _ => Some (match d with DDefine => true | _ => false end, [])) tokens
  F roots n cur src false.
Definition go := go_tokens (fun _ o => Some (header o)).
Definition inc (s : string) : item := Include (DL [] [] (text s)).
Definition d0 (s : string) : dline := DL [] [] (text s).

(** a.h is guarded and includes itself and, from an include directory, b.h *)
Definition b_h : items := ICons (Text (text "b")) INil.
Definition a_h : items :=
  ICons (Ifndef (d0 " G") (ICons (Define (d0 " G")) (ICons (inc " ""a.h""") (ICons (inc " <b.h>") (ICons (Text (text "a")) INil))))
           (Endif (d0 ""))) INil.
Definition main_c : items := ICons (Text (text "x")) (ICons (inc " ""a.h""") (ICons (inc " ""a.h""") (ICons (Text (text "y")) INil))).
Definition D1 : fs := disk [(text "/s/a.h", Some (spell a_h)); (text "/i/b.h", Some (spell b_h))] [].
Definition R1 : list path := [text "/j"; text "/i"].

(** a.h inserted, and once more in itself; the lines of the inner copy are left, the guard skips them. *)
Definition a_in : items :=
  ICons (Ifndef (d0 " G") (ICons (Define (d0 " G")) (join a_h (ICons (Text (text "b")) (ICons (Text (text "a")) INil))))
           (Endif (d0 ""))) INil.
Definition main_in : items := ICons (Text (text "x")) (join a_in (join a_in (ICons (Text (text "y")) INil))).

Ltac plain_line := try (repeat constructor; unfold newline; discriminate); try (repeat constructor);
  try (apply plain_text; [repeat constructor; unfold newline; discriminate
                         |intros ?c ?r; vm_compute; try discriminate; injection 1 as <- <-; discriminate]).

Lemma wf_b : wf b_h.
Proof. cbn [wf wf1 wft b_h]. repeat split; plain_line. Qed.
Lemma wf_a : wf a_h.
Proof. cbn [wf wf1 wft a_h]. unfold good, inc, d0. cbn [pre mid operands wf1]. unfold good. cbn [pre mid operands]. repeat split; plain_line. Qed.
Lemma wf_main : wf main_c.
Proof. cbn [wf wf1 wft main_c]. unfold good, inc, d0. cbn [pre mid operands wf1]. unfold good. cbn [pre mid operands]. repeat split; plain_line. Qed.

Lemma in_s : forall n, ~ In slash n -> n <> [] -> directory (text "/s/" ++ n) (text "/s").
Proof. intros n I E. apply (dir_in (text "/") 115 n); try assumption. discriminate. Qed.

Lemma found_a : found D1 (places R1 (text "a.h") false (Some (text "/s"))) (text "/s/a.h") (spell a_h).
Proof. eexists [], _, _. split; [reflexivity|]. split; [constructor|]. repeat split; vm_compute; reflexivity. Qed.
Lemma found_b : found D1 (places R1 (text "b.h") true (Some (text "/s"))) (text "/i/b.h") (spell b_h).
Proof.
  exists [text "/j/b.h"], (text "/i/b.h"), [text "b.h"]. split; [reflexivity|].
  split; [constructor; [left; vm_compute; reflexivity|constructor]|]. repeat split; vm_compute; reflexivity.
Qed.
Lemma dir_main : of_file (Some (text "/s/main.c")) (Some (text "/s")).
Proof. apply (in_s (text "main.c")); [|discriminate]. vm_compute. intuition discriminate. Qed.
Lemma dir_a : of_file (Some (text "/s/a.h")) (Some (text "/s")).
Proof. apply (in_s (text "a.h")); [|discriminate]. vm_compute. intuition discriminate. Qed.

Notation expands_ex := (expands bool (fun _ o => Some (header o)) D1 R1).
Lemma expand_a : expands_ex false (Some (text "/s/a.h")) a_h a_in.
Proof.
  apply ex_cons; [|constructor]. apply ex_ifndef; [|constructor]. apply ex_cons; [constructor|].
  refine (ex_include bool _ D1 R1 false (Some (text "/s/a.h")) (Some (text "/s")) (d0 " ""a.h""") (text "a.h") false
      (text "/s/a.h") (spell a_h) a_h a_h _ _ _ dir_a found_a eq_refl wf_a _ _).
  { left. intros m. vm_compute. reflexivity. }
  { apply ex_cons; [|constructor]. apply ex_ifndef; [|constructor]. apply ex_cons; [constructor|].
    apply ex_cons; [now constructor|]. apply ex_cons; [now constructor|]. apply ex_cons; constructor. }
  apply (ex_include bool _ D1 R1 false (Some (text "/s/a.h")) (Some (text "/s")) (d0 " <b.h>") (text "b.h") true (text "/i/b.h") (spell b_h) b_h b_h).
  - left. intros m. vm_compute. reflexivity.
  - exact dir_a.
  - exact found_b.
  - reflexivity.
  - exact wf_b.
  - apply ex_cons; constructor.
  - apply ex_cons; constructor.
Qed.

Example c65_hypotheses : wf main_c /\ expands_ex false (Some (text "/s/main.c")) main_c main_in
  /\ (exists lg, run bool (list Z) (fun _ l => l) (fun _ _ => Some true) (fun m _ => Some m)
       (flat bool (list Z) (fun _ d _ => Some (match d with DDefine => true | _ => false end, []))) (fun _ _ => true)
       (spell main_in) false = Done (true, [text "x"; text "b"; text "a"; text "y"], lg))
  /\ (exists lg, go D1 R1 2 (Some (text "/s/main.c")) (spell main_c)
                 = Done (true, [text "x"; text "b"; text "a"; text "y"], lg)).
Proof.
  split; [exact wf_main|]. split; [|split; eexists; vm_compute; reflexivity].
  apply ex_cons; [constructor|].
  assert (K : forall s s', expands_ex false (Some (text "/s/main.c")) s s' ->
              expands_ex false (Some (text "/s/main.c")) (ICons (inc " ""a.h""") s) (join a_in s')).
  { intros s s' E. apply (ex_include bool _ D1 R1 false (Some (text "/s/main.c")) (Some (text "/s")) (d0 " ""a.h""") (text "a.h") false
      (text "/s/a.h") (spell a_h) a_h a_in).
    - left. intros m. vm_compute. reflexivity.
    - exact dir_main.
    - exact found_a.
    - reflexivity.
    - exact wf_a.
    - exact expand_a.
    - exact E. }
  apply K, K. apply ex_cons; constructor.
Qed.

(** All lines replaced: <b.h> in a file without a guard. *)
Example c65_all_replaced :
  expands_ex true (Some (text "/s/t.c")) (ICons (inc " <b.h>") (ICons (Text (text "z")) INil)) (ICons (Text (text "b")) (ICons (Text (text "z")) INil)).
Proof.
  apply (ex_include bool _ D1 R1 true (Some (text "/s/t.c")) (Some (text "/s")) (d0 " <b.h>") (text "b.h") true (text "/i/b.h") (spell b_h) b_h b_h).
  - left. intros m. vm_compute. reflexivity.
  - apply (in_s (text "t.c")); [|discriminate]. vm_compute. intuition discriminate.
  - exact found_b.
  - reflexivity.
  - exact wf_b.
  - apply ex_cons; constructor.
  - apply ex_cons; constructor.
Qed.

(** A self-including file without a guard *)
Example c65_self_case : let D := disk [(text "/s/l.h", Some (spell (ICons (inc " ""l.h""") INil)))] [] in
  found D (places [] (text "l.h") false (Some (text "/s"))) (text "/s/l.h") (spell (join INil (ICons (inc " ""l.h""") INil)))
  /\ forall n r, go D [] n (Some (text "/s/l.h")) (spell (ICons (inc " ""l.h""") INil)) <> Done r.
Proof.
  cbv zeta. set (D := disk _ _).
  assert (Fo : found D (places [] (text "l.h") false (Some (text "/s"))) (text "/s/l.h") (spell (join INil (ICons (inc " ""l.h""") INil)))).
  { eexists [], _, _. split; [reflexivity|]. split; [constructor|]. repeat split; vm_compute; reflexivity. }
  split; [exact Fo|]. intros n r.
  apply (c65_self_inclusion bool (list Z) _ _ _ _ _ _ D [] (text "/s/l.h") (Some (text "/s")) INil (d0 " ""l.h""") INil (text "l.h") false).
  - cbn [join wf wf1]. unfold good, d0. cbn [pre mid operands]. repeat split; plain_line.
  - left. intros m. vm_compute. reflexivity.
  - apply (in_s (text "l.h")); [|discriminate]. vm_compute. intuition discriminate.
  - exact Fo.
Qed.

(** * Refutations *)

(** A directory of that name, or a path through something that is not a directory (-I with a file), at an earlier
    place ends the search with an error although a later place holds the file. *)
Theorem c65_search_refuted :
  (exists F roots f cur p c, In p (places roots f true None) /\ names_file F p p c
     /\ Forall (fun q => q = p \/ forall p' c', ~ names_file F q p' c') (places roots f true None)
     /\ real F (text "/i/b") = RPath (text "/i/b") /\ content F (text "/i/b") = None
     /\ open_source F roots f true cur = Failed)
  /\ (exists F roots f cur p c, In p (places roots f true None) /\ names_file F p p c
     /\ Forall (fun q => q = p \/ forall p' c', ~ names_file F q p' c') (places roots f true None)
     /\ real F (text "/i/b") = RError
     /\ open_source F roots f true cur = Failed).
Proof.
  split.
  - exists (disk [(text "/i/b", None); (text "/j/b", Some [])] []), [text "/i"; text "/j"], (text "b"), None, (text "/j/b"), [].
    split; [right; left; reflexivity|]. split; [repeat split; vm_compute; reflexivity|].
    split; [|repeat split; vm_compute; reflexivity].
    repeat (apply Forall_cons || apply Forall_nil).
    + right. intros p c (A & B & C). vm_compute in A. injection A as <-. vm_compute in C. discriminate C.
    + now left.
    + right. intros p c (A & B & C). vm_compute in A. discriminate A.
  - exists (disk [(text "/j/b", Some [])] [text "/i/b"]), [text "/i"; text "/j"], (text "b"), None, (text "/j/b"), [].
    split; [right; left; reflexivity|]. split; [repeat split; vm_compute; reflexivity|].
    split; [|repeat split; vm_compute; reflexivity].
    repeat (apply Forall_cons || apply Forall_nil).
    + right. intros p c (A & B & C). vm_compute in A. discriminate A.
    + now left.
    + right. intros p c (A & B & C). vm_compute in A. discriminate A.
Qed.

(** Only the first token of the line is looked at: what follows the name (a constraint of 6.10p1 and 6.10.2: the
    new-line) is dropped without a diagnostic, so the line acts as if only the name were there. *)
Theorem c65_extra_tokens_refuted : forall rest,
  exists lg, go_tokens (fun _ o => Some (header o ++ rest)) D1 R1 1 (Some (text "/s/main.c"))
               (spell (ICons (inc " <b.h>") INil)) = Done (false, [text "b"], lg).
Proof. intros rest. eexists. vm_compute. reflexivity. Qed.

(** A header with an #if that it does not close is accepted, and the #if ends with the header: the text after the
    #include line is kept although the text of the header, inserted, would remove it. *)
Theorem c65_unbalanced_refuted : let h := text "#ifdef G" ++ [newline] in
  let D := disk [(text "/s/u.h", Some h)] [] in
  (exists lg, go D [] 1 (Some (text "/s/m.c")) (spell (ICons (inc " ""u.h""") (ICons (Text (text "z")) INil))) = Done (false, [text "z"], lg))
  /\ (exists lg, go D [] 1 (Some (text "/s/m.c")) (h ++ spell (ICons (Text (text "z")) INil)) = Done (false, [], lg)).
Proof. split; eexists; vm_compute; reflexivity. Qed.

Print Assumptions c65_search_partial.
Print Assumptions c65_not_found.
Print Assumptions c65_fallback.
Print Assumptions c65_insertion_partial.
Print Assumptions c65_skipped_partial.
Print Assumptions c65_missing_rejected.
Print Assumptions c65_self_inclusion.
Print Assumptions c65_search_refuted.
Print Assumptions c65_extra_tokens_refuted.
Print Assumptions c65_unbalanced_refuted.
