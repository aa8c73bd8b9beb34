(** C29 applied to the statement translator: the code obtained by back-patching is the
    code of C27. *)

From Coq Require Import ZArith Bool List Lia.
From Verif Require Import Bits CTypes TypeConvModel Memory CSem CStmt IRMachine ExprCompile StmtCompile StmtProofs StmtEmit
  PropExpr PropStmt.
From Verif Require FlowModel PropFlow.
Import ListNotations.
Open Scope Z_scope.

(** For a body with unique labels and no stray case label, the translator, which appends
    jumps before their targets are known and patches them later, succeeds, and leaves in
    the block the code proved correct in c27_statements_partial. *)
Theorem c29_translated_body : forall S rty body, fun_wf S rty body = true -> unique_labels body ->
  (forall L, In L (labels_of body) -> is_name L = true) ->
  exists st, translate_body S rty body = FlowModel.Ok st /\
    FlowModel.blocks st 0%nat = map enc (fun_code S rty body).
Proof.
  intros S rty body WF U NM. destruct (translation_succeeds S rty body U NM) as [st R]. exists st. split; auto.
  apply (emitted_code S rty body st WF R).
Qed.

(** No information is lost by the encoding. *)
Lemma enc_inj : forall l l', map enc l = map enc l' -> l = l'.
Proof.
  induction l as [|x l IH]; intros [|y l'] H; try discriminate; auto. cbn [map] in H. injection H as E H. f_equal; auto.
  destruct x, y; cbn in E; try discriminate E; auto; injection E; intros; subst; auto; f_equal; lia.
Qed.

(** while (1) { switch (2) { case 3: break; default: goto out; case 4: continue; } } out: return; *)
Definition ex_emit : stmt :=
  SSeq (SWhile (EConst IInt 1)
    (SSwitch (EConst IInt 2) (SSeq (SLab (LCase 3) SBreak) (SSeq (SLab LDefault (SGoto 0)) (SLab (LCase 4) SContinue)))))
    (SLab (LName 0) (SReturn None)).
Example c29_body_case : fun_wf S0 None ex_emit = true /\ unique_labels ex_emit /\
  (forall L, In L (labels_of ex_emit) -> is_name L = true).
Proof.
  split; [reflexivity|]. split.
  - split; cbn; repeat split; auto; repeat constructor; cbn; intuition discriminate.
  - cbn. intros L [<-|[]]. reflexivity.
Qed.

Print Assumptions c29_translated_body.
