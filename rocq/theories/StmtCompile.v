(** Model of the translation of statements, source/ast-translator/nodes/*_statement.c
    and source/ast-translator/jump.c.

    The code uses flow control points: a jump to a point not yet placed is recorded
    and patched when the point is resolved.  PropFlow.v (C29) shows that every such
    jump ends up with the index at which the point was resolved, so here jumps carry
    that index directly (PropEmit.v proves that both give the same code): [brk], [cont] and [labs] of [tenv] for the points of the
    enclosing statement, [lpos] for labels, [slen] for ends of statements.

    Modelled: the statements of CStmt.v.  Not modelled: variable length array blocks
    (POPSCOPE, kefir_ast_translate_jump:31-105), declarations (translated as
    assignments by initializer.c), void and long double expression statements,
    computed goto, asm. *)

From Coq Require Import ZArith Bool List.
From Verif Require Import Bits CTypes TypeConvModel Memory CSem CStmt IRMachine ExprCompile.
Import ListNotations.
Open Scope Z_scope.

Record tenv := { brk : nat; cont : nat; labs : nat -> nat }.

(** The case constants of a switch in iteration order: the keys of a hash tree with
    kefir_hashtree_uint_ops (ast/flow_control.c), visited in ascending order of the
    unsigned 64-bit key (HashtreeProofs.v). *)
Fixpoint ins (v : Z) (l : list Z) : list Z :=
  match l with
  | [] => [v]
  | w :: r => if u64 v <=? u64 w then v :: l else w :: ins v r
  end.
Definition sort_cases (l : list Z) : list Z := fold_right ins [] l.

Section Stmt.
Variable S : senv.
Variable rty : option cty.

(** Number of instructions emitted for a statement at index [pos]. *)
Definition clen (pos : nat) (e : expr) : nat := length (compile S RV pos e).

(** typeconv of the returned value, nodes/return_statement.c:46-51 *)
Definition ret_conv (e : expr) : list instr :=
  match rty with
  | Some t => if scalar (ty S e) then kconv (ty S e) t else []
  | None => []
  end.

Fixpoint slen (pos : nat) (s : stmt) : nat :=
  match s with
  | SSkip => 0
  | SExpr e => clen pos e + 1
  | SSeq a b => slen pos a + slen (pos + slen pos a) b
  | SIf c a => let p := pos + (clen pos c + 2) in clen pos c + 2 + slen p a
  | SIfElse c a b =>
    let p1 := pos + (clen pos c + 2) in
    let p2 := p1 + slen p1 a + 1 in
    clen pos c + 2 + slen p1 a + 1 + slen p2 b
  | SWhile c a => let p := pos + (clen pos c + 2) in clen pos c + 2 + slen p a + 1
  | SDo a c => let p := pos + slen pos a in slen pos a + clen p c + 1
  | SFor c t a =>
    let lc := match c with Some c => clen pos c + 2 | None => 0 end in
    let p := pos + lc in
    let q := p + slen p a in
    let lt := match t with Some t => clen q t + 1 | None => 0 end in
    lc + slen p a + lt + 1
  | SSwitch e a =>
    let ld := clen pos e + 7 * length (cases a) + 1 in
    ld + slen (pos + ld) a
  | SLab _ a => slen pos a
  | SBreak | SContinue | SGoto _ => 1
  | SReturn None => 1
  | SReturn (Some e) => clen pos e + length (ret_conv e) + 1
  end%nat.

(** The index at which the flow control point of label [L] is resolved:
    nodes/labeled_statement.c:27-46, nodes/case_statement.c:27-52. *)
Fixpoint lpos (pos : nat) (s : stmt) (L : lab) : option nat :=
  match s with
  | SSkip | SExpr _ | SBreak | SContinue | SGoto _ | SReturn _ => None
  | SSeq a b =>
    match lpos pos a L with Some p => Some p | None => lpos (pos + slen pos a) b L end
  | SIf c a => lpos (pos + (clen pos c + 2)) a L
  | SIfElse c a b =>
    let p1 := pos + (clen pos c + 2) in
    match lpos p1 a L with Some p => Some p | None => lpos (p1 + slen p1 a + 1) b L end
  | SWhile c a => lpos (pos + (clen pos c + 2)) a L
  | SDo a c => lpos pos a L
  | SFor c t a => lpos (pos + match c with Some c => clen pos c + 2 | None => 0 end) a L
  | SSwitch e a =>
    if is_name L then lpos (pos + (clen pos e + 7 * length (cases a) + 1)) a L else None
  | SLab l a => if lab_eqb l L then Some pos else lpos pos a L
  end%nat.

Definition at_label (pos : nat) (s : stmt) (L : lab) (dflt : nat) : nat :=
  match lpos pos s L with Some p => p | None => dflt end.

(** Dispatch of one case at index [q], nodes/switch_statement.c:50-81. *)
Definition case_code (q : nat) (v : Z) (target : nat) : list instr :=
  [OPick 0; OPush v; OEq; OBNot; OBranch (q + 7); OPop; OJmp target].
Fixpoint dispatch (q : nat) (l : list Z) (target : Z -> nat) : list instr :=
  match l with
  | [] => []
  | v :: r => case_code q v (target v) ++ dispatch (q + 7) r target
  end.

(** Condition followed by BNOT; BRANCH *)
Definition unless (pos : nat) (c : expr) (target : nat) : list instr :=
  compile S RV pos c ++ [OBNot; OBranch target].

Fixpoint scomp (E : tenv) (pos : nat) (s : stmt) : list instr :=
  match s with
  | SSkip => []                                                 (* expression_statement.c, no expression *)
  | SExpr e => compile S RV pos e ++ [OPop]                     (* nodes/expression_statement.c:26-51 *)
  | SSeq a b => scomp E pos a ++ scomp E (pos + slen pos a) b   (* nodes/compound_statement.c:30-62 *)
  | SIf c a =>                                                  (* nodes/conditional_statement.c:27-80 *)
    let p := pos + (clen pos c + 2) in
    unless pos c (p + slen p a) ++ scomp E p a
  | SIfElse c a b =>                                            (* nodes/conditional_statement.c:27-80 *)
    let p1 := pos + (clen pos c + 2) in
    let p2 := p1 + slen p1 a + 1 in
    unless pos c p2 ++ scomp E p1 a ++ OJmp (p2 + slen p2 b) :: scomp E p2 b
  | SWhile c a =>                                               (* nodes/while_statement.c:26-67 *)
    let p := pos + (clen pos c + 2) in
    let fin := p + slen p a + 1 in
    unless pos c fin ++ scomp {| brk := fin; cont := pos; labs := labs E |} p a ++ [OJmp pos]
  | SDo a c =>                                                  (* nodes/do_while_statement.c:26-64 *)
    let p := pos + slen pos a in
    let fin := p + clen p c + 1 in
    scomp {| brk := fin; cont := p; labs := labs E |} pos a ++ compile S RV p c ++ [OBranch pos]
  | SFor c t a =>                                               (* nodes/for_statement.c:27-110 *)
    let p := pos + match c with Some c => clen pos c + 2 | None => 0 end in
    let q := p + slen p a in
    let fin := q + match t with Some t => clen q t + 1 | None => 0 end + 1 in
    match c with Some c => unless pos c fin | None => [] end
    ++ scomp {| brk := fin; cont := q; labs := labs E |} p a
    ++ match t with Some t => compile S RV q t ++ [OPop] | None => [] end
    ++ [OJmp pos]
  | SSwitch e a =>                                              (* nodes/switch_statement.c:28-110 *)
    let q := pos + clen pos e in
    let p := pos + (clen pos e + 7 * length (cases a) + 1) in
    let fin := p + slen p a in
    compile S RV pos e
    ++ dispatch q (sort_cases (cases a)) (fun v => at_label p a (LCase v) 0)
    ++ OJmp (at_label p a LDefault fin)
    :: scomp {| brk := fin; cont := cont E; labs := labs E |} p a
  | SLab _ a => scomp E pos a                                   (* nodes/labeled_statement.c, case_statement.c *)
  | SBreak => [OJmp (brk E)]                                    (* nodes/break_statement.c:27 *)
  | SContinue => [OJmp (cont E)]                                (* nodes/continue_statement.c:27 *)
  | SGoto l => [OJmp (labs E l)]                                (* nodes/goto_statement.c:28 *)
  | SReturn None => [ORet]                                      (* nodes/return_statement.c:30 *)
  | SReturn (Some e) => compile S RV pos e ++ ret_conv e ++ [ORet]
  end%nat.

(** A function body, source/ast-translator/function_translator.c:379-393 (parameters
    are stored to their frame slots before). *)
Definition fun_code (body : stmt) : list instr :=
  scomp {| brk := 0; cont := 0; labs := fun l => at_label 0 body (LName l) 0%nat |} 0 body.

End Stmt.
