(** Semantics of C17 statements (6.8), written from the standard and independent
    of the compiler.

    [cexec n md s m r]: executing [s] from memory [m] may give [r].  With mode
    [None] execution starts at the beginning of [s]; with [Some L] control arrives
    at the statement labelled [L] inside [s] (a jump into [s] by switch or goto).
    [n] bounds how many loop iterations a result may take: [RTimeout] says that
    some permitted execution is still running after [n] iterations of a loop.  An
    execution that terminates does so for every large enough [n]; one that does not
    gives [RTimeout] for every [n].

    Simplifications: expressions are those of CSem.v; automatic objects live at
    fixed frame offsets, so declarations are expression statements that assign;
    [for (init; c; t) s] is [init; for (; c; t) s] (6.8.5.3). *)

From Coq Require Import ZArith Bool List.
From Verif Require Import Bits CTypes Memory CSem.
Import ListNotations.
Open Scope Z_scope.

Inductive lab := LName (n : nat) | LCase (v : Z) | LDefault.

Definition lab_eqb (a b : lab) : bool :=
  match a, b with
  | LName x, LName y => Nat.eqb x y
  | LCase x, LCase y => x =? y
  | LDefault, LDefault => true
  | _, _ => false
  end.

Inductive stmt :=
| SSkip
| SExpr (e : expr)
| SSeq (a b : stmt)
| SIf (c : expr) (a : stmt)
| SIfElse (c : expr) (a b : stmt)
| SWhile (c : expr) (a : stmt)
| SDo (a : stmt) (c : expr)
| SFor (c t : option expr) (a : stmt)
| SSwitch (e : expr) (a : stmt)
| SLab (l : lab) (a : stmt)
| SBreak
| SContinue
| SGoto (l : nat)
| SReturn (e : option expr).

(** for with an initializing expression *)
Definition SForI (i : expr) (c t : option expr) (a : stmt) : stmt := SSeq (SExpr i) (SFor c t a).

Definition is_name (l : lab) : bool := match l with LName _ => true | _ => false end.

(** Is [L] a label of a statement inside [s]?  case and default labels of an inner
    switch do not count (6.8.1p2, 6.8.4.2). *)
Fixpoint has (L : lab) (s : stmt) : bool :=
  match s with
  | SSkip | SExpr _ | SBreak | SContinue | SGoto _ | SReturn _ => false
  | SSeq a b | SIfElse _ a b => has L a || has L b
  | SIf _ a | SWhile _ a | SDo a _ | SFor _ _ a => has L a
  | SSwitch _ a => is_name L && has L a
  | SLab l a => lab_eqb l L || has L a
  end.

(** The case constants of the switch whose body is [s]. *)
Fixpoint cases (s : stmt) : list Z :=
  match s with
  | SSkip | SExpr _ | SBreak | SContinue | SGoto _ | SReturn _ | SSwitch _ _ => []
  | SSeq a b | SIfElse _ a b => cases a ++ cases b
  | SIf _ a | SWhile _ a | SDo a _ | SFor _ _ a => cases a
  | SLab l a => match l with LCase v => [v] | _ => [] end ++ cases a
  end.

Inductive outcome := ONorm | OBrk | OCont | OGoto (l : nat) | OReturn (v : option Z).
Inductive res := RDone (o : outcome) (m : mem) | RUB | RTimeout.

(** Does the body leave the loop normally and go on with the next iteration? *)
Definition loop_next (r : res) : option mem :=
  match r with RDone ONorm m | RDone OCont m => Some m | _ => None end.
(** break ends the enclosing loop or switch. *)
Definition brk_norm (r : res) : res :=
  match r with RDone OBrk m => RDone ONorm m | r => r end.
Definition is_norm (r : res) : option mem := match r with RDone ONorm m => Some m | _ => None end.

Definition here (md : option lab) (s : stmt) : bool :=
  match md with None => true | Some L => has L s end.

Section Sem.
Variable S : senv.
Variable G : renv.
Variable rty : option cty.     (* return type; None for void *)

(** A controlling expression; an omitted one is true (6.8.5.3p2). *)
Inductive ctest : option expr -> mem -> option (bool * mem) -> Prop :=
| ct_none : forall m, ctest None m (Some (true, m))
| ct_ub : forall c m, ceval S G RV c m None -> ctest (Some c) m None
| ct_val : forall c m v m1, ceval S G RV c m (Some (v, m1)) -> ctest (Some c) m (Some (negb (v =? 0), m1)).

(** An expression evaluated for its side effects (6.8.3p2). *)
Inductive ceffect : option expr -> mem -> option mem -> Prop :=
| ce_none : forall m, ceffect None m (Some m)
| ce_ub : forall c m, ceval S G RV c m None -> ceffect (Some c) m None
| ce_val : forall c m v m1, ceval S G RV c m (Some (v, m1)) -> ceffect (Some c) m (Some m1).

(** 6.8.4.2p5: the constant of each case label is converted to the promoted type
    [p] of the controlling expression. *)
Inductive selects (p : ity) (s : stmt) (v : Z) : option lab -> Prop :=
| sel_case : forall w, In w (cases s) -> cconv p w = v -> selects p s v (Some (LCase w))
| sel_default : (forall w, In w (cases s) -> cconv p w <> v) -> has LDefault s = true ->
    selects p s v (Some LDefault)
| sel_none : (forall w, In w (cases s) -> cconv p w <> v) -> has LDefault s = false ->
    selects p s v None.

(** Reaching the body of a loop tested at its top: through the test, or by a jump
    into it. *)
Definition enters (md : option lab) (c : option expr) (m m1 : mem) : Prop :=
  match md with None => ctest c m (Some (true, m1)) | Some _ => m1 = m end.

Inductive cexec : nat -> option lab -> stmt -> mem -> res -> Prop :=
| x_skip : forall n m, cexec n None SSkip m (RDone ONorm m)
| x_expr_ub : forall n e m, ceval S G RV e m None -> cexec n None (SExpr e) m RUB
| x_expr : forall n e m v m1, ceval S G RV e m (Some (v, m1)) ->
    cexec n None (SExpr e) m (RDone ONorm m1)
(* block items in order *)
| x_seq_stop : forall n md a b m r, here md a = true -> cexec n md a m r -> is_norm r = None ->
    cexec n md (SSeq a b) m r
| x_seq_next : forall n md a b m m1 r, here md a = true -> cexec n md a m (RDone ONorm m1) ->
    cexec n None b m1 r -> cexec n md (SSeq a b) m r
| x_seq_skip : forall n L a b m r, has L a = false -> cexec n (Some L) b m r ->
    cexec n (Some L) (SSeq a b) m r
(* selection statements *)
| x_if_ub : forall n c a m, ceval S G RV c m None -> cexec n None (SIf c a) m RUB
| x_if_1 : forall n c a m v m1 r, ceval S G RV c m (Some (v, m1)) -> v <> 0 ->
    cexec n None a m1 r -> cexec n None (SIf c a) m r
| x_if_0 : forall n c a m m1, ceval S G RV c m (Some (0, m1)) ->
    cexec n None (SIf c a) m (RDone ONorm m1)
| x_if_in : forall n L c a m r, cexec n (Some L) a m r -> cexec n (Some L) (SIf c a) m r
| x_ife_ub : forall n c a b m, ceval S G RV c m None -> cexec n None (SIfElse c a b) m RUB
| x_ife_1 : forall n c a b m v m1 r, ceval S G RV c m (Some (v, m1)) -> v <> 0 ->
    cexec n None a m1 r -> cexec n None (SIfElse c a b) m r
| x_ife_0 : forall n c a b m m1 r, ceval S G RV c m (Some (0, m1)) ->
    cexec n None b m1 r -> cexec n None (SIfElse c a b) m r
| x_ife_in1 : forall n L c a b m r, has L a = true -> cexec n (Some L) a m r ->
    cexec n (Some L) (SIfElse c a b) m r
| x_ife_in2 : forall n L c a b m r, has L a = false -> cexec n (Some L) b m r ->
    cexec n (Some L) (SIfElse c a b) m r
| x_sw_ub : forall n e a m, ceval S G RV e m None -> cexec n None (SSwitch e a) m RUB
| x_sw : forall n e a i m v m1 L r, rtype S e (TInt i) -> ceval S G RV e m (Some (v, m1)) ->
    selects (c_promote i) a v (Some L) -> cexec n (Some L) a m1 r ->
    cexec n None (SSwitch e a) m (brk_norm r)
| x_sw_none : forall n e a i m v m1, rtype S e (TInt i) -> ceval S G RV e m (Some (v, m1)) ->
    selects (c_promote i) a v None -> cexec n None (SSwitch e a) m (RDone ONorm m1)
| x_sw_in : forall n L e a m r, cexec n (Some L) a m r -> cexec n (Some L) (SSwitch e a) m (brk_norm r)
(* iteration statements *)
| x_do_time : forall md c a m, cexec 0 md (SDo a c) m RTimeout
| x_do_stop : forall n md c a m r, cexec (Datatypes.S n) md a m r -> loop_next r = None ->
    cexec (Datatypes.S n) md (SDo a c) m (brk_norm r)
| x_do_ub : forall n md c a m r m1, cexec (Datatypes.S n) md a m r -> loop_next r = Some m1 ->
    ceval S G RV c m1 None -> cexec (Datatypes.S n) md (SDo a c) m RUB
| x_do_done : forall n md c a m r m1 m2, cexec (Datatypes.S n) md a m r -> loop_next r = Some m1 ->
    ceval S G RV c m1 (Some (0, m2)) -> cexec (Datatypes.S n) md (SDo a c) m (RDone ONorm m2)
| x_do_next : forall n md c a m r m1 v m2 r', cexec (Datatypes.S n) md a m r -> loop_next r = Some m1 ->
    ceval S G RV c m1 (Some (v, m2)) -> v <> 0 -> cexec n None (SDo a c) m2 r' ->
    cexec (Datatypes.S n) md (SDo a c) m r'
| x_for_time : forall md c t a m, cexec 0 md (SFor c t a) m RTimeout
| x_for_ub : forall n c t a m, ctest c m None -> cexec (Datatypes.S n) None (SFor c t a) m RUB
| x_for_done : forall n c t a m m1, ctest c m (Some (false, m1)) ->
    cexec (Datatypes.S n) None (SFor c t a) m (RDone ONorm m1)
| x_for_stop : forall n md c t a m m1 r, enters md c m m1 -> cexec (Datatypes.S n) md a m1 r ->
    loop_next r = None -> cexec (Datatypes.S n) md (SFor c t a) m (brk_norm r)
| x_for_tail_ub : forall n md c t a m m1 r m2, enters md c m m1 -> cexec (Datatypes.S n) md a m1 r ->
    loop_next r = Some m2 -> ceffect t m2 None -> cexec (Datatypes.S n) md (SFor c t a) m RUB
| x_for_next : forall n md c t a m m1 r m2 m3 r', enters md c m m1 -> cexec (Datatypes.S n) md a m1 r ->
    loop_next r = Some m2 -> ceffect t m2 (Some m3) -> cexec n None (SFor c t a) m3 r' ->
    cexec (Datatypes.S n) md (SFor c t a) m r'
| x_while : forall n md c a m r, cexec n md (SFor (Some c) None a) m r -> cexec n md (SWhile c a) m r
(* labels and jumps *)
| x_lab : forall n l a m r, cexec n None a m r -> cexec n None (SLab l a) m r
| x_lab_at : forall n l L a m r, lab_eqb l L = true -> cexec n None a m r ->
    cexec n (Some L) (SLab l a) m r
| x_lab_in : forall n l L a m r, lab_eqb l L = false -> cexec n (Some L) a m r ->
    cexec n (Some L) (SLab l a) m r
| x_break : forall n m, cexec n None SBreak m (RDone OBrk m)
| x_continue : forall n m, cexec n None SContinue m (RDone OCont m)
| x_goto : forall n l m, cexec n None (SGoto l) m (RDone (OGoto l) m)
| x_return : forall n m, cexec n None (SReturn None) m (RDone (OReturn None) m)
| x_return_ub : forall n e m, ceval S G RV e m None -> cexec n None (SReturn (Some e)) m RUB
| x_return_val : forall n e m v m1 t, rty = Some t -> ceval S G RV e m (Some (v, m1)) ->
    cexec n None (SReturn (Some e)) m (RDone (OReturn (Some (cconv_ty t v))) m1).

(** A function body: a goto that leaves the statement continues at its label
    (6.8.6.1). *)
Inductive cfun (body : stmt) : nat -> option lab -> mem -> res -> Prop :=
| f_res : forall n md m r, cexec n md body m r -> (forall l m1, r <> RDone (OGoto l) m1) ->
    cfun body n md m r
| f_goto_time : forall md m l m1, cexec 0 md body m (RDone (OGoto l) m1) ->
    cfun body 0 md m RTimeout
| f_goto : forall n md m l m1 r, cexec (Datatypes.S n) md body m (RDone (OGoto l) m1) ->
    cfun body n (Some (LName l)) m1 r -> cfun body (Datatypes.S n) md m r.

(** Constraints of 6.8: typed expressions, scalar controlling expressions, integer
    switch expressions, break and continue inside the statements they leave, every
    goto label present. [br], [co]: break and continue are allowed here. *)
Definition typed_scalar (e : expr) : bool :=
  match ctype_of S e with Some t => scalar (decay t) | None => false end.
Definition typed_int (e : expr) : bool :=
  match ctype_of S e with Some t => match decay t with TInt _ => true | _ => false end | None => false end.
Definition typed_opt (e : option expr) : bool := match e with Some e => typed_scalar e | None => true end.

Fixpoint swf (labels : nat -> bool) (br co : bool) (s : stmt) : bool :=
  match s with
  | SSkip => true
  | SExpr e => typed_scalar e
  | SSeq a b => swf labels br co a && swf labels br co b
  | SIf c a => typed_scalar c && swf labels br co a
  | SIfElse c a b => typed_scalar c && swf labels br co a && swf labels br co b
  | SWhile c a | SDo a c => typed_scalar c && swf labels true true a
  | SFor c t a => typed_opt c && typed_opt t && swf labels true true a
  | SSwitch e a => typed_int e && swf labels true co a
  | SLab _ a => swf labels br co a
  | SBreak => br
  | SContinue => co
  | SGoto l => labels l
  | SReturn None => true
  | SReturn (Some e) =>
    match rty, ctype_of S e with
    | Some t, Some te => scalar t && assignable t (decay te)
    | _, _ => false
    end
  end.

Definition fun_wf (body : stmt) : bool := swf (fun l => has (LName l) body) false false body.

End Sem.
