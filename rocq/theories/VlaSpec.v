(** Specification of the lifetime of variable length arrays, C17 6.2.4p7 and 6.2.1p4,
    written on the source text only: which arrays are in scope at an expression or at a
    label. *)

From Coq Require Import ZArith Bool List.
Import ListNotations.
From Verif Require Import VlaModel.

(** The places of a function: expressions, labels, and case or default labels. *)
Inductive place := AtUse (k : nat) | AtLabel (l : nat).

Fixpoint occurs (x : place) (s : stmt) : Prop :=
  match s with
  | SUse k | SReturn k | SGoto k _ => x = AtUse k
  | SAlloca | SBreak | SContinue => False
  | SBlock l => occurs_items x l
  | SIf k s1 s2 => x = AtUse k \/ occurs x s1 \/ occurs x s2
  | SWhile k s | SDo s k | SSwitch k s => x = AtUse k \/ occurs x s
  | SFor k1 k2 k3 s => x = AtUse k1 \/ x = AtUse k2 \/ x = AtUse k3 \/ occurs x s
  | SCase s | SDefault s => occurs x s
  | SLabel l s => x = AtLabel l \/ occurs x s
  end
with occurs_items (x : place) (l : items) : Prop :=
  match l with
  | INil => False
  | IVla _ r => occurs_items x r
  | IStmt s r => occurs x s \/ occurs_items x r
  end.

(** The scope of a declaration of a block is the rest of the block. *)
Fixpoint visible (x : place) (v : nat) (s : stmt) : Prop :=
  match s with
  | SUse _ | SReturn _ | SGoto _ _ | SAlloca | SBreak | SContinue => False
  | SBlock l => visible_items x v l
  | SIf _ s1 s2 => visible x v s1 \/ visible x v s2
  | SWhile _ s | SDo s _ | SSwitch _ s | SFor _ _ _ s | SCase s | SDefault s | SLabel _ s => visible x v s
  end
with visible_items (x : place) (v : nat) (l : items) : Prop :=
  match l with
  | INil => False
  | IVla w r => (v = w /\ occurs_items x r) \/ visible_items x v r
  | IStmt s r => visible x v s \/ visible_items x v r
  end.

(** The expressions and the arrays of a function are numbered one by one. *)
Fixpoint uses (s : stmt) : list nat :=
  match s with
  | SUse k | SReturn k | SGoto k _ => [k]
  | SAlloca | SBreak | SContinue => []
  | SBlock l => uses_items l
  | SIf k s1 s2 => k :: uses s1 ++ uses s2
  | SWhile k s | SDo s k | SSwitch k s => k :: uses s
  | SFor k1 k2 k3 s => k1 :: k2 :: k3 :: uses s
  | SCase s | SDefault s | SLabel _ s => uses s
  end
with uses_items (l : items) : list nat :=
  match l with
  | INil => []
  | IVla _ r => uses_items r
  | IStmt s r => uses s ++ uses_items r
  end.

Fixpoint arrays (s : stmt) : list nat :=
  match s with
  | SUse _ | SReturn _ | SGoto _ _ | SAlloca | SBreak | SContinue => []
  | SBlock l => arrays_items l
  | SIf _ s1 s2 => arrays s1 ++ arrays s2
  | SWhile _ s | SDo s _ | SSwitch _ s | SFor _ _ _ s | SCase s | SDefault s | SLabel _ s => arrays s
  end
with arrays_items (l : items) : list nat :=
  match l with
  | INil => []
  | IVla v r => v :: arrays_items r
  | IStmt s r => arrays s ++ arrays_items r
  end.

Definition numbered (body : items) : Prop := NoDup (uses_items body) /\ NoDup (arrays_items body).

(** The goto statements. *)
Fixpoint gotos (s : stmt) : list (nat * nat) :=
  match s with
  | SGoto k l => [(k, l)]
  | SUse _ | SReturn _ | SAlloca | SBreak | SContinue => []
  | SBlock l => gotos_items l
  | SIf _ s1 s2 => gotos s1 ++ gotos s2
  | SWhile _ s | SDo s _ | SSwitch _ s | SFor _ _ _ s | SCase s | SDefault s | SLabel _ s => gotos s
  end
with gotos_items (l : items) : list (nat * nat) :=
  match l with
  | INil => []
  | IVla _ r => gotos_items r
  | IStmt s r => gotos s ++ gotos_items r
  end.

(** 6.8.6.1p1: a goto shall not jump from outside the scope of a variably modified
    identifier to inside it. *)
Definition gotos_legal (body : items) : Prop :=
  forall k l, In (k, l) (gotos_items body) ->
  forall v, visible_items (AtLabel l) v body -> visible_items (AtUse k) v body.

(** 6.8.4.2p2: if a switch statement has a case or default label within the scope of a
    variably modified identifier, the whole switch statement is within that scope: the
    blocks between a switch statement and its labels declare no array before the
    statement with the label. [b]: an array has been declared since the switch. *)
Fixpoint switches_legal (s : stmt) (b : bool) : bool :=
  match s with
  | SUse _ | SReturn _ | SGoto _ _ | SAlloca | SBreak | SContinue => true
  | SBlock l => switches_legal_items l b
  | SIf _ s1 s2 => switches_legal s1 b && switches_legal s2 b
  | SWhile _ s | SDo s _ | SFor _ _ _ s | SLabel _ s => switches_legal s b
  | SSwitch _ s => switches_legal s false
  | SCase s | SDefault s => negb b && switches_legal s b
  end
with switches_legal_items (l : items) (b : bool) : bool :=
  match l with
  | INil => true
  | IVla _ r => switches_legal_items r true
  | IStmt s r => switches_legal s b && switches_legal_items r b
  end.

(** What the code is right for. A statement that no break, continue or goto leaves:
    [bl] tells whether a break inside it is bound in it, [cl] the same of continue. *)
Fixpoint stays (s : stmt) (bl cl : bool) : bool :=
  match s with
  | SUse _ | SReturn _ | SAlloca => true
  | SGoto _ _ => false
  | SBreak => bl
  | SContinue => cl
  | SBlock l => stays_items l bl cl
  | SIf _ s1 s2 => stays s1 bl cl && stays s2 bl cl
  | SWhile _ s | SDo s _ | SFor _ _ _ s => stays s true true
  | SSwitch _ s => stays s true cl
  | SCase s | SDefault s | SLabel _ s => stays s bl cl
  end
with stays_items (l : items) (bl cl : bool) : bool :=
  match l with
  | INil => true
  | IVla _ r => stays_items r bl cl
  | IStmt s r => stays s bl cl && stays_items r bl cl
  end.

(** A statement without any jump statement or label (other than of case). *)
Fixpoint calm (s : stmt) : bool :=
  match s with
  | SUse _ | SReturn _ | SAlloca => true
  | SGoto _ _ | SBreak | SContinue | SLabel _ _ => false
  | SBlock l => calm_items l
  | SIf _ s1 s2 => calm s1 && calm s2
  | SWhile _ s | SDo s _ | SFor _ _ _ s | SSwitch _ s | SCase s | SDefault s => calm s
  end
with calm_items (l : items) : bool :=
  match l with
  | INil => true
  | IVla _ r => calm_items r
  | IStmt s r => calm s && calm_items r
  end.

(** In every block: nothing leaves the block before its first array is declared, and
    there are no jumps or labels between its first and its last array. *)
Fixpoint tidy (s : stmt) : bool :=
  match s with
  | SUse _ | SReturn _ | SGoto _ _ | SAlloca | SBreak | SContinue => true
  | SBlock l => tidy_items l false
  | SIf _ s1 s2 => tidy s1 && tidy s2
  | SWhile _ s | SDo s _ | SSwitch _ s | SFor _ _ _ s | SCase s | SDefault s | SLabel _ s => tidy s
  end
with tidy_items (l : items) (seen : bool) : bool :=
  match l with
  | INil => true
  | IVla _ r => tidy_items r true
  | IStmt s r =>
    tidy s && tidy_items r seen
    && match decls r with
       | [] => true
       | _ => if seen then calm s else stays s false false
       end
  end.

(** At most one array in every block, and no use of alloca. *)
Fixpoint simple (s : stmt) : bool :=
  match s with
  | SUse _ | SReturn _ | SGoto _ _ | SBreak | SContinue => true
  | SAlloca => false
  | SBlock l => simple_items l && Nat.leb (length (decls l)) 1
  | SIf _ s1 s2 => simple s1 && simple s2
  | SWhile _ s | SDo s _ | SSwitch _ s | SFor _ _ _ s | SCase s | SDefault s | SLabel _ s => simple s
  end
with simple_items (l : items) : bool :=
  match l with
  | INil => true
  | IVla _ r => simple_items r
  | IStmt s r => simple s && simple_items r
  end.

(** The storage of the arrays in scope at the expression [k]: every array has an area of
    its own between the base and the top of the storage of the function. *)
Open Scope Z_scope.
Definition alive (top : Z) (body : items) (k : nat) (st : state) : Prop :=
  (forall v, visible_items (AtUse k) v body ->
     exists lo size, area st v = Some (lo, size) /\ 0 <= size /\ base st <= lo /\ lo + size <= top) /\
  (forall v w lo1 size1 lo2 size2,
     visible_items (AtUse k) v body -> visible_items (AtUse k) w body -> v <> w ->
     area st v = Some (lo1, size1) -> area st w = Some (lo2, size2) ->
     lo1 + size1 <= lo2 \/ lo2 + size2 <= lo1).

(** Nothing else is allocated: the base is the address of an array in scope, or the top
    if there is none. *)
Definition released (top : Z) (body : items) (k : nat) (st : state) : Prop :=
  ((forall v, ~ visible_items (AtUse k) v body) -> base st = top) /\
  ((exists v, visible_items (AtUse k) v body) ->
   exists v size, visible_items (AtUse k) v body /\ area st v = Some (base st, size)).

(** 6.8.6.2p1, 6.8.6.3p1 and 6.8.1p2: break in a loop or switch, continue in a loop, case and
    default in a switch; [bl], [cl], [sw]: the statement is in one. *)
Fixpoint bound (s : stmt) (bl cl sw : bool) : bool :=
  match s with
  | SUse _ | SReturn _ | SAlloca | SGoto _ _ => true
  | SBreak => bl
  | SContinue => cl
  | SBlock l => bound_items l bl cl sw
  | SIf _ s1 s2 => bound s1 bl cl sw && bound s2 bl cl sw
  | SWhile _ s | SDo s _ | SFor _ _ _ s => bound s true true sw
  | SSwitch _ s => bound s true cl true
  | SCase s | SDefault s => sw && bound s bl cl sw
  | SLabel _ s => bound s bl cl sw
  end
with bound_items (l : items) (bl cl sw : bool) : bool :=
  match l with
  | INil => true
  | IVla _ r => bound_items r bl cl sw
  | IStmt s r => bound s bl cl sw && bound_items r bl cl sw
  end.

(** The labels of a function. *)
Fixpoint label_names (s : stmt) : list nat :=
  match s with
  | SUse _ | SReturn _ | SGoto _ _ | SAlloca | SBreak | SContinue => []
  | SBlock l => label_names_items l
  | SIf _ s1 s2 => label_names s1 ++ label_names s2
  | SWhile _ s | SDo s _ | SSwitch _ s | SFor _ _ _ s | SCase s | SDefault s => label_names s
  | SLabel l s => l :: label_names s
  end
with label_names_items (l : items) : list nat :=
  match l with
  | INil => []
  | IVla _ r => label_names_items r
  | IStmt s r => label_names s ++ label_names_items r
  end.

(** 6.8.4.2p3: at most one default label of a switch statement: the number of those of
    the innermost switch statement. *)
Fixpoint defaults (s : stmt) : nat :=
  match s with
  | SUse _ | SReturn _ | SGoto _ _ | SAlloca | SBreak | SContinue | SSwitch _ _ => 0
  | SBlock l => defaults_items l
  | SIf _ s1 s2 => defaults s1 + defaults s2
  | SWhile _ s | SDo s _ | SFor _ _ _ s | SCase s | SLabel _ s => defaults s
  | SDefault s => S (defaults s)
  end
with defaults_items (l : items) : nat :=
  match l with
  | INil => 0
  | IVla _ r => defaults_items r
  | IStmt s r => defaults s + defaults_items r
  end.
Fixpoint one_default (s : stmt) : bool :=
  match s with
  | SUse _ | SReturn _ | SAlloca | SGoto _ _ | SBreak | SContinue => true
  | SBlock l => one_default_items l
  | SIf _ s1 s2 => one_default s1 && one_default s2
  | SWhile _ s | SDo s _ | SFor _ _ _ s | SCase s | SDefault s | SLabel _ s => one_default s
  | SSwitch _ s => Nat.leb (defaults s) 1 && one_default s
  end
with one_default_items (l : items) : bool :=
  match l with
  | INil => true
  | IVla _ r => one_default_items r
  | IStmt s r => one_default s && one_default_items r
  end.
