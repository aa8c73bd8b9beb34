(** Side conditions under which the expression theorem holds: operand types for
    which the translator's compound assignment and conditional operator are right.
    Both are stated on C types only.  PropExpr.v proves that outside them the
    translation is wrong for some operand values. *)

From Coq Require Import ZArith Bool List.
From Verif Require Import CTypes CSem.
Open Scope Z_scope.

Definition is_u32 (t : ity) : bool := negb (isigned t) && (iwidth t =? 32).
Definition is_u64 (t : ity) : bool := negb (isigned t) && (iwidth t =? 64).

(** [E1 op= E2] with operand types [tl] and [tr]. *)
Definition compound_ok0 (op : binop) (tl tr : ity) : bool :=
  let t := c_common tl tr in
  match op with
  | BAdd | BSub | BMul => negb (is_u32 t && (ity_eqb tl IUInt || ity_eqb tl IBool))
  | BShl => negb (is_u32 t && ity_eqb tl IUInt)
  | BMod => Bool.eqb (isigned tr) (isigned t) || (isigned tr && is_u32 t)
            || (negb (isigned tr) && negb (isigned tl))
  | BShr => (represents_all tl t && (if isigned tr then negb (is_u64 t) else negb (isigned tl)))
            || (negb (isigned tr) && (iwidth tl <=? 32) && (is_u64 t || isigned t)
                && negb (ity_sim tl t))
  | _ => true
  end.

(** ... and the combinations with a _Bool operand that cannot go wrong. *)
Definition compound_ok1 (op : binop) (tl tr : ity) : bool :=
  match op with
  | BSub => ity_eqb tl IBool && ity_eqb tr IUInt
  | BMul => (ity_eqb tl IBool && ity_eqb tr IUInt) || (ity_eqb tl IUInt && ity_eqb tr IBool)
  | BMod => ity_eqb tr IBool
  | _ => false
  end.

Definition compound_ok (op : binop) (tl tr : ity) : bool := compound_ok0 op tl tr || compound_ok1 op tl tr.

(** [c ? a : b]: neither branch needs a conversion that changes its 64-bit slot. *)
Definition branch_ok (ta t : ity) : bool := represents_all ta t || (iwidth t =? 64).

Definition cond_ok (ta tb : cty) : bool :=
  match ta, tb with
  | TInt x, TInt y => branch_ok x (c_common x y) && branch_ok y (c_common x y)
  | _, _ => true
  end.

Section Side.
Variable S : senv.

Definition cty_of (e : expr) : cty :=
  match ctype_of S e with Some t => t | None => TInt IInt end.

Fixpoint expr_ok (e : expr) : bool :=
  match e with
  | EConst _ _ | ELocal _ _ | EGlobal _ _ _ => true
  | EUn _ a | ECast _ a | EDeref a | EAddr a | EMember a _ | EIncDec _ _ a => expr_ok a
  | EBin _ a b | ELAnd a b | ELOr a b | EComma a b | EIndex a b | EAssign a b => expr_ok a && expr_ok b
  | ECond c a b =>
    expr_ok c && expr_ok a && expr_ok b && cond_ok (decay (cty_of a)) (decay (cty_of b))
  | EOpAssign op l r =>
    expr_ok l && expr_ok r &&
    match cty_of l, decay (cty_of r) with
    | TInt x, TInt y => compound_ok op x y
    | _, _ => true
    end
  end.

End Side.
