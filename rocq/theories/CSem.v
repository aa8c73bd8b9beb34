(** Semantics of C17 expressions over scalar objects (LP64), written from the
    standard and independent of the compiler.

    Expressions are typed ([ctype_of], 6.5) and evaluated by a relation
    [ceval md e m r]: in memory [m], evaluating [e] as an rvalue ([RV]) or as an
    lvalue ([LV], the result is an address) may have outcome [r], either
    [Some (v, m')], value [v] and final memory [m'], or [None], undefined
    behaviour.  Operands of binary operators, assignments and subscripts may be
    evaluated in any order (6.5p3).

    Simplifications: memory is flat, so every access is permitted and pointer
    arithmetic is modulo 2^64 (C leaves out-of-bounds arithmetic undefined, hence
    programs covered here include all those C defines); no floating types,
    structure rvalues, void expressions, function calls or bit-fields. *)

From Coq Require Import ZArith Lia Bool List.
From Verif Require Import Bits CTypes Memory.
Import ListNotations.
Open Scope Z_scope.

(** ** Object types *)
Inductive cty : Set :=
| TInt (i : ity)
| TPtr (t : cty)
| TArr (t : cty) (n : Z)
| TStruct (id : nat).

Fixpoint cty_eqb (a b : cty) : bool :=
  match a, b with
  | TInt i, TInt j => ity_eqb i j
  | TPtr a, TPtr b => cty_eqb a b
  | TArr a n, TArr b k => cty_eqb a b && (n =? k)
  | TStruct i, TStruct j => Nat.eqb i j
  | _, _ => false
  end.

Lemma cty_eqb_eq : forall a b, cty_eqb a b = true <-> a = b.
Proof.
  induction a; destruct b; simpl; split; intro H; try congruence.
  - apply ity_eqb_eq in H. congruence.
  - inversion H; subst. now apply ity_eqb_eq.
  - apply IHa in H. congruence.
  - inversion H; subst. now apply IHa.
  - apply andb_true_iff in H. destruct H as [H1 H2]. apply IHa in H1. apply Z.eqb_eq in H2. congruence.
  - inversion H; subst. apply andb_true_iff. split; [now apply IHa|apply Z.eqb_refl].
  - apply Nat.eqb_eq in H. congruence.
  - inversion H; subst. apply Nat.eqb_refl.
Qed.

(** Structure layouts: size of each structure, byte offset and type of each member. *)
Record senv := { ssize : nat -> Z; sfield : nat -> nat -> option (Z * cty) }.

Fixpoint csize (S : senv) (t : cty) : Z :=
  match t with
  | TInt i => isize i
  | TPtr _ => 8
  | TArr t n => n * csize S t
  | TStruct id => ssize S id
  end.

(** 6.3.2.1p3 *)
Definition decay (t : cty) : cty := match t with TArr t _ => TPtr t | t => t end.

Definition scalar (t : cty) : bool := match t with TInt _ | TPtr _ => true | _ => false end.

(** Values of a type; pointers are 64-bit addresses. *)
Definition vrange (t : cty) (v : Z) : Prop :=
  match t with TInt i => in_range i v | _ => 0 <= v < 2 ^ 64 end.

(** ** Syntax *)
Inductive unop := UPlus | UMinus | UNot | ULNot.
Inductive binop := BAdd | BSub | BMul | BDiv | BMod | BShl | BShr | BAnd | BOr | BXor
                 | BLt | BGt | BLe | BGe | BEq | BNe.

Inductive expr :=
| EConst (i : ity) (v : Z)
| ELocal (off : Z) (t : cty)             (* automatic object at an offset in the frame *)
| EGlobal (id : nat) (off : Z) (t : cty) (* object at an offset from a symbol *)
| EUn (op : unop) (e : expr)
| EBin (op : binop) (a b : expr)
| ELAnd (a b : expr)
| ELOr (a b : expr)
| ECond (c a b : expr)
| EComma (a b : expr)
| ECast (t : cty) (e : expr)
| EDeref (e : expr)
| EAddr (e : expr)
| EIndex (a i : expr)
| EMember (e : expr) (f : nat)
| EAssign (l r : expr)
| EOpAssign (op : binop) (l r : expr)
| EIncDec (pre inc : bool) (e : expr).

Inductive mode := RV | LV.

Definition is_lv (e : expr) : bool :=
  match e with ELocal _ _ | EGlobal _ _ _ | EDeref _ | EIndex _ _ | EMember _ _ => true | _ => false end.

(** ** Operator classes *)
Inductive opclass := CArith | CBits | CShift | CRel.
Definition class_of (op : binop) : opclass :=
  match op with
  | BAdd | BSub | BMul | BDiv | BMod => CArith
  | BAnd | BOr | BXor => CBits
  | BShl | BShr => CShift
  | BLt | BGt | BLe | BGe | BEq | BNe => CRel
  end.

(** ** Typing (6.5) *)
Section Typing.
Variable S : senv.

Definition cun_type (op : unop) (t : cty) : option cty :=
  match op, t with
  | ULNot, (TInt _ | TPtr _) => Some (TInt IInt)
  | (UPlus | UMinus | UNot), TInt i => Some (TInt (c_promote i))
  | _, _ => None
  end.

Definition cbin_type (op : binop) (a b : cty) : option cty :=
  match a, b with
  | TInt x, TInt y =>
    match class_of op with
    | CArith | CBits => Some (TInt (c_common x y))
    | CShift => Some (TInt (c_promote x))
    | CRel => Some (TInt IInt)
    end
  | TPtr t, TInt _ => match op with BAdd | BSub => Some (TPtr t) | _ => None end
  | TInt _, TPtr t => match op with BAdd => Some (TPtr t) | _ => None end
  | TPtr t, TPtr t' =>
    if cty_eqb t t' then
      match op with
      | BSub => Some (TInt ILong)
      | BLt | BGt | BLe | BGe | BEq | BNe => Some (TInt IInt)
      | _ => None
      end
    else None
  | _, _ => None
  end.

Definition ccond_type (a b : cty) : option cty :=
  match a, b with
  | TInt x, TInt y => Some (TInt (c_common x y))
  | TPtr t, TPtr t' => if cty_eqb t t' then Some (TPtr t) else None
  | _, _ => None
  end.

(** Simple assignment 6.5.16.1, the cases kept: arithmetic from arithmetic, pointer
    from a pointer to the same type, _Bool from a pointer. *)
Definition assignable (l r : cty) : bool :=
  match l, r with
  | TInt _, TInt _ => true
  | TInt IBool, TPtr _ => true
  | TPtr t, TPtr t' => cty_eqb t t'
  | _, _ => false
  end.

Fixpoint ctype_of (e : expr) : option cty :=
  match e with
  | EConst i v => if in_rangeb i v then Some (TInt i) else None
  | ELocal _ t => Some t
  | EGlobal _ _ t => Some t
  | EUn op e =>
    match ctype_of e with Some t => cun_type op (decay t) | None => None end
  | EBin op a b =>
    match ctype_of a, ctype_of b with
    | Some ta, Some tb => cbin_type op (decay ta) (decay tb)
    | _, _ => None
    end
  | ELAnd a b | ELOr a b =>
    match ctype_of a, ctype_of b with
    | Some ta, Some tb =>
      if scalar (decay ta) && scalar (decay tb) then Some (TInt IInt) else None
    | _, _ => None
    end
  | ECond c a b =>
    match ctype_of c, ctype_of a, ctype_of b with
    | Some tc, Some ta, Some tb =>
      if scalar (decay tc) then ccond_type (decay ta) (decay tb) else None
    | _, _, _ => None
    end
  | EComma a b =>
    match ctype_of a, ctype_of b with
    | Some ta, Some tb =>
      if scalar (decay ta) && scalar (decay tb) then Some (decay tb) else None
    | _, _ => None
    end
  | ECast t e =>
    match ctype_of e with
    | Some te => if scalar t && scalar (decay te) then Some t else None
    | None => None
    end
  | EDeref e =>
    match ctype_of e with
    | Some te => match decay te with TPtr t => Some t | _ => None end
    | None => None
    end
  | EAddr e =>
    match ctype_of e with
    | Some t => if is_lv e then Some (TPtr t) else None
    | None => None
    end
  | EIndex a i =>
    match ctype_of a, ctype_of i with
    | Some ta, Some ti =>
      match decay ta, decay ti with
      | TPtr t, TInt _ => Some t
      | TInt _, TPtr t => Some t
      | _, _ => None
      end
    | _, _ => None
    end
  | EMember e f =>
    match ctype_of e with
    | Some (TStruct id) =>
      if is_lv e then match sfield S id f with Some (_, t) => Some t | None => None end else None
    | _ => None
    end
  | EAssign l r =>
    match ctype_of l, ctype_of r with
    | Some tl, Some tr =>
      if is_lv l && scalar tl && assignable tl (decay tr) then Some tl else None
    | _, _ => None
    end
  | EOpAssign op l r =>
    match ctype_of l, ctype_of r with
    | Some tl, Some tr =>
      if is_lv l then
        match tl, decay tr with
        | TInt _, TInt _ => match class_of op with CRel => None | _ => Some tl end
        | TPtr _, TInt _ => match op with BAdd | BSub => Some tl | _ => None end
        | _, _ => None
        end
      else None
    | _, _ => None
    end
  | EIncDec _ _ e =>
    match ctype_of e with
    | Some t => if is_lv e && scalar t then Some t else None
    | None => None
    end
  end.

End Typing.

(** ** Operators on values *)

Definition bindo {A B : Type} (o : option A) (f : A -> option B) : option B :=
  match o with Some a => f a | None => None end.

(** 6.5p5: a signed result outside its type is undefined; 6.2.5p9: unsigned
    arithmetic is modulo 2^N. *)
Definition wrap (t : ity) (z : Z) : option Z :=
  if isigned t then (if in_rangeb t z then Some z else None) else Some (z mod 2 ^ iwidth t).

Definition b2z (b : bool) : Z := if b then 1 else 0.

(** Multiplicative, additive and bitwise operators on two values of type [t]
    (6.5.5, 6.5.6, 6.5.10-6.5.12). *)
Definition c_arith (op : binop) (t : ity) (x y : Z) : option Z :=
  match op with
  | BAdd => wrap t (x + y)
  | BSub => wrap t (x - y)
  | BMul => wrap t (x * y)
  | BDiv => if y =? 0 then None else wrap t (Z.quot x y)
  | BMod => if y =? 0 then None
            else if in_rangeb t (Z.quot x y) then Some (Z.rem x y) else None
  | BAnd => Some (Z.land x y)
  | BOr => Some (Z.lor x y)
  | BXor => Some (Z.lxor x y)
  | _ => None
  end.

(** 6.5.7; [t] is the promoted type of the left operand.  Right shift of a negative
    value is implementation-defined: arithmetic here. *)
Definition c_shift (op : binop) (t : ity) (x c : Z) : option Z :=
  if (0 <=? c) && (c <? iwidth t) then
    match op with
    | BShl => if isigned t then
                (if (0 <=? x) && in_rangeb t (x * 2 ^ c) then Some (x * 2 ^ c) else None)
              else Some ((x * 2 ^ c) mod 2 ^ iwidth t)
    | BShr => Some (x / 2 ^ c)
    | _ => None
    end
  else None.

Definition c_rel (op : binop) (x y : Z) : option Z :=
  match op with
  | BLt => Some (b2z (x <? y))
  | BGt => Some (b2z (y <? x))
  | BLe => Some (b2z (x <=? y))
  | BGe => Some (b2z (y <=? x))
  | BEq => Some (b2z (x =? y))
  | BNe => Some (b2z (negb (x =? y)))
  | _ => None
  end.

(** A binary operator on integer operands of types [a] and [b], conversions
    included. *)
Definition cbin_int (op : binop) (a b : ity) (x y : Z) : option Z :=
  match class_of op with
  | CArith | CBits => let t := c_common a b in c_arith op t (cconv t x) (cconv t y)
  | CShift => c_shift op (c_promote a) x y
  | CRel => let t := c_common a b in c_rel op (cconv t x) (cconv t y)
  end.

Section Sem.
Variable S : senv.
Variable G : renv.

(** 6.5.6p8-9, 6.5.8, 6.5.9 on pointers; no object is larger than PTRDIFF_MAX. *)
Definition cptr_add (t : cty) (p i : Z) : Z := u64 (p + i * csize S t).
Definition cptr_sub (t : cty) (p q : Z) : option Z :=
  let sz := csize S t in
  if (0 <? sz) && (sz <? 2 ^ 63) && ((p - q) mod sz =? 0) && in_rangeb ILong (p - q)
  then Some ((p - q) / sz) else None.

Definition cbin (op : binop) (a b : cty) (x y : Z) : option Z :=
  match a, b with
  | TInt i, TInt j => cbin_int op i j x y
  | TPtr t, TInt _ =>
    match op with
    | BAdd => Some (cptr_add t x y)
    | BSub => Some (cptr_add t x (- y))
    | _ => None
    end
  | TInt _, TPtr t => match op with BAdd => Some (cptr_add t y x) | _ => None end
  | TPtr t, TPtr _ =>
    match op with
    | BSub => cptr_sub t x y
    | _ => c_rel op x y
    end
  | _, _ => None
  end.

Definition cun (op : unop) (t : cty) (x : Z) : option Z :=
  match op, t with
  | UPlus, TInt i => Some x
  | UMinus, TInt i => wrap (c_promote i) (- x)
  | UNot, TInt i => Some (cconv (c_promote i) (Z.lnot x))
  | ULNot, _ => Some (b2z (x =? 0))
  | _, _ => None
  end.

(** 6.3: conversion to a scalar type. *)
Definition cconv_ty (t : cty) (x : Z) : Z :=
  match t with TInt i => cconv i x | _ => u64 x end.

(** Reading an object (6.2.6.1): arrays yield their address; a _Bool object whose
    byte is neither 0 nor 1 is a trap representation. *)
Definition cload (t : cty) (m : mem) (a : Z) : option Z :=
  match t with
  | TInt IBool => let b := read m a 1 in if (b =? 0) || (b =? 1) then Some b else None
  | TInt i => let v := read m a (Z.to_nat (isize i)) in
              Some (if isigned i then s (8 * isize i) v else v)
  | TPtr _ => Some (read m a 8)
  | TArr _ _ => Some a
  | TStruct _ => None
  end.

Definition cstore (t : cty) (m : mem) (a v : Z) : mem :=
  match t with
  | TInt i => store m a (Z.to_nat (isize i)) v
  | TPtr _ => store m a 8 v
  | _ => m
  end.

(** The value [E1 op E2] assigned by [E1 op= E2], 6.5.16.2p3. *)
Definition copassign (op : binop) (tl tr : cty) (x y : Z) : option Z :=
  bindo (cbin op tl tr x y) (fun z => Some (cconv_ty tl z)).

(** Two evaluations in unspecified order. *)
Inductive seq2 (R1 R2 : mem -> option (Z * mem) -> Prop) : mem -> option (Z * Z * mem) -> Prop :=
| s2_lr : forall m v1 m1 v2 m2, R1 m (Some (v1, m1)) -> R2 m1 (Some (v2, m2)) ->
    seq2 R1 R2 m (Some (v1, v2, m2))
| s2_rl : forall m v1 m1 v2 m2, R2 m (Some (v2, m1)) -> R1 m1 (Some (v1, m2)) ->
    seq2 R1 R2 m (Some (v1, v2, m2))
| s2_ub_l : forall m, R1 m None -> seq2 R1 R2 m None
| s2_ub_r : forall m, R2 m None -> seq2 R1 R2 m None
| s2_ub_lr : forall m v1 m1, R1 m (Some (v1, m1)) -> R2 m1 None -> seq2 R1 R2 m None
| s2_ub_rl : forall m v2 m1, R2 m (Some (v2, m1)) -> R1 m1 None -> seq2 R1 R2 m None.

(** Decayed type of an operand. *)
Definition rtype (e : expr) (t : cty) : Prop := exists t0, ctype_of S e = Some t0 /\ t = decay t0.

Inductive ceval : mode -> expr -> mem -> option (Z * mem) -> Prop :=
(* lvalues *)
| ev_local : forall off t m, ceval LV (ELocal off t) m (Some (u64 (lbase G + off), m))
| ev_global : forall id off t m, ceval LV (EGlobal id off t) m (Some (u64 (gaddr G id + off), m))
| ev_deref : forall e m r, ceval RV e m r -> ceval LV (EDeref e) m r
| ev_index : forall a i m r t j, rtype a (TPtr t) -> rtype i (TInt j) ->
    seq2 (ceval RV a) (ceval RV i) m r ->
    ceval LV (EIndex a i) m (bindo r (fun x => let '(p, k, m1) := x in Some (cptr_add t p k, m1)))
| ev_index_swapped : forall a i m r t j, rtype a (TInt j) -> rtype i (TPtr t) ->
    seq2 (ceval RV a) (ceval RV i) m r ->
    ceval LV (EIndex a i) m (bindo r (fun x => let '(k, p, m1) := x in Some (cptr_add t p k, m1)))
| ev_member : forall e f id off t m r, ctype_of S e = Some (TStruct id) ->
    sfield S id f = Some (off, t) -> ceval LV e m r ->
    ceval LV (EMember e f) m (bindo r (fun x => let '(a, m1) := x in Some (u64 (a + off), m1)))
(* lvalue conversion *)
| ev_load : forall e t m r, is_lv e = true -> ctype_of S e = Some t -> ceval LV e m r ->
    ceval RV e m (bindo r (fun x => let '(a, m1) := x in bindo (cload t m1 a) (fun v => Some (v, m1))))
(* values *)
| ev_const : forall i v m, ceval RV (EConst i v) m (Some (v, m))
| ev_un : forall op e t m r, rtype e t -> ceval RV e m r ->
    ceval RV (EUn op e) m (bindo r (fun x => let '(v, m1) := x in bindo (cun op t v) (fun w => Some (w, m1))))
| ev_bin : forall op a b ta tb m r, rtype a ta -> rtype b tb ->
    seq2 (ceval RV a) (ceval RV b) m r ->
    ceval RV (EBin op a b) m
      (bindo r (fun x => let '(v, w, m1) := x in bindo (cbin op ta tb v w) (fun z => Some (z, m1))))
| ev_land_ub : forall a b m, ceval RV a m None -> ceval RV (ELAnd a b) m None
| ev_land_0 : forall a b m m1, ceval RV a m (Some (0, m1)) -> ceval RV (ELAnd a b) m (Some (0, m1))
| ev_land_1 : forall a b m v m1 r, ceval RV a m (Some (v, m1)) -> v <> 0 -> ceval RV b m1 r ->
    ceval RV (ELAnd a b) m (bindo r (fun x => let '(w, m2) := x in Some (b2z (negb (w =? 0)), m2)))
| ev_lor_ub : forall a b m, ceval RV a m None -> ceval RV (ELOr a b) m None
| ev_lor_1 : forall a b m v m1, ceval RV a m (Some (v, m1)) -> v <> 0 ->
    ceval RV (ELOr a b) m (Some (1, m1))
| ev_lor_0 : forall a b m m1 r, ceval RV a m (Some (0, m1)) -> ceval RV b m1 r ->
    ceval RV (ELOr a b) m (bindo r (fun x => let '(w, m2) := x in Some (b2z (negb (w =? 0)), m2)))
| ev_cond_ub : forall c a b m, ceval RV c m None -> ceval RV (ECond c a b) m None
| ev_cond_1 : forall c a b t m v m1 r, ceval RV c m (Some (v, m1)) -> v <> 0 ->
    ctype_of S (ECond c a b) = Some t -> ceval RV a m1 r ->
    ceval RV (ECond c a b) m (bindo r (fun x => let '(w, m2) := x in Some (cconv_ty t w, m2)))
| ev_cond_0 : forall c a b t m m1 r, ceval RV c m (Some (0, m1)) ->
    ctype_of S (ECond c a b) = Some t -> ceval RV b m1 r ->
    ceval RV (ECond c a b) m (bindo r (fun x => let '(w, m2) := x in Some (cconv_ty t w, m2)))
| ev_comma_ub : forall a b m, ceval RV a m None -> ceval RV (EComma a b) m None
| ev_comma : forall a b m v m1 r, ceval RV a m (Some (v, m1)) -> ceval RV b m1 r ->
    ceval RV (EComma a b) m r
| ev_cast : forall t e m r, ceval RV e m r ->
    ceval RV (ECast t e) m (bindo r (fun x => let '(v, m1) := x in Some (cconv_ty t v, m1)))
| ev_addr : forall e m r, is_lv e = true -> ceval LV e m r -> ceval RV (EAddr e) m r
| ev_assign : forall l e t m r, ctype_of S l = Some t ->
    seq2 (ceval LV l) (ceval RV e) m r ->
    ceval RV (EAssign l e) m
      (bindo r (fun x => let '(a, v, m1) := x in
                         Some (cconv_ty t v, cstore t m1 a (cconv_ty t v))))
| ev_opassign : forall op l e t te m r, ctype_of S l = Some t -> rtype e te ->
    seq2 (ceval LV l) (ceval RV e) m r ->
    ceval RV (EOpAssign op l e) m
      (bindo r (fun x => let '(a, v, m1) := x in
         bindo (cload t m1 a) (fun old =>
         bindo (copassign op t te old v) (fun new => Some (new, cstore t m1 a new)))))
(* 6.5.3.1p2, 6.5.2.4p2: E += 1 or E -= 1 *)
| ev_incdec : forall pre inc e t m r, ctype_of S e = Some t -> ceval LV e m r ->
    ceval RV (EIncDec pre inc e) m
      (bindo r (fun x => let '(a, m1) := x in
         bindo (cload t m1 a) (fun old =>
         bindo (copassign (if inc then BAdd else BSub) t (TInt IInt) old 1) (fun new =>
         Some (if pre then new else old, cstore t m1 a new))))).

End Sem.
