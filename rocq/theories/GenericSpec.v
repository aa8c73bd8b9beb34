(** C17 6.5.1.1: generic selections. *)
From Coq Require Import ZArith List Bool.
From Verif Require Import CompatModel PropCompatSpec ExprTypeModel ExprTypeSpec GenericModel.
Import ListNotations.

(** 6.7.6p3: variably modified types *)
Fixpoint variably_modified (t : ty) : Prop :=
  match t with
  | TPtr a | TQual _ a | TFun a _ _ _ => variably_modified a
  | TArr (Vla _ | VlaStatic _) _ _ => True
  | TArr _ _ a => variably_modified a
  | _ => False
  end.

Section Rules.
Variable size_type : ty.
Variable G : ctx.

(** 6.5.1.1p2: the types of the associations *)
Definition association_type (t : ty) : Prop := complete G t /\ ~ variably_modified t.
Definition distinct (l : list (ty * gexpr)) : Prop := ForallOrdPairs (fun a b => ~ conforms (fst a) (fst b)) l.
Definition at_most_one (v : ty) (l : list (ty * gexpr)) : Prop :=
  ForallOrdPairs (fun a b => conforms v (fst a) -> ~ conforms v (fst b)) l.

(** [gtyped g t k r]: the constraints are satisfied throughout, the expression has the type t and the category k, and
    it stands for the expression r. *)
Inductive gtyped : gexpr -> ty -> cat -> expr -> Prop :=
| T_plain : forall e t k, typed size_type G e t k -> gtyped (GPlain e) t k e
| T_association : forall c l d tc kc rc ta a t k r,
    gtyped c tc kc rc ->
    Forall (fun b => association_type (fst b) /\ exists t' k' r', gtyped (snd b) t' k' r') l ->
    (forall x, d = Some x -> exists t' k' r', gtyped x t' k' r') ->
    distinct l -> at_most_one (value_type tc) l ->
    In (ta, a) l -> conforms (value_type tc) ta -> gtyped a t k r ->
    gtyped (GSel c l d) t k r
| T_default : forall c l x tc kc rc t k r,
    gtyped c tc kc rc ->
    Forall (fun b => association_type (fst b) /\ exists t' k' r', gtyped (snd b) t' k' r') l ->
    distinct l -> (forall b, In b l -> ~ conforms (value_type tc) (fst b)) ->
    gtyped x t k r ->
    gtyped (GSel c l (Some x)) t k r.

(** The constraints that concern more than the association taken *)
Fixpoint constrained (g : gexpr) : Prop :=
  match g with
  | GPlain _ => True
  | GSel c l d =>
    constrained c /\ (fix all l := match l with [] => True | a :: r => constrained (snd a) /\ all r end) l /\
    match d with Some x => constrained x /\ exists t k r, gtyped x t k r | None => True end /\
    Forall (fun a => association_type (fst a)) l /\ distinct l /\
    (forall tc kc rc, gtyped c tc kc rc -> at_most_one (value_type tc) l)
  end.
End Rules.

(** The expressions that a selection is made of *)
Fixpoint leaves (g : gexpr) : list expr :=
  match g with
  | GPlain e => [e]
  | GSel c l d => flat_map (fun a => leaves (snd a)) l ++ match d with Some x => leaves x | None => [] end
  end.
