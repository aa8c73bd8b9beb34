(** Macro replacement as C17 6.10.3 defines it, for object-like macros. *)

From Coq Require Import Bool List String Arith Lia.
From Verif Require Import LexModel PropPunct MacroModel.
Import ListNotations.
Open Scope string_scope.
Open Scope list_scope.

(** Tokens read from a source file: no identifier is marked, there are no placemakers. *)
Definition source_token (t : tok) : Prop :=
  match t with TId _ b => b = false | TPlace => False | _ => True end.
Definition source (l : list tok) : Prop := Forall source_token l.

(** The token without kefir's mark. *)
Definition erase (t : tok) : tok := match t with TId s _ => TId s false | _ => t end.

(** 6.10.3.3p3: the token whose spelling is that of the operands put together. *)
Inductive joins : tok -> tok -> tok -> Prop :=
  | J_ii : forall a x b y, joins (TId a x) (TId b y) (TId (a ++ b) false)
  | J_in : forall a x b, joins (TId a x) (TNum b) (TId (a ++ b) false)
  | J_ni : forall a b y, joins (TNum a) (TId b y) (TNum (a ++ b))
  | J_nn : forall a b, joins (TNum a) (TNum b) (TNum (a ++ b))
  | J_pp : forall p q r, spelling r = (spelling p ++ spelling q)%list -> joins (TPunct p) (TPunct q) (TPunct r).

Definition spaces (l : list tok) : Prop := forall t, In t l -> is_ws t = true.

(** 6.10.3.3: every [##] of the replacement list is deleted, the token before it joined
    with the one after it, from left to right. *)
Inductive pastes : list tok -> list tok -> Prop :=
  | P_nil : pastes [] []
  | P_keep : forall t l l', (is_ws t = false -> forall s r, spaces s -> l <> s ++ TPunct P_DOUBLE_HASH :: r) ->
      pastes l l' -> pastes (t :: l) (t :: l')
  | P_join : forall t s1 s2 u v l l', is_ws t = false -> is_ws u = false -> spaces s1 -> spaces s2 -> joins t u v ->
      pastes (v :: l) l' -> pastes (t :: s1 ++ TPunct P_DOUBLE_HASH :: s2 ++ u :: l) l'.

Section Spec.
Variable defs : list (string * macro).

(** 6.10.3.4: each macro name is replaced by its replacement list, which is scanned again;
    [hide] are the macros being replaced, whose names stay. *)
Inductive expands : list string -> list tok -> list tok -> Prop :=
  | E_nil : forall h, expands h [] []
  | E_keep : forall h t l l', (forall s b, t = TId s b -> locate defs s = None \/ In s h) ->
      expands h l l' -> expands h (t :: l) (t :: l')
  | E_replace : forall h s b body body' m l l', locate defs s = Some (MObj body) -> ~ In s h ->
      pastes body body' -> expands (s :: h) body' m -> expands h l l' ->
      expands h (TId s b :: l) (m ++ l').

(** 6.10.1p1 and p4, for the line of an #if: the defined operators are evaluated first. *)
Inductive resolves : list tok -> list tok -> Prop :=
  | R_nil : resolves [] []
  | R_keep : forall t l l', (forall b, t <> TId "defined" b) -> resolves l l' -> resolves (t :: l) (t :: l')
  | R_name : forall b s1 x y l l', spaces s1 -> resolves l l' ->
      resolves (TId "defined" b :: s1 ++ TId x y :: l) (TNum (if is_macro defs x then "1" else "0") :: l')
  | R_paren : forall b s1 s2 s3 x y l l', spaces s1 -> spaces s2 -> spaces s3 -> resolves l l' ->
      resolves (TId "defined" b :: s1 ++ TPunct P_LEFT_PARENTHESE :: s2 ++ TId x y :: s3 ++ TPunct P_RIGHT_PARENTHESE :: l)
        (TNum (if is_macro defs x then "1" else "0") :: l').
(** ... and the identifiers that remain after the replacement become 0. *)
Definition zero (t : tok) : tok := match t with TId _ _ => TNum "0" | _ => t end.

(** What is expanded: in an #if the line with its defined operators evaluated. *)
Definition prepared (cond : bool) (l l' : list tok) : Prop := if cond then resolves l l' else l' = l.
Definition concluded (cond : bool) (l : list tok) : list tok := if cond then map zero l else l.

(** [y] is a macro that the replacement of [x] names.  The name of [x] itself does not
    count, except in an #if. *)
Definition mentions (cond : bool) (x y : string) : Prop :=
  exists body body', locate defs x = Some (MObj body) /\ pastes body body' /\
    In (TId y false) body' /\ is_macro defs y = true /\ (cond = true \/ y <> x).

End Spec.
