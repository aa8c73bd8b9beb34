(** What the C standard says of declarations of structures, unions and enumerations (6.2.1, 6.7, 6.7.2.1-6.7.2.3). *)
From Coq Require Import ZArith List Bool String.
From Verif Require Import CompatModel TagModel.
Import ListNotations.
Open Scope Z_scope.

(** ** Types: a structure, union or enumeration is an entity of its own, however it is referred to *)

Inductive styp :=
| YBasic (b : basic)
| YPtr (t : styp)
| YArr (n : option Z) (t : styp)
| YQual (q : qual) (t : styp)
| YFun (t : styp)
| YTag (i : nat).

Inductive kind := KStruct | KUnion | KEnum.
(** A member: its name, its type, its width if it is a bit-field *)
Definition member : Type := option string * styp * option Z.
(** [flat]: the names of the members, with those of anonymous structures and unions (6.7.2.1p13);
    [flex]: a flexible array member, or for a union a member that has one (6.7.2.1p3). *)
Inductive content :=
| CMembers (ms : list member) (flat : list string) (flex : bool)
| CValues (vs : list (string * Z)).
Record entity := Ent { e_kind : kind; e_tag : option string; e_content : option content }.

Record sstate := SS {
  s_tags : list (string -> option nat);
  s_consts : list (string -> option Z);
  s_ents : list entity;
  s_names : list (bool * styp) }.

Definition s_init : sstate := SS [fun _ => None] [fun _ => None] [] [].

Definition bind {A} (f : string -> option A) (x : string) (a : A) : string -> option A :=
  fun y => if String.eqb x y then Some a else f y.
(** 6.2.1p4: the innermost declaration *)
Fixpoint visible {A} (l : list (string -> option A)) (x : string) : option A :=
  match l with [] => None | f :: r => match f x with Some a => Some a | None => visible r x end end.
Definition in_scope {A} (l : list (string -> option A)) (x : string) : option A :=
  match l with [] => None | f :: _ => f x end.
Definition bind_top {A} (l : list (string -> option A)) (x : string) (a : A) : list (string -> option A) :=
  match l with [] => [] | f :: r => bind f x a :: r end.

Definition kind_of (u : bool) : kind := if u then KUnion else KStruct.
Definition kind_eqb (a b : kind) : bool :=
  match a, b with KStruct, KStruct | KUnion, KUnion | KEnum, KEnum => true | _, _ => false end.

Section Entities.
Variable E : list entity.

Definition content_of (i : nat) : option content :=
  match nth_error E i with Some e => e_content e | None => None end.
(** 6.2.5p19, p22: incomplete types *)
Fixpoint incomplete_s (t : styp) : bool :=
  match t with
  | YBasic BVoid => true
  | YArr None _ => true
  | YQual _ a => incomplete_s a
  | YTag i => match content_of i with None => true | Some _ => false end
  | _ => false
  end.
Fixpoint flexible (t : styp) : bool :=
  match t with
  | YQual _ a => flexible a
  | YTag i => match content_of i with Some (CMembers _ _ fx) => fx | _ => false end
  | _ => false
  end.
Definition names_of (t : styp) : list string :=
  match t with YTag i => match content_of i with Some (CMembers _ fl _) => fl | _ => [] end | _ => [] end.
Definition flatten (ms : list member) : list string :=
  flat_map (fun m : member => let '(n, t, w) := m in match n, w with
                              | Some x, _ => [x]
                              | None, None => match t with YTag _ => names_of t | YQual _ t' => names_of t' | _ => [] end
                              | None, Some _ => []
                              end) ms.
(** Width of an integer type in bits (6.7.2.1p4); the implementation allows bit-fields of every integer type. *)
Fixpoint width_of (t : styp) : option Z :=
  match t with
  | YBasic BBool => Some 1
  | YBasic (BChar | BUChar | BSChar) => Some 8
  | YBasic (BUShort | BSShort) => Some 16
  | YBasic (BUInt | BSInt) => Some 32
  | YBasic (BULong | BSLong | BULLong | BSLLong) => Some 64
  | YTag i => match content_of i with Some (CValues _) => Some 32 | _ => None end
  | YQual _ a => width_of a
  | _ => None
  end.
Definition is_fun (t : styp) : bool := match t with YFun _ => true | _ => false end.
Definition is_arr (t : styp) : bool := match t with YArr _ _ => true | _ => false end.

(** 6.7.3: qualifiers of an array are those of the elements; only pointers to objects may be restrict-qualified *)
Definition merge_quals (a b : qual) : qual :=
  Q (q_const a || q_const b) (q_restrict a || q_restrict b) (q_volatile a || q_volatile b).
Fixpoint add_qual (q : qual) (t : styp) : styp :=
  match t with
  | YArr n a => YArr n (add_qual q a)
  | YQual q' a => YQual (merge_quals q q') a
  | _ => YQual q t
  end.
Fixpoint restrictable (t : styp) : bool :=
  match t with YPtr a => negb (is_fun a) | YQual _ a | YArr _ a => restrictable a | _ => false end.
Definition qualified_s (q : qual) (t : styp) : option styp :=
  if q_restrict q && negb (restrictable t) then None
  else Some (if zero_qual q then t else add_qual q t).

(** 6.7.6.1, 6.7.6.2p1, 6.7.6.3p1, 6.7.2.1p3 *)
Definition dmod_s (t : styp) (d : dmod) : option styp :=
  match d with
  | DPtr q => qualified_s q (YPtr t)
  | DArr n =>
    if incomplete_s t || is_fun t || flexible t then None
    else match n with Some z => if 0 <? z then Some (YArr n t) else None | None => Some (YArr None t) end
  | DFun => if is_fun t || is_arr t then None else Some (YFun t)
  end.
Fixpoint shape_s (t : styp) (sh : list dmod) : option styp :=
  match sh with [] => Some t | d :: r => match dmod_s t d with Some t' => shape_s t' r | None => None end end.

(** ** Members (6.7.2.1p2-4) *)

(** A member that is not a bit-field: complete object type, except a flexible array member, which [flexible_ok]
    admits; a member of a structure has no flexible array member. *)
Definition member_ok (u : bool) (t : styp) : bool :=
  match t with
  | YArr _ _ => true
  | _ => negb (incomplete_s t) && negb (is_fun t) && (u || negb (flexible t))
  end.
Definition bitfield_ok (named : bool) (t : styp) (w : Z) : bool :=
  match width_of t with
  | Some n => (0 <=? w) && (w <=? n) && ((0 <? w) || negb named)
  | None => false
  end.
Definition fresh (ms : list member) (xs : list string) : bool :=
  forallb (fun x => negb (existsb (String.eqb x) (flatten ms))) xs.
Definition declr_s (u : bool) (t : styp) (ms : list member) (d : mdeclr) : option (list member) :=
  match d with
  | MPad w => if bitfield_ok false t w then Some (ms ++ [(None, t, Some w)]) else None
  | MD x sh w =>
    match shape_s t sh with
    | Some t' =>
      if fresh ms [x] && match w with None => member_ok u t' | Some w => bitfield_ok true t' w end
      then Some (ms ++ [(Some x, t', w)]) else None
    | None => None
    end
  end.
Fixpoint declrs_s (u : bool) (t : styp) (ms : list member) (ds : list mdeclr) : option (list member) :=
  match ds with [] => Some ms | d :: r => match declr_s u t ms d with Some ms' => declrs_s u t ms' r | None => None end end.
(** 6.7.2.1p2, p13: only a structure or union specifier without tag makes an anonymous member. *)
Definition anonymous_s (u : bool) (s : spec) (t : styp) (ms : list member) : option (list member) :=
  match s with
  | SDef _ None _ =>
    if member_ok u t && fresh ms (match t with YQual _ t' => names_of t' | _ => names_of t end) then Some (ms ++ [(None, t, None)]) else None
  | _ => None
  end.
(** 6.7.2.1p3, p18: an array of unknown length is the last member of a structure that has a named member before it. *)
Fixpoint flexible_ok (u : bool) (before ms : list member) : bool :=
  match ms with
  | [] => true
  | (n, t, w) as m :: r =>
    (match t with
     | YArr None _ => match r with [] => true | _ => false end && negb u && negb (match flatten before with [] => true | _ => false end)
     | _ => true
     end) && flexible_ok u (before ++ [m]) r
  end.
Definition has_flexible (u : bool) (ms : list member) : bool :=
  existsb (fun m : member => let '(_, t, _) := m in match t with YArr None _ => true | _ => u && flexible t end) ms.
End Entities.

(** ** Enumerations (6.7.2.2p2-3): the values are representable in an int; the names are new in the scope *)
Definition int_range (z : Z) : bool := (-2147483648 <=? z) && (z <=? 2147483647).
Fixpoint enumerators_s (es : list enumr) (next : Z) (vs : list (string * Z)) (c : list (string -> option Z)) :
  option (list (string -> option Z) * list (string * Z)) :=
  match es with
  | [] => Some (c, vs)
  | (x, e) :: r =>
    match (match e with Some f => f (visible c) | None => Some next end) with
    | None => None
    | Some v =>
      if int_range v && match in_scope c x with None => true | Some _ => false end
      then enumerators_s r (v + 1) (vs ++ [(x, v)]) (bind_top c x v) else None
    end
  end.

(** ** Specifiers *)

Definition new_entity (k : kind) (x : option string) (c : option content) (s : sstate) : sstate * styp :=
  (SS (match x with Some y => bind_top (s_tags s) y (List.length (s_ents s)) | None => s_tags s end)
      (s_consts s) (s_ents s ++ [Ent k x c]) (s_names s),
   YTag (List.length (s_ents s))).
Fixpoint set_nth {A} (l : list A) (i : nat) (a : A) : list A :=
  match l, i with [], _ => [] | _ :: r, O => a :: r | b :: r, Datatypes.S j => b :: set_nth r j a end.

(** The content of a tag is defined at most once (6.7.2.3p1), with the same kind (p2). *)
Definition complete_s (k : kind) (x : string) (c : content) (s : sstate) : option (sstate * styp) :=
  match in_scope (s_tags s) x with
  | None => Some (new_entity k (Some x) (Some c) s)
  | Some i =>
    match nth_error (s_ents s) i with
    | Some e =>
      match e_content e with
      | None =>
        if kind_eqb (e_kind e) k then
          Some (SS (s_tags s) (s_consts s) (set_nth (s_ents s) i (Ent k (e_tag e) (Some c))) (s_names s), YTag i)
        else None
      | Some _ => None
      end
    | None => None
    end
  end.

Fixpoint spec_s (p : spec) (s : sstate) {struct p} : option (sstate * styp) :=
  match p with
  | SBasic b => Some (s, YBasic b)
  | SName n => match nth_error (s_names s) n with Some (true, t) => Some (s, t) | _ => None end
  | SRef u x =>
    (* 6.7.2.3p2, p8-9: the visible tag, otherwise the declaration of a tag *)
    match visible (s_tags s) x with
    | Some i =>
      match nth_error (s_ents s) i with
      | Some e => if kind_eqb (e_kind e) (kind_of u) then Some (s, YTag i) else None
      | None => None
      end
    | None => Some (new_entity (kind_of u) (Some x) None s)
    end
  | SDef u x ms =>
    (* 6.2.1p7: the scope of the tag begins before the members; 6.7.2.3p4: the type is complete after them *)
    let s1 := match x with
              | Some y => match in_scope (s_tags s) y with Some _ => s | None => fst (new_entity (kind_of u) x None s) end
              | None => s
              end in
    match members_s u ms [] s1 with
    | Some (s2, l) =>
      if flexible_ok (s_ents s2) u [] l then
        let c := CMembers l (flatten (s_ents s2) l) (has_flexible (s_ents s2) u l) in
        match x with
        | Some y => complete_s (kind_of u) y c s2
        | None => Some (new_entity (kind_of u) None (Some c) s2)
        end
      else None
    | None => None
    end
  | SEnumRef x =>
    (* 6.7.2.3p3: only after the enumeration is complete *)
    match visible (s_tags s) x with
    | Some i =>
      match nth_error (s_ents s) i with
      | Some e => if kind_eqb (e_kind e) KEnum then Some (s, YTag i) else None
      | None => None
      end
    | None => None
    end
  | SEnumDef x es =>
    match enumerators_s es 0 [] (s_consts s) with
    | Some (c, vs) =>
      let s2 := SS (s_tags s) c (s_ents s) (s_names s) in
      match x with
      | Some y => complete_s KEnum y (CValues vs) s2
      | None => Some (new_entity KEnum None (Some (CValues vs)) s2)
      end
    | None => None
    end
  end
with members_s (u : bool) (ms : mdecls) (l : list member) (s : sstate) {struct ms} : option (sstate * list member) :=
  match ms with
  | MNil => Some (s, l)
  | MCons q p ds r =>
    match spec_s p s with
    | Some (s', t) =>
      match qualified_s q t with
      | Some t' =>
        match (match ds with [] => anonymous_s (s_ents s') u p t' l | _ => declrs_s (s_ents s') u t' l ds end) with
        | Some l' => members_s u r l' s'
        | None => None
        end
      | None => None
      end
    | None => None
    end
  end.

(** ** Declarations *)

Fixpoint declarators_s (typedef : bool) (t : styp) (ds : list (list dmod)) (s : sstate) : option sstate :=
  match ds with
  | [] => Some s
  | d :: r =>
    match shape_s (s_ents s) t d with
    | Some t' => declarators_s typedef t r (SS (s_tags s) (s_consts s) (s_ents s) (s_names s ++ [(typedef, t')]))
    | None => None
    end
  end.
Definition event_s (e : event) (s : sstate) : option sstate :=
  match e with
  | EOpen => Some (SS ((fun _ => None) :: s_tags s) ((fun _ => None) :: s_consts s) (s_ents s) (s_names s))
  | EClose =>
    match s_tags s, s_consts s with
    | _ :: f :: t, _ :: g :: c => Some (SS (f :: t) (g :: c) (s_ents s) (s_names s))
    | _, _ => None
    end
  | EBare p =>
    match p with
    | SRef u x =>
      (* 6.7.2.3p7: declares the tag in the current scope *)
      match in_scope (s_tags s) x with
      | Some _ => option_map fst (spec_s p s)
      | None => Some (fst (new_entity (kind_of u) (Some x) None s))
      end
    (* 6.7p2: a tag or the members of an enumeration are declared *)
    | SDef _ (Some _) _ | SEnumDef _ _ => option_map fst (spec_s p s)
    | _ => None
    end
  | EDecl typedef q p d ds =>
    match spec_s p s with
    | Some (s', t) =>
      match qualified_s q t with
      | Some t' => declarators_s typedef t' (d :: ds) s'
      | None => None
      end
    | None => None
    end
  end.
Fixpoint run_s (es : list event) (s : sstate) : option sstate :=
  match es with [] => Some s | e :: r => match event_s e s with Some s' => run_s r s' | None => None end end.

(** ** Members of a type (6.5.2.3p1, 6.7.2.1p13) *)
Definition strip (t : styp) : styp := match t with YQual _ a => a | _ => t end.
Inductive has (E : list entity) : nat -> string -> styp -> Prop :=
| has_member : forall i ms fl fx m t w, content_of E i = Some (CMembers ms fl fx) -> In (Some m, t, w) ms -> has E i m t
| has_anonymous : forall i ms fl fx t' j m t,
    content_of E i = Some (CMembers ms fl fx) -> In (None, t', None) ms -> strip t' = YTag j -> has E j m t -> has E i m t.

(** The types reached by dereferencing and by naming members, up to their qualifiers *)
Inductive walk (E : list entity) : styp -> list step -> styp -> Prop :=
| walk_end : forall t, walk E t [] t
| walk_pointer : forall t a ps t', strip t = YPtr a -> walk E a ps t' -> walk E t (PDeref :: ps) t'
| walk_array : forall t n a ps t', strip t = YArr n a -> walk E a ps t' -> walk E t (PDeref :: ps) t'
| walk_member : forall t i m a ps t', strip t = YTag i -> has E i m a -> walk E a ps t' -> walk E t (PMember m :: ps) t'.

(** ** What a type of the compiler stands for *)

Definition plain (t : styp) : bool := match t with YQual _ _ | YArr _ _ | YFun _ => false | _ => true end.
(** Values of both signs need a signed type. *)
Definition underlying (vs : list (string * Z)) : basic :=
  match vs with [] => BSInt | _ => if forallb (fun p => 0 <=? snd p) vs then BUInt else BSInt end.

(** A structure or union that was not complete when it was referred to is known by its tag. *)
Fixpoint rep (E : list entity) (k : ty) (t : styp) {struct k} : Prop :=
  match k with
  | TBasic b => t = YBasic b
  | TPtr a => exists t', t = YPtr t' /\ rep E a t'
  | TArr b q a =>
    exists n t', t = YArr n t' /\ b = match n with Some z => Bounded z | None => Unbounded end /\ q = Q false false false /\ rep E a t'
  | TQual q a => exists t', t = YQual q t' /\ plain t' = true /\ rep E a t'
  | TFun r m ps el => exists t', t = YFun t' /\ m = ModeEmpty /\ ps = [] /\ el = false /\ rep E r t'
  | TEnum c x seen under =>
    exists i vs, t = YTag i /\ nth_error E i = Some (Ent KEnum x (Some (CValues vs))) /\ c = true /\
    map fst seen = map fst vs /\ under = underlying vs
  | TStruct c x fs | TUnion c x fs =>
    exists i e, t = YTag i /\ nth_error E i = Some e /\ e_kind e = kind_of (match k with TUnion _ _ _ => true | _ => false end) /\
    e_tag e = x /\
    (if c then
       exists ms fl fx, e_content e = Some (CMembers ms fl fx) /\
       (fix reps (fs : list field) (ms : list member) {struct fs} : Prop :=
          match fs, ms with
          | [], [] => True
          | Field n ft al w :: r, (n', t', w') :: r' => n = n' /\ al = 0 /\ w = w' /\ rep E ft t' /\ reps r r'
          | _, _ => False
          end) fs ms
     else x <> None /\ fs = [])
  end.
