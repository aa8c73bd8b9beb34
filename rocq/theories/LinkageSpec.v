(** * The standard's rules for ordinary identifiers: scopes, linkage, definitions (C17 6.2.1, 6.2.2, 6.2.4, 6.7, 6.9)

    The rules are stated over what has been declared so far, not over the tables of the analyzer: a name in a scope denotes
    an entity; there is one entity per name with linkage and unit (6.2.2p2), and one per declaration without linkage.
    Every declaration either is a constraint violation, or has no meaning that the standard defines, or has an effect. *)

From Coq Require Import List Bool Arith.
From Verif Require Import LinkageModel.
Import ListNotations.

Section Spec.
Variable L : lang.
Notation ty := (ty L).
Notation ini := (ini L).

Inductive entity := Linked (x : name) | Own (n : nat).

Inductive duration := Static | Thread | Automatic.

(** What is known of a name with linkage: a declaration, a tentative definition (6.9.2p2) or a definition. *)
Inductive status := Declared | Tentative | Defined (i : option ini).
Record linked := LinkedInfo {
  l_fun : bool;
  l_internal : bool;
  l_thread : bool;
  l_type : ty;
  l_status : status
}.
(** An entity without linkage. *)
Inductive own := OwnObject (t : ty) (d : duration) | OwnType (t : ty) | OwnConst.

(** [file]: the file scope; [scopes]: the open blocks, innermost first. *)
Definition bindings := name -> option entity.
Record sstate := SState { file : bindings; scopes : list bindings; known : name -> option linked; owns : list own }.
Definition no_bindings : bindings := fun _ => None.
Definition sinit : sstate := SState no_bindings [] (fun _ => None) [].

Definition at_file (s : sstate) : bool := match scopes s with [] => true | _ => false end.
Definition current (s : sstate) : bindings := match scopes s with [] => file s | b :: _ => b end.

(** 6.2.1p4: an inner declaration hides the outer ones. *)
Fixpoint visible_in (bs : list bindings) (f : bindings) (x : name) : option entity :=
  match bs with
  | [] => f x
  | b :: r => match b x with Some e => Some e | None => visible_in r f x end
  end.
Definition visible (s : sstate) (x : name) : option entity := visible_in (scopes s) (file s) x.

Definition bind_ (x : name) (e : entity) (f : bindings) : bindings := fun y => if Nat.eqb x y then Some e else f y.
Definition enter (x : name) (e : entity) (s : sstate) : sstate :=
  match scopes s with
  | [] => SState (bind_ x e (file s)) [] (known s) (owns s)
  | b :: r => SState (file s) (bind_ x e b :: r) (known s) (owns s)
  end.
Definition learn (x : name) (k : linked) (s : sstate) : sstate :=
  SState (file s) (scopes s) (fun y => if Nat.eqb x y then Some k else known s y) (owns s).
Definition create (o : own) (s : sstate) : sstate := SState (file s) (scopes s) (known s) (owns s ++ [o]).

(** *** Classification of a declaration *)

Definition has_init (d : decl L) : bool := match d_init L d with Some _ => true | None => false end.
Definition typedef (c : sclass) : bool := match c with ScTypedef => true | _ => false end.
Definition thread (c : sclass) : bool := match c with ScThread | ScExternThread | ScStaticThread => true | _ => false end.
Definition static (c : sclass) : bool := match c with ScStatic | ScStaticThread => true | _ => false end.
Definition extern (c : sclass) : bool := match c with ScExtern | ScExternThread => true | _ => false end.
Definition auto (c : sclass) : bool := match c with ScAuto | ScRegister => true | _ => false end.

(** 6.2.2p3-p6: which declarations have linkage; ... *)
Definition has_linkage (s : sstate) (d : decl L) : bool :=
  negb (typedef (d_class L d)) && (at_file s || extern (d_class L d) || is_fun L (d_type L d)).
(** ... and whether it is internal. extern, and no storage class for a function, continue the linkage that a visible
    declaration gives. *)
Definition internal (s : sstate) (d : decl L) : bool :=
  if static (d_class L d) then true
  else if extern (d_class L d) || is_fun L (d_type L d) then
    match visible s (d_name L d) with
    | Some (Linked x) => match known s x with Some k => l_internal k | None => false end
    | _ => false
    end
  else false.

(** 6.2.4p3-p5 *)
Definition storage_duration (c : sclass) : duration :=
  if thread c then Thread else if static c then Static else Automatic.

(** The type of an object after its initializer (6.7.9p22). *)
Definition final_type (d : decl L) : ty :=
  match d_init L d with
  | Some i => match completed L (d_type L d) i with Some t => t | None => d_type L d end
  | None => d_type L d
  end.

(** 6.9.2p1-p2, 6.9.1: what the declaration says about the definition of the entity; [body]: it is a function
    definition. *)
Definition defines (body : bool) (s : sstate) (d : decl L) : status :=
  if body then Defined None
  else match d_init L d with
       | Some i => Defined (Some i)
       | None => if is_fun L (d_type L d) || extern (d_class L d) then Declared else Tentative
       end.
Definition is_definition (st : status) : bool := match st with Defined _ => true | _ => false end.
Definition merge (old new : status) : status :=
  match old, new with
  | Defined i, _ => Defined i
  | _, Defined i => Defined i
  | Tentative, _ | _, Tentative => Tentative
  | Declared, Declared => Declared
  end.

(** *** Constraints *)

(** 6.7p3: a name without linkage is declared once in a scope, except that a type name may be declared again for the same
    type, if that is not variably modified. *)
Definition redeclared_alone (s : sstate) (d : decl L) : bool :=
  match current s (d_name L d) with
  | None => false
  | Some (Own n) =>
      match nth_error (owns s) n with
      | Some (OwnType t) => negb (typedef (d_class L d) && same L t (d_type L d) && negb (vm L (d_type L d)))
      | _ => true
      end
  | Some (Linked _) => true
  end.

(** 6.7p3, p4: a name with linkage has no other meaning in the scope, and its declarations agree. *)
Definition conflicts (s : sstate) (d : decl L) : bool :=
  match current s (d_name L d) with
  | None => false
  | Some (Own _) => true
  | Some (Linked x) =>
      match known s x with
      | Some k => negb (Bool.eqb (l_fun k) (is_fun L (d_type L d))) || negb (compat L (l_type k) (d_type L d))
      | None => false
      end
  end.

Definition violation (body : bool) (s : sstate) (d : decl L) : bool :=
  let t := d_type L d in let c := d_class L d in
  (* 6.7.4p2 *)
  d_inline L d && (negb (is_fun L t) || typedef c)
  (* 6.9p2 *)
  || at_file s && auto c
  (* 6.7.1p4 *)
  || is_fun L t && thread c
  (* 6.7.1p3 *)
  || negb (at_file s) && negb (is_fun L t) && match c with ScThread => true | _ => false end
  || has_linkage s d && negb (is_fun L t)
     && match known s (d_name L d) with
        | Some k => negb (l_fun k) && negb (Bool.eqb (l_thread k) (thread c))
        | None => false
        end
  (* 6.7.8p2, 6.7.6.2p2 *)
  || vm L t && (at_file s || has_linkage s d)
  || vla L t && static c
  (* 6.7.9p3 *)
  || negb (typedef c) && match d_init L d with
                         | Some i => is_fun L t || vla L t || match completed L t i with None => true | _ => false end
                         | None => false
                         end
  (* 6.7.9p4 *)
  || negb (typedef c) && (at_file s || static c) && match d_init L d with Some i => negb (constant L i) | None => false end
  (* 6.7.9p5 *)
  || negb (at_file s) && has_linkage s d && has_init d
  (* 6.7p3, p4 *)
  || (if has_linkage s d then conflicts s d else redeclared_alone s d)
  (* 6.9p3 *)
  || has_linkage s d && is_definition (defines body s d)
     && match known s (d_name L d) with Some k => l_internal k && is_definition (l_status k) | None => false end
  (* 6.9.1p2, p4 *)
  || body && (negb (is_fun L t) || typedef c || auto c || thread c).

(** *** Undefined behaviour *)

Definition undefined (body : bool) (s : sstate) (d : decl L) : bool :=
  let t := d_type L d in let c := d_class L d in
  (* no meaning is given to the initializer of a type name, nor to a function definition with initializer *)
  (typedef c || body) && has_init d
  || has_linkage s d
     && match known s (d_name L d) with
        | Some k =>
            (* 6.2.2p7 *)
            negb (Bool.eqb (l_internal k) (internal s d))
            (* 6.2.7p2 *)
            || negb (Bool.eqb (l_fun k) (is_fun L t)) || negb (compat L (l_type k) t)
            (* 6.9p5 *)
            || is_definition (defines body s d) && is_definition (l_status k)
        | None => false
        end
  (* 6.9.2p3 *)
  || has_linkage s d && static c && negb (is_fun L t) && negb (has_init d) && incomplete L t
  (* 6.7p7 *)
  || negb (has_linkage s d) && negb (typedef c) && incomplete L (final_type d)
  (* 6.7.1p7 *)
  || negb (at_file s) && is_fun L t && (static c || auto c).

(** *** Effect *)

(** 6.2.7p4: the type becomes the composite type. *)
Definition declare (body : bool) (s : sstate) (d : decl L) : sstate :=
  let x := d_name L d in
  if has_linkage s d then
    let k := match known s x with
             | Some k => LinkedInfo (l_fun k) (l_internal k) (l_thread k)
                           (joint L (l_type k) (final_type d)) (merge (l_status k) (defines body s d))
             | None => LinkedInfo (is_fun L (d_type L d)) (internal s d) (thread (d_class L d)) (final_type d)
                         (defines body s d)
             end in
    enter x (Linked x) (learn x k s)
  else if typedef (d_class L d) then
    match current s x with
    | Some _ => s
    | None => enter x (Own (length (owns s))) (create (OwnType (d_type L d)) s)
    end
  else enter x (Own (length (owns s))) (create (OwnObject (final_type d) (storage_duration (d_class L d))) s).

(** What a use of a name tells: kind, type, linkage and storage duration of the entity at that point. *)
Inductive info := IObject (t : ty) (d : duration) (l : linkage) | IFunction (t : ty) (l : linkage) | IConstant | IType (t : ty).
Definition linkage_of (k : linked) : linkage := if l_internal k then LInternal else LExternal.
Definition describe (s : sstate) (e : entity) : option info :=
  match e with
  | Linked x =>
      match known s x with
      | Some k =>
          Some (if l_fun k then IFunction (l_type k) (linkage_of k)
                else IObject (l_type k) (if l_thread k then Thread else Static) (linkage_of k))
      | None => None
      end
  | Own n =>
      match nth_error (owns s) n with
      | Some (OwnObject t d) => Some (IObject t d LNone)
      | Some (OwnType t) => Some (IType t)
      | Some OwnConst => Some IConstant
      | None => None
      end
  end.

(** A function definition is a declaration in the file scope, in the middle of its own parameters and body. *)
Definition outside (s : sstate) : sstate := SState (file s) [] (known s) (owns s).
Definition back_in (bs : list bindings) (s : sstate) : sstate := SState (file s) bs (known s) (owns s).

Inductive outcome (A : Type) := Valid (a : A) | Violates | Undefined.
Arguments Valid {A}. Arguments Violates {A}. Arguments Undefined {A}.

Definition judge (body : bool) (s : sstate) (d : decl L) : outcome sstate :=
  if violation body s d then Violates
  else if undefined body s d then Undefined
  else Valid (declare body s d).

Definition sstep (e : event L) (s : sstate) : outcome (sstate * list (entity * info)) :=
  match e with
  | EDecl _ d =>
      match judge false s d with Valid s' => Valid (s', []) | Violates => Violates | Undefined => Undefined end
  | EConst _ x =>
      match current s x with
      | Some _ => Violates                                                (* 6.7p3 *)
      | None => Valid (enter x (Own (length (owns s))) (create OwnConst s), [])
      end
  | EDef _ d =>
      match scopes s with
      | [b] =>
          match judge true (outside s) d with
          | Valid s' => Valid (back_in [b] s', [])
          | Violates => Violates
          | Undefined => Undefined
          end
      | _ => Undefined
      end
  | EOpen _ => Valid (SState (file s) (no_bindings :: scopes s) (known s) (owns s), [])
  | EClose _ =>
      match scopes s with
      | [] => Undefined
      | _ :: r => Valid (SState (file s) r (known s) (owns s), [])
      end
  | EUse _ x =>
      match visible s x with
      | Some e => match describe s e with Some i => Valid (s, [(e, i)]) | None => Undefined end
      | None => Violates                                                  (* 6.5.1p2 *)
      end
  end.

Fixpoint sruns (es : list (event L)) (s : sstate) : outcome (sstate * list (entity * info)) :=
  match es with
  | [] => Valid (s, [])
  | e :: r =>
      match sstep e s with
      | Valid (s', o) =>
          match sruns r s' with
          | Valid (s'', o') => Valid (s'', o ++ o')
          | Violates => Violates
          | Undefined => Undefined
          end
      | Violates => Violates
      | Undefined => Undefined
      end
  end.

(** *** Coverage *)

(** The declarations for which the analyzer is right. Left out are: functions that are inline but not static (6.7.4p7);
    _Thread_local extern in a block; extern with an initializer for a name that is already internal; type names declared
    again for a type that is compatible but not the same; initialized objects in a block whose type is variably modified
    but no array; static objects in a block whose type is variably modified and neither an array nor a pointer; and declarations with a type from which the analyzer does not form the
    composite type, or forms it but loses it for the type of the initializer. The types are kept per entity: that is right
    as long as a declaration in a block adds nothing to the type, and a declaration that sees no earlier one has all of it
    (the last two conditions). *)
Record covers (s : sstate) (d : decl L) : Prop := Covers {
  cv_inline : d_inline L d = true -> static (d_class L d) = true;
  cv_thread : at_file s = false -> d_class L d <> ScExternThread;
  cv_extern : at_file s = true -> extern (d_class L d) = true -> has_init d = true -> internal s d = false;
  cv_typedef : forall n t, typedef (d_class L d) = true -> current s (d_name L d) = Some (Own n) ->
    nth_error (owns s) n = Some (OwnType t) -> compat L t (d_type L d) = same L t (d_type L d);
  cv_init : at_file s = false -> has_init d = true -> vm L (d_type L d) = true -> vla L (d_type L d) = true;
  cv_static : at_file s = false -> static (d_class L d) = true -> vm L (d_type L d) = true ->
    vla L (d_type L d) = true \/ is_ptr L (d_type L d) = true;
  cv_composite : forall k, has_linkage s d = true -> known s (d_name L d) = Some k ->
    composite L (l_type k) (d_type L d) = Some (joint L (l_type k) (d_type L d))
    /\ (has_init d = true -> joint L (l_type k) (final_type d) = final_type d)
    /\ (at_file s = false -> joint L (l_type k) (d_type L d) = l_type k)
    /\ (visible s (d_name L d) <> Some (Linked (d_name L d)) -> joint L (l_type k) (d_type L d) = d_type L d)
}.
Definition covers_event (s : sstate) (e : event L) : Prop :=
  match e with
  | EDecl _ d => covers s d
  | EDef _ d => covers (outside s) d
  | _ => True
  end.
Fixpoint covered (s : sstate) (es : list (event L)) : Prop :=
  match es with
  | [] => True
  | e :: r => covers_event s e /\ match sstep e s with Valid (s', _) => covered s' r | _ => True end
  end.

(** The declarations whose violations are found. Left out are again _Thread_local extern in a block and type names declared
    again for a compatible type; type names declared again in a block for a variably modified type; and initializers of
    static objects in a block, which the analyzer does not ask to be constant. *)
Record detects (s : sstate) (d : decl L) : Prop := Detects {
  dt_thread : at_file s = false -> d_class L d <> ScExternThread;
  dt_typedef : forall n t, typedef (d_class L d) = true -> current s (d_name L d) = Some (Own n) ->
    nth_error (owns s) n = Some (OwnType t) -> compat L t (d_type L d) = same L t (d_type L d);
  dt_vm : forall n t, at_file s = false -> typedef (d_class L d) = true -> current s (d_name L d) = Some (Own n) ->
    nth_error (owns s) n = Some (OwnType t) -> vm L (d_type L d) = false;
  dt_const : forall i, at_file s = false -> static (d_class L d) = true -> d_init L d = Some i -> constant L i = true
}.
Definition detects_event (s : sstate) (e : event L) : Prop :=
  match e with
  | EDecl _ d => detects s d
  | EDef _ d => detects (outside s) d
  | _ => True
  end.

(** The symbols of the unit: external names without definition are imported, with one exported (6.9p5), internal names
    stay inside; a tentative definition is one with initial value zero (6.9.2p2). An inline definition would not provide
    an external definition (6.7.4p7): see [covers]. *)
Definition due (s : sstate) (x : name) : list (symbol L) :=
  match known s x with
  | None => []
  | Some k =>
      let i := match l_status k with Defined i => i | _ => None end in
      let v := if l_internal k then Local else match l_status k with Declared => Import | _ => Export end in
      [Symbol L v (l_fun k) (l_thread k) i]
  end.

End Spec.
Arguments Valid {A}. Arguments Violates {A}. Arguments Undefined {A}.
