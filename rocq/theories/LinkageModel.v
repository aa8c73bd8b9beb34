(** * Identifiers of the analyzer: what a declaration adds to the scopes, and which object or function a name denotes

    Modelled code (/repo):
    - source/ast/global_context.c: context_define_identifier (108-231), insert_ordinary_identifier (395-405),
      require_ordinary_identifier_type (407-421), kefir_ast_global_context_declare_external (423-472),
      .._declare_external_thread_local (474-521), .._define_external (523-592), .._define_external_thread_local (594-659),
      .._define_static (661-735), .._define_static_thread_local (737-810), .._define_constant (812-845),
      .._define_type (884-928), .._declare_function (930-979), .._define_function (981-1034),
      .._define_static_function (1036-1092), .._resolve_scoped_ordinary_identifier
    - source/ast/local_context.c: context_define_identifier (158-271), .._resolve_scoped_ordinary_identifier (416-433),
      push/pop_block_scope (453-471), require_global_ordinary_object (473-498), .._declare_external (500-556),
      .._define_static (614-683), .._define_static_thread_local (685-755), .._define_auto (790-856),
      .._define_register (858-924), .._define_constant (926-956), .._define_type (996-1032),
      require_global_ordinary_function (1034-1049), .._declare_function (1051-1105)
    - source/ast/scope.c: flat scopes (maps) and block scopes (stacks of flat scopes)
    - source/ast/analyzer/nodes/init_declarator.c 29-105 (the call of define_identifier: [declaration] is "no initializer"),
      function_definition.c 160-260 (a function definition: local context, parameters, then the function itself),
      identifier.c 29-110 (a use of a name)
    - source/ast-translator/scope/global_scope_layout.c 220-320 and translator.c 59-98, 129-200 (the symbols that are
      emitted for the identifiers with linkage)

    Simplifications. Types and initializers are abstract: a [lang] supplies what the code asks about them. Alignments and
    the specifier _Noreturn are left out. type_identifiers and constant_identifiers, which hold exactly the type names and
    constants of the file scope, are not kept apart from ordinary_scope. When the composite type is a null pointer, the
    code stores it and fails at a later use; here the failure ([Broken]) comes at once. Tags and labels have name spaces of
    their own and are left out, and so are the extensions. *)

From Coq Require Import List Bool Arith.
Import ListNotations.

Definition name := nat.

(** What the code asks about types and initializers. [composite] and [completed] may fail; [completed t i] is the type of
    an object declared with [t] and initialized with [i], qualifiers put back. [same] and [joint] are used by the
    specification only. *)
Record lang := Lang {
  ty : Type;
  ini : Type;
  is_fun : ty -> bool;        (* a function type *)
  is_ptr : ty -> bool;        (* a pointer type *)
  vm : ty -> bool;            (* kefir_ast_type_is_variably_modified *)
  vla : ty -> bool;           (* a variable length array *)
  incomplete : ty -> bool;    (* KEFIR_AST_TYPE_IS_INCOMPLETE *)
  compat : ty -> ty -> bool;  (* KEFIR_AST_TYPE_COMPATIBLE *)
  composite : ty -> ty -> option ty;  (* KEFIR_AST_TYPE_COMPOSITE, None: null pointer *)
  completed : ty -> ini -> option ty; (* kefir_ast_analyze_initializer *)
  constant : ini -> bool;     (* props.constant *)
  same : ty -> ty -> bool;
  joint : ty -> ty -> ty
}.

(** The storage classes that the specifiers of a declaration give (headers/kefir/ast/scope.h 28-38). *)
Inductive sclass := ScNone | ScTypedef | ScExtern | ScStatic | ScThread | ScExternThread | ScStaticThread | ScAuto | ScRegister.
(** The storage of a scoped identifier (the same enumeration; only these values are stored). *)
Inductive storage := StExtern | StStatic | StExternThread | StStaticThread | StAuto | StRegister.
Inductive linkage := LExternal | LInternal | LNone.

Definition storage_eqb (a b : storage) : bool :=
  match a, b with
  | StExtern, StExtern | StStatic, StStatic | StExternThread, StExternThread | StStaticThread, StStaticThread
  | StAuto, StAuto | StRegister, StRegister => true
  | _, _ => false
  end.

Inductive res (A : Type) := Ok (a : A) | Refused | Broken.
Arguments Ok {A}. Arguments Refused {A}. Arguments Broken {A}.
Definition bind {A B} (r : res A) (f : A -> res B) : res B :=
  match r with Ok a => f a | Refused => Refused | Broken => Broken end.
Definition req {A} (b : bool) (r : res A) : res A := if b then r else Refused.

Section Linkage.
Variable L : lang.

(** A declarator with the specifiers of its declaration; a translation unit as the sequence of what declares or uses
    ordinary identifiers. A function definition is [EOpen], the declarations of its parameters, [EDef], its body and
    [EClose]; the uses in an initializer come after the declaration that it belongs to (6.2.1p7; the code inserts the
    identifier before it analyzes the initializer). *)
Record decl := Decl { d_name : name; d_type : ty L; d_class : sclass; d_inline : bool; d_init : option (ini L) }.
Inductive event :=
| EDecl (d : decl)
| EConst (x : name)
| EDef (d : decl)
| EOpen
| EClose
| EUse (x : name).

(** struct kefir_ast_scoped_identifier (headers/kefir/ast/scope.h 45-110). *)
Inductive sid :=
| SObj (t : ty L) (st : storage) (lk : linkage) (external : bool) (i : option (ini L))
| SFun (t : ty L) (st : storage) (inl external defined : bool)
| SConst
| STypedef (t : ty L).

Inductive klass := KObj | KFun | KConst | KType.
Definition klass_of (v : sid) : klass :=
  match v with SObj _ _ _ _ _ => KObj | SFun _ _ _ _ _ => KFun | SConst => KConst | STypedef _ => KType end.
Definition klass_eqb (a b : klass) : bool :=
  match a, b with KObj, KObj | KFun, KFun | KConst, KConst | KType, KType => true | _, _ => false end.

(** The scopes hold pointers to the scoped identifiers, here indices into [heap]. [objs], [funs] and [ord] are
    object_identifiers, function_identifiers and ordinary_scope of the global context; [blocks] is ordinary_scope of the
    local context, innermost first, and empty outside functions. *)
Definition scope := name -> option nat.
Record cstate := CState { heap : list sid; objs : scope; funs : scope; ord : scope; blocks : list scope }.
Definition empty_scope : scope := fun _ => None.
Definition cinit : cstate := CState [] empty_scope empty_scope empty_scope [].

Definition put (x : name) (a : nat) (f : scope) : scope := fun y => if Nat.eqb x y then Some a else f y.
Fixpoint set_nth {A} (n : nat) (v : A) (l : list A) : list A :=
  match l, n with [], _ => [] | _ :: r, O => v :: r | h :: r, S n => h :: set_nth n v r end.

Definition update (a : nat) (v : sid) (c : cstate) : cstate :=
  CState (set_nth a v (heap c)) (objs c) (funs c) (ord c) (blocks c).
Definition alloc (v : sid) (c : cstate) : cstate := CState (heap c ++ [v]) (objs c) (funs c) (ord c) (blocks c).
Definition add_obj (x : name) (a : nat) (c : cstate) : cstate :=
  CState (heap c) (put x a (objs c)) (funs c) (ord c) (blocks c).
Definition add_fun (x : name) (a : nat) (c : cstate) : cstate :=
  CState (heap c) (objs c) (put x a (funs c)) (ord c) (blocks c).
(** insert_ordinary_identifier (global_context.c 395-405): only if the name is not there yet. *)
Definition add_ord (x : name) (a : nat) (c : cstate) : cstate :=
  match ord c x with
  | Some _ => c
  | None => CState (heap c) (objs c) (funs c) (put x a (ord c)) (blocks c)
  end.
(** kefir_ast_identifier_block_scope_insert (scope.c): into the innermost scope. *)
Definition add_block (x : name) (a : nat) (c : cstate) : cstate :=
  match blocks c with
  | [] => c
  | b :: r => CState (heap c) (objs c) (funs c) (ord c) (put x a b :: r)
  end.
Definition top (c : cstate) (x : name) : option nat := match blocks c with [] => None | b :: _ => b x end.
Definition fresh (c : cstate) : nat := length (heap c).

(** require_ordinary_identifier_type (global_context.c 407-421). *)
Definition klass_ok (c : cstate) (x : name) (k : klass) : bool :=
  match ord c x with
  | None => true
  | Some a => match nth_error (heap c) a with Some v => klass_eqb (klass_of v) k | None => false end
  end.

Definition ext_storage (thr : bool) : storage := if thr then StExternThread else StExtern.
Definition stat_storage (thr : bool) : storage := if thr then StStaticThread else StStatic.
Definition linked_storage (thr : bool) (st : storage) : bool :=
  storage_eqb st (ext_storage thr) || storage_eqb st (stat_storage thr).
Definition is_none {A} (o : option A) : bool := match o with None => true | Some _ => false end.

Definition with_composite {A} (t0 t : ty L) (f : ty L -> res A) : res A :=
  match composite L t0 t with Some t1 => f t1 | None => Broken end.

(** *** The global context *)

(** declare_external and declare_external_thread_local (global_context.c 423-521). *)
Definition g_declare_external (thr : bool) (x : name) (t : ty L) (c : cstate) : res cstate :=
  req (negb (vm L t)) (req (klass_ok c x KObj)
  match objs c x with
  | Some a =>
      match nth_error (heap c) a with
      | Some (SObj t0 st lk ext i) =>
          req (linked_storage thr st) (req (compat L t0 t)
            (with_composite t0 t (fun t1 => Ok (add_ord x a (update a (SObj t1 st lk ext i) c)))))
      | _ => Broken
      end
  | None =>
      let a := fresh c in
      Ok (add_ord x a (add_obj x a (alloc (SObj t (ext_storage thr) LExternal true None) c)))
  end).

(** The end of the define functions: the initializer is analyzed against the declared type, and its type replaces the type
    of the identifier (global_context.c 571-590 and the same lines in the other three). *)
Definition g_initialize (a : nat) (t : ty L) (i : option (ini L)) (c : cstate) : res cstate :=
  match i with
  | None => Ok c
  | Some i =>
      match completed L t i with
      | None => Refused
      | Some t' =>
          req (constant L i)
          match nth_error (heap c) a with
          | Some (SObj _ st lk ext _) => Ok (update a (SObj t' st lk ext (Some i)) c)
          | _ => Broken
          end
      end
  end.

(** define_external and define_external_thread_local (global_context.c 523-659). *)
Definition g_define_external (thr : bool) (x : name) (t : ty L) (i : option (ini L)) (c : cstate) : res cstate :=
  req (negb (vm L t)) (req (klass_ok c x KObj)
  match objs c x with
  | Some a =>
      match nth_error (heap c) a with
      | Some (SObj t0 st lk _ i0) =>
          req (storage_eqb st (ext_storage thr)) (req (compat L t0 t) (req (is_none i || is_none i0)
            (with_composite t0 t (fun t1 =>
               g_initialize a t i (add_ord x a (update a (SObj t1 st lk false i0) c))))))
      | _ => Broken
      end
  | None =>
      let a := fresh c in
      g_initialize a t i (add_ord x a (add_obj x a (alloc (SObj t (ext_storage thr) LExternal false i) c)))
  end).

(** define_static and define_static_thread_local (global_context.c 661-810). *)
Definition g_define_static (thr : bool) (x : name) (t : ty L) (i : option (ini L)) (c : cstate) : res cstate :=
  req (negb (vm L t)) (req (klass_ok c x KObj)
  match objs c x with
  | Some a =>
      match nth_error (heap c) a with
      | Some (SObj t0 st lk ext i0) =>
          req (storage_eqb st (stat_storage thr)) (req (compat L t0 t) (req (negb ext) (req (is_none i || is_none i0)
            (with_composite t0 t (fun t1 =>
               g_initialize a t i (add_ord x a (update a (SObj t1 st lk ext i0) c)))))))
      | _ => Broken
      end
  | None =>
      req (negb (is_none i) || negb (incomplete L t))
      (let a := fresh c in
       g_initialize a t i (add_ord x a (add_obj x a (alloc (SObj t (stat_storage thr) LInternal false i) c))))
  end).

(** define_constant (global_context.c 812-845). *)
Definition g_define_constant (x : name) (c : cstate) : res cstate :=
  req (is_none (ord c x)) (Ok (add_ord x (fresh c) (alloc SConst c))).

(** define_type (global_context.c 884-928). *)
Definition g_define_type (x : name) (t : ty L) (c : cstate) : res cstate :=
  req (negb (vm L t)) (req (klass_ok c x KType)
  match ord c x with
  | Some a =>
      match nth_error (heap c) a with
      | Some (STypedef t0) =>
          req (compat L t0 t) (Ok (if incomplete L t0 && negb (incomplete L t) then update a (STypedef t) c else c))
      | _ => Broken
      end
  | None => Ok (add_ord x (fresh c) (alloc (STypedef t) c))
  end).

(** declare_function (global_context.c 930-979). *)
Definition g_declare_function (inl : bool) (x : name) (t : ty L) (c : cstate) : res cstate :=
  req (negb (vm L t)) (req (klass_ok c x KFun)
  match funs c x with
  | Some a =>
      match nth_error (heap c) a with
      | Some (SFun t0 st inl0 ext def) =>
          req (linked_storage false st) (req (compat L t0 t)
            (with_composite t0 t (fun t1 => Ok (add_ord x a (update a (SFun t1 st (inl0 || inl) ext def) c)))))
      | _ => Broken
      end
  | None =>
      let a := fresh c in
      Ok (add_ord x a (add_fun x a (alloc (SFun t StExtern inl true false) c)))
  end).

(** define_function (global_context.c 981-1034). *)
Definition g_define_function (inl : bool) (x : name) (t : ty L) (c : cstate) : res cstate :=
  req (negb (vm L t)) (req (klass_ok c x KFun)
  match funs c x with
  | Some a =>
      match nth_error (heap c) a with
      | Some (SFun t0 st inl0 ext def) =>
          req (linked_storage false st) (req (compat L t0 t) (req (negb def)
            (with_composite t0 t (fun t1 => Ok (add_ord x a (update a (SFun t1 st (inl0 || inl) false true) c))))))
      | _ => Broken
      end
  | None =>
      let a := fresh c in
      Ok (add_ord x a (add_fun x a (alloc (SFun t StExtern inl false true) c)))
  end).

(** define_static_function (global_context.c 1036-1092). *)
Definition g_define_static_function (inl : bool) (x : name) (declaration : bool) (t : ty L) (c : cstate) : res cstate :=
  req (negb (vm L t)) (req (klass_ok c x KFun)
  match funs c x with
  | Some a =>
      match nth_error (heap c) a with
      | Some (SFun t0 st inl0 ext def) =>
          req (storage_eqb st StStatic) (req (compat L t0 t) (req (negb ext) (req (negb def || declaration)
            (with_composite t0 t (fun t1 =>
               Ok (add_ord x a (update a (SFun t1 st (inl0 || inl) ext (def || negb declaration)) c)))))))
      | _ => Broken
      end
  | None =>
      let a := fresh c in
      Ok (add_ord x a (add_fun x a (alloc (SFun t StStatic inl false (negb declaration)) c)))
  end).

(** context_define_identifier of the global context (global_context.c 108-231). *)
Definition g_define_identifier (declaration : bool) (d : decl) (c : cstate) : res cstate :=
  let x := d_name d in let t := d_type d in let i := d_init d in
  if is_fun L t then
    req (is_none i)
    match d_class d with
    | ScTypedef => req (negb (d_inline d)) (req declaration (g_define_type x t c))
    | ScNone | ScExtern =>
        if declaration then g_declare_function (d_inline d) x t c else g_define_function (d_inline d) x t c
    | ScStatic => g_define_static_function (d_inline d) x declaration t c
    | ScThread | ScExternThread | ScStaticThread | ScAuto | ScRegister => Refused
    end
  else
    req (negb (d_inline d)) (req (declaration || negb (is_none i))
    match d_class d with
    | ScTypedef => g_define_type x t c
    | ScExtern => if declaration then g_declare_external false x t c else g_define_external false x t i c
    | ScStatic => g_define_static false x t i c
    | ScThread => g_define_external true x t i c
    | ScExternThread => if declaration then g_declare_external true x t c else g_define_external true x t i c
    | ScStaticThread => g_define_static true x t i c
    | ScNone => g_define_external false x t i c
    | ScAuto | ScRegister => Refused
    end).

(** *** The local context *)

(** require_global_ordinary_object and declare_external (local_context.c 473-556). declare_external_thread_local
    (558-612) is never called: see [l_define_identifier]. *)
Definition l_declare_external (x : name) (t : ty L) (c : cstate) : res cstate :=
  req (negb (vm L t))
  match objs c x with
  | Some a =>
      match nth_error (heap c) a with
      | Some (SObj t0 st lk ext i) =>
          req (linked_storage false st) (req (compat L t0 t)
          match top c x with
          | Some b =>
              req (Nat.eqb b a) (with_composite t0 t (fun t1 => Ok (update a (SObj t1 st lk ext i) c)))
          | None => with_composite t0 t (fun t1 => Ok (update a (SObj t1 st lk ext i) (add_block x a c)))
          end)
      | _ => Broken
      end
  | None =>
      match top c x with
      | Some _ => Refused
      | None =>
          let a := fresh c in
          Ok (add_block x a (add_obj x a (alloc (SObj t StExtern LExternal true None) c)))
      end
  end.

(** The common part of define_static, define_static_thread_local, define_auto and define_register (local_context.c
    630-683, 702-755, 802-856, 870-924): the identifier is entered with the declared type, which the initializer may
    complete. That the initializer of a static object is constant is not asked here. *)
Definition l_define_object (st : storage) (x : name) (t : ty L) (i : option (ini L)) (c : cstate) : res cstate :=
  req (negb (vm L t) || is_none i) (req (negb (is_none i) || negb (incomplete L t))
  match top c x with
  | Some _ => Refused
  | None =>
      let a := fresh c in
      match i with
      | None => Ok (add_block x a (alloc (SObj t st LNone false None) c))
      | Some i0 =>
          match completed L t i0 with
          | None => Refused
          | Some t' => req (negb (incomplete L t')) (Ok (add_block x a (alloc (SObj t' st LNone false i) c)))
          end
      end
  end).

(** define_static, define_static_thread_local (local_context.c 614-629, 685-701). *)
Definition l_define_static (thr : bool) (x : name) (t : ty L) (i : option (ini L)) (c : cstate) : res cstate :=
  req (negb (vm L t) || is_ptr L t) (l_define_object (stat_storage thr) x t i c).

(** define_constant (local_context.c 926-956). *)
Definition l_define_constant (x : name) (c : cstate) : res cstate :=
  req (is_none (top c x)) (Ok (add_block x (fresh c) (alloc SConst c))).

(** define_type (local_context.c 996-1032). *)
Definition l_define_type (x : name) (t : ty L) (c : cstate) : res cstate :=
  match top c x with
  | Some a =>
      match nth_error (heap c) a with
      | Some (STypedef t0) =>
          req (compat L t0 t) (Ok (if incomplete L t0 && negb (incomplete L t) then update a (STypedef t) c else c))
      | Some _ => Refused
      | None => Broken
      end
  | None => Ok (add_block x (fresh c) (alloc (STypedef t) c))
  end.

(** require_global_ordinary_function and declare_function (local_context.c 1034-1105). *)
Definition l_declare_function (inl : bool) (x : name) (t : ty L) (c : cstate) : res cstate :=
  req (negb (vm L t))
  match funs c x with
  | Some a =>
      match nth_error (heap c) a with
      | Some (SFun t0 st inl0 ext def) =>
          req (compat L t0 t)
          match top c x with
          | Some b =>
              req (Nat.eqb b a) (with_composite t0 t (fun t1 => Ok (update a (SFun t1 st (inl0 || inl) ext def) c)))
          | None => with_composite t0 t (fun t1 => Ok (update a (SFun t1 st (inl0 || inl) ext def) (add_block x a c)))
          end
      | _ => Broken
      end
  | None =>
      match top c x with
      | Some _ => Refused
      | None =>
          let a := fresh c in
          Ok (add_block x a (add_fun x a (alloc (SFun t StExtern inl true false) c)))
      end
  end.

(** context_define_identifier of the local context (local_context.c 158-271). extern _Thread_local is handed to
    declare_external, like extern. *)
Definition l_define_identifier (declaration : bool) (d : decl) (c : cstate) : res cstate :=
  let x := d_name d in let t := d_type d in let i := d_init d in
  if is_fun L t then
    req (is_none i)
    match d_class d with
    | ScTypedef => req (negb (d_inline d)) (req declaration (l_define_type x t c))
    | ScNone | ScExtern => req declaration (l_declare_function (d_inline d) x t c)
    | _ => Refused
    end
  else
    req (negb (d_inline d)) (req (declaration || negb (is_none i))
    match d_class d with
    | ScTypedef => l_define_type x t c
    | ScExtern => req declaration (l_declare_external x t c)
    | ScStatic => l_define_static false x t i c
    | ScExternThread => req declaration (l_declare_external x t c)
    | ScStaticThread => l_define_static true x t i c
    | ScAuto | ScNone => l_define_object StAuto x t i c
    | ScRegister => l_define_object StRegister x t i c
    | ScThread => Refused
    end).

(** *** Uses, and the whole unit *)

(** resolve_scoped_ordinary_identifier (local_context.c 416-433): the block scopes from the innermost, then the file
    scope. *)
Fixpoint resolve_blocks (bs : list scope) (x : name) : option nat :=
  match bs with
  | [] => None
  | b :: r => match b x with Some a => Some a | None => resolve_blocks r x end
  end.
Definition resolve (c : cstate) (x : name) : option nat :=
  match resolve_blocks (blocks c) x with Some a => Some a | None => ord c x end.

(** One step; a use yields the scoped identifier and what it holds at that point. *)
Definition step (e : event) (c : cstate) : res (cstate * list (nat * sid)) :=
  let decl_ r := bind r (fun c' => Ok (c', [])) in
  match e with
  | EDecl d =>
      decl_ (match blocks c with
             | [] => g_define_identifier (is_none (d_init d)) d c
             | _ :: _ => l_define_identifier (is_none (d_init d)) d c
             end)
  | EConst x =>
      decl_ (match blocks c with [] => g_define_constant x c | _ :: _ => l_define_constant x c end)
  | EDef d =>
      (* function_definition.c 210-245: the definition goes to the global context, whatever is in the local one *)
      decl_ (req (is_fun L (d_type d) && is_none (d_init d))
             match d_class d with
             | ScNone | ScExtern | ScStatic => g_define_identifier false d c
             | _ => Refused
             end)
  | EOpen => Ok (CState (heap c) (objs c) (funs c) (ord c) (empty_scope :: blocks c), [])
  | EClose =>
      match blocks c with
      | [] => Refused
      | _ :: r => Ok (CState (heap c) (objs c) (funs c) (ord c) r, [])
      end
  | EUse x =>
      match resolve c x with
      | None => Refused
      | Some a => match nth_error (heap c) a with Some v => Ok (c, [(a, v)]) | None => Broken end
      end
  end.

Fixpoint run (es : list event) (c : cstate) : res (cstate * list (nat * sid)) :=
  match es with
  | [] => Ok (c, [])
  | e :: r => bind (step e c) (fun p => bind (run r (fst p)) (fun q => Ok (fst q, snd p ++ snd q)))
  end.

(** *** The symbols of the unit *)

(** A symbol that is imported, one that is defined and exported, one that is only known in the unit; whether it is a
    function, whether it is thread-local, and its initial value (none: zero). *)
Inductive visibility := Import | Export | Local.
Record symbol := Symbol { s_vis : visibility; s_fun : bool; s_thread : bool; s_init : option (ini L) }.

Definition thread_storage (st : storage) : bool :=
  match st with StExternThread | StStaticThread => true | _ => false end.

(** global_scope_layout.c 220-320 and translator.c 59-98, 129-200. *)
Definition obj_symbol (v : sid) : list symbol :=
  match v with
  | SObj _ st _ ext i =>
      match st with
      | StExtern | StExternThread =>
          if ext then [Symbol Import false (thread_storage st) None] else [Symbol Export false (thread_storage st) i]
      | StStatic | StStaticThread => [Symbol Local false (thread_storage st) i]
      | StAuto | StRegister => []
      end
  | _ => []
  end.
Definition fun_symbol (v : sid) : list symbol :=
  match v with
  | SFun _ st _ ext _ =>
      match st with
      | StExtern => if ext then [Symbol Import true false None] else [Symbol Export true false None]
      | StStatic => [Symbol Local true false None]
      | _ => []
      end
  | _ => []
  end.
Definition at_ {A} (c : cstate) (f : sid -> list A) (o : option nat) : list A :=
  match o with
  | Some a => match nth_error (heap c) a with Some v => f v | None => [] end
  | None => []
  end.
Definition symbols (c : cstate) (x : name) : list symbol := at_ c obj_symbol (objs c x) ++ at_ c fun_symbol (funs c x).

End Linkage.
