(** Declarations of structures, unions and enumerations: tags, members, enumeration constants. *)
(* Modelled: source/ast/analyzer/declarator.c 40-163 (members), 165-223 (structures and unions), 225-297 (enumerations),
   299-310 (typedef names), 718-783 and 811-936 (declarators, without parameters);
   source/ast/analyzer/type.c 25-245 (checks of a declared type); source/ast/analyzer/nodes/declaration.c 29-61,
   init_declarator.c 44-55; source/ast/context_impl.c 149-176 (update of a tag); source/ast/global_context.c 383-394,
   795-845, 848-881; source/ast/local_context.c 435-470, 922-955, 958-993 (tags and constants in scopes);
   source/ast/type/struct.c 370-428 (fields); source/ast-translator/environment.c 119-143 (widths of bit-fields).

   Simplified: alignments, function parameters, storage classes, variable lengths and static assertions are left out;
   the names declared are numbered in the order of their declaration, so that they are never hidden (C52 has the scopes
   of ordinary identifiers); the value of a constant expression is given as a function of the constants in scope;
   fixed_enum_type is false (source/ast/context.c 9). A failure is [None]. *)
From Coq Require Import ZArith List Bool String.
From Verif Require Import CompatModel CompositeModel ExprTypeModel.
Import ListNotations.
Open Scope Z_scope.

(** ** Syntax *)

(** Declarators, the modification of the specified type that is applied first comes first. *)
Inductive dmod := DPtr (q : qual) | DArr (n : option Z) | DFun.
(** struct kefir_ast_structure_entry_declarator; [MPad] is a bit-field without declarator *)
Inductive mdeclr := MD (name : string) (sh : list dmod) (width : option Z) | MPad (width : Z).
(** struct kefir_ast_enum_specifier_entry *)
Definition enumr : Type := string * option ((string -> option Z) -> option Z).

(** Type specifiers; the members of a structure are lists of declarators after specifiers. *)
Inductive spec :=
| SBasic (b : basic)
| SName (n : nat)
| SRef (u : bool) (x : string)
| SDef (u : bool) (x : option string) (ms : mdecls)
| SEnumRef (x : string)
| SEnumDef (x : option string) (es : list enumr)
with mdecls :=
| MNil
| MCons (q : qual) (s : spec) (ds : list mdeclr) (r : mdecls).

(** [EBare s] is a declaration without declarators; [EDecl] has one or more. *)
Inductive event :=
| EOpen
| EClose
| EBare (s : spec)
| EDecl (typedef : bool) (q : qual) (s : spec) (d : list dmod) (ds : list (list dmod)).

(** ** State *)

(** Scopes from the innermost to the file scope; types of the declared names, with whether it is a typedef name. *)
Record kstate := K { k_tags : list (string -> option ty); k_consts : list (string -> option Z); k_names : list (bool * ty) }.

Fixpoint lookup {A} (l : list (string -> option A)) (x : string) : option A :=
  match l with [] => None | f :: r => match f x with Some a => Some a | None => lookup r x end end.
Definition put {A} (x : string) (a : A) (f : string -> option A) : string -> option A :=
  fun y => if String.eqb x y then Some a else f y.

Definition k_init : kstate := K [fun _ => None] [fun _ => None] [].

(** type->tag *)
Definition same_kind (a b : ty) : bool :=
  match a, b with
  | TStruct _ _ _, TStruct _ _ _ | TUnion _ _ _, TUnion _ _ _ | TEnum _ _ _ _, TEnum _ _ _ _ => true
  | _, _ => false
  end.
Definition is_complete (t : ty) : bool :=
  match t with TStruct c _ _ | TUnion c _ _ | TEnum c _ _ _ => c | _ => false end.

(** global_context.c 848-881, local_context.c 958-993, context_impl.c 149-176 *)
Definition define_tag (x : string) (t : ty) (st : kstate) : option kstate :=
  match k_tags st with
  | [] => None
  | f :: r =>
    match f x with
    | Some t0 =>
      if same_kind t0 t then
        if is_complete t then if is_complete t0 then None else Some (K (put x t f :: r) (k_consts st) (k_names st))
        else Some st
      else None
    | None => Some (K (put x t f :: r) (k_consts st) (k_names st))
    end
  end.

(** global_context.c 795-845, local_context.c 922-955 *)
Definition define_constant (x : string) (z : Z) (st : kstate) : option kstate :=
  match k_consts st with
  | [] => None
  | f :: r => match f x with Some _ => None | None => Some (K (k_tags st) (put x z f :: r) (k_names st)) end
  end.

(** What kefir_ast_type_completion sees, type_completion.c 30-47 *)
Definition scope_of (st : kstate) : ctx :=
  {| c_ids := fun _ => None;
     c_tags := fun x => match lookup (k_tags st) x with
                        | Some ((TStruct true _ _ | TUnion true _ _) as t) => Some t
                        | _ => None
                        end;
     c_eval := fun _ => VNot |}.

(** ** Declarators: declarator.c 718-783, 811-936 *)
Definition unq : qual := Q false false false.
Definition qualified (q : qual) (t : ty) : ty := if zero_qual q then t else qualify q t.
Definition k_dmod (t : ty) (d : dmod) : ty :=
  match d with
  | DPtr q => qualified q (TPtr t)
  | DArr None => TArr Unbounded unq t
  | DArr (Some n) => TArr (Bounded n) unq t
  | DFun => TFun t ModeEmpty [] false
  end.
Definition k_shape (t : ty) (sh : list dmod) : ty := fold_left k_dmod sh t.

(** ** Members *)

(** environment.c 119-143: eight times the size of an integer type, otherwise 0; [None] if there is no layout
    (an incomplete type or a function), declarator.c 99-107 *)
Definition basic_bits (b : basic) : Z :=
  match b with
  | BBool | BChar | BUChar | BSChar => 8
  | BUShort | BSShort => 16
  | BUInt | BSInt => 32
  | BULong | BSLong | BULLong | BSLLong => 64
  | _ => 0
  end.
Definition bitfield_width (t : ty) : Z :=
  match unqualified t with
  | TBasic b => basic_bits b
  | TEnum _ _ _ under => basic_bits under
  | _ => 0
  end.

(** kefir_ast_struct_type_field_impl, struct.c 370-428 *)
Definition add_field (fs : list field) (f : field) : option (list field) :=
  match f_name f with
  | Some n => match field_at fs n with Some _ => None | None => Some (fs ++ [f]) end
  | None => Some (fs ++ [f])
  end.

(** declarator.c 60-139 *)
Definition k_declr (t : ty) (fs : list field) (d : mdeclr) : option (list field) :=
  let ft := match d with MD _ sh _ => k_shape t sh | MPad _ => t end in
  let name := match d with MD x _ _ => Some x | MPad _ => None end in
  match (match d with MD _ _ width => width | MPad w => Some w end) with
  | None => add_field fs (Field name ft 0 None)
  | Some w =>
    let max := bitfield_width ft in
    (* the comparison is one of size_t *)
    if (0 <? max) && (0 <=? w) && (w <=? max) then add_field fs (Field name ft 0 (Some w)) else None
  end.
Fixpoint k_declrs (t : ty) (fs : list field) (ds : list mdeclr) : option (list field) :=
  match ds with
  | [] => Some fs
  | d :: r => match k_declr t fs d with Some fs' => k_declrs t fs' r | None => None end
  end.
(** declarator.c 140-161 *)
Definition k_anonymous (t : ty) (fs : list field) : option (list field) :=
  match t with TStruct _ _ _ | TUnion _ _ _ => add_field fs (Field None t 0 None) | _ => None end.

(** ** Enumerations: declarator.c 232-271 *)
(** [next] is constant_value, [mn] is min_constant *)
Fixpoint k_enumerators (es : list enumr) (next mn : Z) (seen : list (string * option Z)) (st : kstate) :
  option (kstate * Z * list (string * option Z)) :=
  match es with
  | [] => Some (st, mn, seen)
  | (x, e) :: r =>
    match (match e with Some f => f (lookup (k_consts st)) | None => Some next end) with
    | None => None
    | Some v =>
      if existsb (fun p => String.eqb (fst p) x) seen then None
      else
        match define_constant x v st with
        | None => None
        | Some st' => k_enumerators r (v + 1) (Z.min mn v) (seen ++ [(x, match e with Some _ => Some v | None => None end)]) st'
        end
    end
  end.
Definition max_int64 : Z := 9223372036854775807.

(** ** Specifiers *)

Definition record_type (u c : bool) (x : option string) (fs : list field) : ty :=
  if u then TUnion c x fs else TStruct c x fs.

(** declarator.c 216-218, 291-293 *)
Definition k_define (x : option string) (t : ty) (st : kstate) : option (kstate * ty) :=
  match x with
  | None => Some (st, t)
  | Some y => match define_tag y t st with Some st' => Some (st', t) | None => None end
  end.

Fixpoint k_spec (s : spec) (st : kstate) {struct s} : option (kstate * ty) :=
  match s with
  | SBasic b => Some (st, TBasic b)
  | SName n =>
    (* declarator.c 299-310 *)
    match nth_error (k_names st) n with
    | Some (true, t) => Some (st, completion (scope_of st) t)
    | _ => None
    end
  | SRef u x =>
    (* declarator.c 188-213 *)
    match lookup (k_tags st) x with
    | Some t => if same_kind t (record_type u false None []) then Some (st, t) else None
    | None => k_define (Some x) (record_type u false (Some x) []) st
    end
  | SDef u x ms =>
    (* declarator.c 171-187 *)
    match k_members ms [] st with
    | Some (st', fs) => k_define x (record_type u true x fs) st'
    | None => None
    end
  | SEnumRef x =>
    (* declarator.c 271-289 *)
    match lookup (k_tags st) x with
    | Some t => if same_kind t (TEnum true None [] BSInt) then Some (st, t) else None
    | None => k_define (Some x) (TEnum false (Some x) [] BSInt) st
    end
  | SEnumDef x es =>
    match k_enumerators es 0 max_int64 [] st with
    | Some (st', mn, seen) =>
      let under := match es with [] => BSInt | _ => if 0 <=? mn then BUInt else BSInt end in
      k_define x (TEnum true x seen under) st'
    | None => None
    end
  end
with k_members (ms : mdecls) (fs : list field) (st : kstate) {struct ms} : option (kstate * list field) :=
  match ms with
  | MNil => Some (st, fs)
  | MCons q s ds r =>
    (* declarator.c 49-162, 966-985 *)
    match k_spec s st with
    | Some (st', t) =>
      let t := qualified q t in
      match (match ds with [] => k_anonymous t fs | _ => k_declrs t fs ds end) with
      | Some fs' => k_members r fs' st'
      | None => None
      end
    | None => None
    end
  end.

(** ** Checks of a declared type: kefir_ast_analyze_type, type.c 193-245 *)
Fixpoint k_check (t : ty) : bool :=
  match t with
  | TBasic _ | TEnum _ _ _ _ => true
  | TPtr a | TQual _ a => k_check a
  | TArr _ q a => k_check a && negb (incomplete a) && negb (is_function a) && zero_qual q   (* type.c 54-96 *)
  | TFun r _ _ _ => negb (is_function r) && negb (is_array r)                               (* type.c 160-166 *)
  | TStruct c _ fs | TUnion c _ fs =>
    (* type.c 98-158 *)
    negb c ||
    (fix fields (first : bool) (fs : list field) : bool :=
       match fs with
       | [] => true
       | Field name ft _ w :: r =>
         k_check ft &&
         (match w with Some w => (0 <=? w) && ((0 <? w) || negb (is_some name)) | None => true end) &&
         (match ft with
          | TArr Unbounded _ _ =>
            match r with [] => true | _ => false end && match t with TStruct _ _ _ => true | _ => false end && negb first
          | TArr _ _ _ => negb (vl_array ft)
          | _ => negb (incomplete ft) && negb (is_function ft)
          end) && fields false r
       end) true fs
  end.

(** ** Declarations: declaration.c 41-60, init_declarator.c 44-55 *)
Fixpoint k_declarators (typedef : bool) (t : ty) (ds : list (list dmod)) (st : kstate) : option kstate :=
  match ds with
  | [] => Some st
  | d :: r =>
    if k_check (k_shape t d) then k_declarators typedef t r (K (k_tags st) (k_consts st) (k_names st ++ [(typedef, k_shape t d)]))
    else None
  end.
Definition pop {A} (l : list A) : option (list A) := match l with [] | [_] => None | _ :: r => Some r end.
Definition k_event (e : event) (st : kstate) : option kstate :=
  match e with
  | EOpen => Some (K ((fun _ => None) :: k_tags st) ((fun _ => None) :: k_consts st) (k_names st))
  | EClose =>
    match pop (k_tags st), pop (k_consts st) with
    | Some t, Some c => Some (K t c (k_names st))
    | _, _ => None
    end
  | EBare s => match k_spec s st with Some (st', t) => if k_check t then Some st' else None | None => None end
  | EDecl typedef q s d ds =>
    match k_spec s st with
    | Some (st', t) => k_declarators typedef (qualified q t) (d :: ds) st'
    | None => None
    end
  end.
Fixpoint k_run (es : list event) (st : kstate) : option kstate :=
  match es with [] => Some st | e :: r => match k_event e st with Some st' => k_run r st' | None => None end end.

(** ** Use of a declared name: array_subscript.c 48-70 and unary_operation.c 121-135 ([PDeref]),
    struct_member.c 44-89 ([PMember]) *)
Inductive step := PDeref | PMember (m : string).
Definition k_step (st : kstate) (t : ty) (p : step) : option ty :=
  match p with
  | PDeref => match unqualified t with TPtr a | TArr _ _ a => Some a | _ => None end
  | PMember m => match an_member (scope_of st) t m false with Ok p => Some (n_type p) | _ => None end
  end.
Fixpoint k_walk (st : kstate) (t : ty) (ps : list step) : option ty :=
  match ps with [] => Some t | p :: r => match k_step st t p with Some t' => k_walk st t' r | None => None end end.
