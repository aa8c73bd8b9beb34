(** The syntax of declarations, statements and translation units (C17 6.7-6.9) with the scope of typedef names (6.2.1). *)
(* A judgement [g_.. c t ts] says that the tokens ts spell the tree t when the identifiers x with [c x = true] are typedef
   names at that point. Declarations change which these are: [g_.. E t ts E'] takes the names in scope from E to E'.

   The judgements follow the grammar of the standard. The conditions marked LIMIT cut out programs of the standard that the
   parser is known to get wrong or that are left out here; those under [limit] are dropped when [lim] is false. *)
From Coq Require Import ZArith List Bool.
From Verif Require ParseModel.
From Verif Require Import SynModel.
Import ListNotations.
Import ParseModel (punct(..)).

Definition limit (lim : bool) (P : Prop) : Prop := if lim then P else True.

(** * Identifiers in scope *)
(** [cls]: the typedef names; [here]: the identifiers declared in the current block, true for typedef names;
    [loops]: the identifiers declared by the loops of the current block *)
Record env := Env { cls : Z -> bool; here : list (Z * bool); loops : list Z }.
Definition start : env := Env (fun _ => false) [] [].
Definition add (x : Z) (k : bool) (E : env) : env :=
  Env (fun y => if Z.eqb y x then k else cls E y) ((x, k) :: here E) (loops E).
Definition enter (E : env) : env := Env (cls E) [] [].
(** 6.7 3, 6.7.2 5: an identifier is not a typedef name and something else in one block. LIMIT: nor the typedef name of a block
    and the variable of a loop in it *)
Definition can_declare (lim : bool) (E : env) (x : Z) (k : bool) : Prop :=
  (forall k', In (x, k') (here E) -> k' = k) /\ limit lim (k = true -> ~ In x (loops E)).
Definition agree (c c' : Z -> bool) (ts : list tok) : Prop := forall x, In (TId x) ts -> c x = c' x.

(** * What is assumed of the rules for expressions *)
(** First tokens of an expression, 6.5 *)
Definition starts_expression (c : Z -> bool) (t : tok) : bool :=
  match t with
  | TId x => negb (c x)
  | TConst _ | TStr _ | TKw KSizeof | TKw KAlignof => true
  | TP PLParen | TP PStar | TP PAmp | TP PPlus | TP PMinus | TP PTilde | TP PNot | TP PInc | TP PDec => true
  | _ => false
  end.
(** Tokens at which an expression certainly is over *)
Definition ends_expression (comma : bool) (t : tok) : bool :=
  match t with
  | TSemi | TP PRParen | TP PRBracket | TP PRBrace | TP PColon => true
  | TP PComma => comma
  | _ => false
  end.
(** Tokens that start no expression *)
Definition no_expression (t : tok) : bool :=
  match t with TKw KSizeof | TKw KAlignof => false | TKw _ | TP PRBracket => true | _ => false end.
(** [r]: a rule; [sp]: the spellings of expressions; [comma]: a comma ends them *)
Record reads {ex} (comma : bool) (r : (Z -> bool) -> list tok -> ParseModel.outcome ex * list tok)
  (sp : (Z -> bool) -> ex -> list tok -> Prop) : Prop := {
  rd_ok : forall c c' e ts t rest, sp c e ts -> agree c c' ts -> ends_expression comma t = true ->
    r c' (ts ++ t :: rest) = (ParseModel.Ok e, t :: rest);
  rd_first : forall c e ts, sp c e ts -> exists t ts', ts = t :: ts' /\ starts_expression c t = true;
  rd_label : forall c e x ts, sp c e (TId x :: TP PColon :: ts) -> False;
  rd_none : forall c t ts, no_expression t = true -> fst (r c (t :: ts)) = ParseModel.NoMatch
}.

Section Grammar.
Context (lim : bool) {ex : Type}.
(** Expressions: assumed to be spelled in some way that may depend on the typedef names *)
Context (Eexp Easg Econ : (Z -> bool) -> ex -> list tok -> Prop).

Definition is_qual (k : kw) : bool := match k with KQual _ | KAtomic => true | _ => false end.

(** * Specifiers without bodies, 6.7, 6.7.1-6.7.4. A typedef name is a specifier only if no type specifier precedes it
    (6.7.2 2, 6.7.8) *)
Inductive g_spec1 (c : Z -> bool) (has : bool) : spec (ex := ex) -> list tok -> Prop :=
| g1_typedef : g_spec1 c has SpTypedef [TKw KTypedef]
| g1_static : g_spec1 c has SpStatic [TKw KStatic]
| g1_storage n : g_spec1 c has (SpStorage n) [TKw (KStorage n)]
| g1_type n : g_spec1 c has (SpType n) [TKw (KType n)]
| g1_qual n : g_spec1 c has (SpQual (KQual n)) [TKw (KQual n)]
| g1_fun n : g_spec1 c has (SpFun n) [TKw (KFun n)]
| g1_tag k x : g_spec1 c has (SpTag k x) [TKw (KTag k); TId x]
| g1_name x : has = false -> c x = true -> g_spec1 c has (SpName x) [TId x]
(** LIMIT: no atomic type specifier (the simplest ones stand for all) *)
| g1_atomic n : lim = false ->
    g_spec1 c has (SpAtomic (TName [SpType n] (DId None))) [TKw KAtomic; TP PLParen; TKw (KType n); TP PRParen].
(** LIMIT: _Atomic is not the last specifier *)
Inductive g_simple (c : Z -> bool) : bool -> list spec -> list tok -> Prop :=
| gs_nil has : g_simple c has [] []
| gs_cons has sp ts ss ts' : g_spec1 c has sp ts -> g_simple c (has || is_type_spec sp) ss ts' ->
    g_simple c has (sp :: ss) (ts ++ ts')
| gs_atomic has ss ts' : ss <> [] -> g_simple c has ss ts' -> g_simple c has (SpQual KAtomic :: ss) (TKw KAtomic :: ts').

(** * Declarators, 6.7.6 *)
(** Between the brackets. LIMIT: the length does not start with an asterisk *)
Definition no_star (ts : list tok) : Prop := match ts with TP PStar :: _ => False | _ => True end.
Inductive g_array (c : Z -> bool) : bool -> list kw -> alen (ex := ex) -> list tok -> Prop :=
| ga_unb qs : g_array c false qs AUnb (map TKw qs)
| ga_star qs : g_array c false qs AStar (map TKw qs ++ [TP PStar])
| ga_len qs e ts : Easg c e ts -> limit lim (no_star ts) -> g_array c false qs (ALen e) (map TKw qs ++ ts)
| ga_static qs e ts : Easg c e ts -> limit lim (no_star ts) -> g_array c true qs (ALen e) (TKw KStatic :: map TKw qs ++ ts)
| ga_static2 qs e ts : qs <> [] -> Easg c e ts -> limit lim (no_star ts) -> g_array c true qs (ALen e) (map TKw qs ++ TKw KStatic :: ts).

(** A function declarator without name whose parameters start with a typedef name. LIMIT: not as the declarator of a
    parameter *)
Fixpoint names_type (d : declr (ex := ex)) : bool :=
  match d with
  | DId _ => false
  | DFun ps _ (DId None) => match ps with PDecl (SpName _ :: _) _ :: _ => true | _ => false end
  | DPtr _ d | DArr _ _ _ d | DFun _ _ d => names_type d
  end.

Inductive g_declr (c : Z -> bool) : declr (ex := ex) -> list tok -> Prop :=
| gd_ptr qs d ts : forallb is_qual qs = true -> g_declr c d ts -> g_declr c (DPtr qs d) (TP PStar :: map TKw qs ++ ts)
| gd_direct d ts : g_direct c d ts -> g_declr c d ts
with g_direct (c : Z -> bool) : declr (ex := ex) -> list tok -> Prop :=
| gi_id x : g_direct c (DId (Some x)) [TId x]
| gi_paren d ts : g_declr c d ts -> g_direct c d (TP PLParen :: ts ++ [TP PRParen])
| gi_arr d ts s qs n ats : g_direct c d ts -> forallb is_qual qs = true -> g_array c s qs n ats ->
    g_direct c (DArr s qs n d) (ts ++ TP PLBracket :: ats ++ [TP PRBracket])
| gi_fun d ts ps ell pts : g_direct c d ts -> g_pars c ps ell pts ->
    g_direct c (DFun ps ell d) (ts ++ TP PLParen :: pts ++ [TP PRParen])
(** abstract declarators, 6.7.7, possibly empty *)
with g_abs (c : Z -> bool) : declr (ex := ex) -> list tok -> Prop :=
| gb_ptr qs d ts : forallb is_qual qs = true -> g_abs c d ts -> g_abs c (DPtr qs d) (TP PStar :: map TKw qs ++ ts)
| gb_direct d ts : g_dabs c d ts -> g_abs c d ts
with g_dabs (c : Z -> bool) : declr (ex := ex) -> list tok -> Prop :=
| gx_nil : g_dabs c (DId None) []
| gx_paren d ts : g_abs c d ts -> ts <> [] -> g_dabs c d (TP PLParen :: ts ++ [TP PRParen])
| gx_arr d ts s qs n ats : g_dabs c d ts -> forallb is_qual qs = true -> g_array c s qs n ats ->
    g_dabs c (DArr s qs n d) (ts ++ TP PLBracket :: ats ++ [TP PRBracket])
| gx_fun d ts ps ell pts : g_dabs c d ts -> g_pars c ps ell pts ->
    g_dabs c (DFun ps ell d) (ts ++ TP PLParen :: pts ++ [TP PRParen])
with g_pars (c : Z -> bool) : list (param (ex := ex)) -> bool -> list tok -> Prop :=
| gp_none : g_pars c [] false []
| gp_some p ts ps ell ts' : g_param c p ts -> g_more c ps ell ts' -> g_pars c (p :: ps) ell (ts ++ ts')
with g_more (c : Z -> bool) : list (param (ex := ex)) -> bool -> list tok -> Prop :=
| gm_nil : g_more c [] false []
| gm_ell : g_more c [] true [TP PComma; TEllipsis]
| gm_cons p ts ps ell ts' : g_param c p ts -> g_more c ps ell ts' -> g_more c (p :: ps) ell (TP PComma :: ts ++ ts')
(** LIMIT: the specifiers of a parameter have no bodies *)
with g_param (c : Z -> bool) : param (ex := ex) -> list tok -> Prop :=
| gq_named ss sts d ts : g_simple c false ss sts -> has_type ss = true -> g_declr c d ts -> g_param c (PDecl ss d) (sts ++ ts)
| gq_abs ss sts d ts : g_simple c false ss sts -> has_type ss = true -> g_abs c d ts -> limit lim (names_type d = false) ->
    g_param c (PDecl ss d) (sts ++ ts).

(** * Specifiers with bodies, 6.7.2.1, 6.7.2.2; an enumerator is in scope after its value (6.2.1 7) *)
Definition g_name (x : option Z) : list tok := match x with Some x => [TId x] | None => [] end.
Inductive g_fdecl : (Z -> bool) -> declr (ex := ex) -> option ex -> list tok -> Prop :=
| gfw_plain c d ts : g_declr c d ts -> g_fdecl c d None ts
| gfw_bits c d ts e ets : g_declr c d ts -> Econ c e ets -> g_fdecl c d (Some e) (ts ++ TP PColon :: ets)
| gfw_anon c e ets : Econ c e ets -> g_fdecl c (DId None) (Some e) (TP PColon :: ets).
Inductive g_fdecls : (Z -> bool) -> list (declr (ex := ex) * option ex) -> list tok -> Prop :=
| gfd_none c : g_fdecls c [] []
| gfd_last c d w ts : g_fdecl c d w ts -> g_fdecls c [(d, w)] ts
| gfd_cons c d w ts ds ts' : g_fdecl c d w ts -> ds <> [] -> g_fdecls c ds ts' -> g_fdecls c ((d, w) :: ds) (ts ++ TP PComma :: ts').
Inductive g_value : (Z -> bool) -> option ex -> list tok -> Prop :=
| gv_none c : g_value c None []
| gv_some c e ts : Econ c e ts -> g_value c (Some e) (TP PAssign :: ts).
Inductive g_enums : env -> list (Z * option ex) -> list tok -> env -> Prop :=
| ge_last E x v ts : g_value (cls E) v ts -> can_declare lim E x false -> g_enums E [(x, v)] (TId x :: ts) (add x false E)
| ge_cons E x v ts es ts' E' : g_value (cls E) v ts -> can_declare lim E x false -> g_enums (add x false E) es ts' E' ->
    g_enums E ((x, v) :: es) (TId x :: ts ++ TP PComma :: ts') E'.
Inductive g_specs : env -> bool -> list (spec (ex := ex)) -> list tok -> env -> Prop :=
| gl_nil E has : g_specs E has [] [] E
| gl_simple E has sp ts ss ts' E' : g_spec1 (cls E) has sp ts -> g_specs E (has || is_type_spec sp) ss ts' E' ->
    g_specs E has (sp :: ss) (ts ++ ts') E'
| gl_atomic E has ss ts' E' : ss <> [] -> g_specs E has ss ts' E' -> g_specs E has (SpQual KAtomic :: ss) (TKw KAtomic :: ts') E'
| gl_body E has k x fs ts E1 ss ts' E' : k <> KEnum -> fs <> [] -> g_fields E fs ts E1 -> g_specs E1 true ss ts' E' ->
    g_specs E has (SpBody k x fs :: ss) (TKw (KTag k) :: g_name x ++ TP PLBrace :: ts ++ TP PRBrace :: ts') E'
| gl_enum E has x es ts E1 ss ts' E' (comma : bool) : g_enums E es ts E1 -> g_specs E1 true ss ts' E' ->
    g_specs E has (SpEnum x es :: ss)
      (TKw (KTag KEnum) :: g_name x ++ TP PLBrace :: ts ++ (if comma then [TP PComma] else []) ++ TP PRBrace :: ts') E'
with g_fields : env -> list (field (ex := ex)) -> list tok -> env -> Prop :=
| gf_nil E : g_fields E [] [] E
| gf_cons E ss sts E1 ds dts fs ts E' : g_specs E false ss sts E1 -> has_type ss = true -> g_fdecls (cls E1) ds dts ->
    g_fields E1 fs ts E' -> g_fields E (Field ss ds :: fs) (sts ++ dts ++ TSemi :: ts) E'.

(** * Initializers, 6.7.9 *)
Inductive g_desigs (c : Z -> bool) : list (desig (ex := ex)) -> list tok -> Prop :=
| gz_nil : g_desigs c [] []
| gz_index e ts ds ts' : Econ c e ts -> g_desigs c ds ts' -> g_desigs c (DIndex e :: ds) (TP PLBracket :: ts ++ TP PRBracket :: ts')
| gz_member x ds ts' : g_desigs c ds ts' -> g_desigs c (DMember x :: ds) (TP PDot :: TId x :: ts').
Definition g_designation (c : Z -> bool) (ds : list desig) (ts : list tok) : Prop :=
  match ds with [] => ts = [] | _ => exists ts', g_desigs c ds ts' /\ ts = ts' ++ [TP PAssign] end.
Inductive g_init (c : Z -> bool) : init (ex := ex) -> list tok -> Prop :=
| gn_expr e ts : Easg c e ts -> g_init c (IExpr e) ts
| gn_list l ts (comma : bool) : g_ilist c l ts ->
    g_init c (IList l) (TP PLBrace :: ts ++ (if comma then [TP PComma] else []) ++ [TP PRBrace])
with g_ilist (c : Z -> bool) : list (list (desig (ex := ex)) * init (ex := ex)) -> list tok -> Prop :=
| gnl_last ds dts i ts : g_designation c ds dts -> g_init c i ts -> g_ilist c [(ds, i)] (dts ++ ts)
| gnl_cons ds dts i ts l ts' : g_designation c ds dts -> g_init c i ts -> g_ilist c l ts' ->
    g_ilist c ((ds, i) :: l) (dts ++ ts ++ TP PComma :: ts').

(** * Declarations, 6.7: an identifier is in scope after its declarator (6.2.1 7). LIMIT ([c0]: the typedef names before the
    first declarator): the later parts of the declaration use no name that the earlier ones have given another meaning *)
Inductive g_inits (c0 : Z -> bool) (k : bool) : env -> list (declr (ex := ex) * option init) -> list tok -> env -> Prop :=
| gt_last E d x i ts E' : g_idecl c0 k E d x i ts E' -> g_inits c0 k E [(d, i)] ts E'
| gt_cons E d x i ts E1 ds ts' E' : g_idecl c0 k E d x i ts E1 -> g_inits c0 k E1 ds ts' E' ->
    g_inits c0 k E ((d, i) :: ds) (ts ++ TP PComma :: ts') E'
with g_idecl (c0 : Z -> bool) (k : bool) : env -> declr (ex := ex) -> Z -> option init -> list tok -> env -> Prop :=
| gid_plain E d x ts : g_declr (cls E) d ts -> limit lim (agree (cls E) c0 ts) -> name_of d = Some x -> can_declare lim E x k ->
    g_idecl c0 k E d x None ts (add x k E)
| gid_init E d x ts i its : g_declr (cls E) d ts -> limit lim (agree (cls E) c0 ts) -> name_of d = Some x -> can_declare lim E x k ->
    g_init (cls (add x k E)) i its -> limit lim (agree (cls (add x k E)) c0 its) ->
    g_idecl c0 k E d x (Some i) (ts ++ TP PAssign :: its) (add x k E).
Inductive g_decl : env -> decl (ex := ex) -> list tok -> env -> Prop :=
| gc_none E ss sts E1 : g_specs E false ss sts E1 -> has_type ss = true -> g_decl E (Decl ss []) (sts ++ [TSemi]) E1
| gc_some E ss sts E1 ds ts E' : g_specs E false ss sts E1 -> has_type ss = true ->
    g_inits (cls E1) (typedefs ss) E1 ds ts E' -> g_decl E (Decl ss ds) (sts ++ ts ++ [TSemi]) E'.

(** * Statements, 6.8 *)
(** A statement that an [else] after it would belong to (6.8.4.1 3) *)
Fixpoint opens (s : stmt (ex := ex)) : bool :=
  match s with
  | SIf _ _ None => true
  | SIf _ _ (Some s) | SLabel _ s | SCase _ s | SDefault s | SSwitch _ s | SWhile _ s | SFor _ _ _ s => opens s
  | _ => false
  end.
(** What a loop leaves behind (6.8.5 5): nothing. LIMIT ([loops]): its variables are no typedef names of this block *)
Definition leave (E E' : env) : env := Env (cls E) (here E) (loops E' ++ map fst (here E')).
Inductive g_opt (c : Z -> bool) : option ex -> list tok -> Prop :=
| go_none : g_opt c None []
| go_some e ts : Eexp c e ts -> g_opt c (Some e) ts.
Definition begins_typedef (c : Z -> bool) (ts : list tok) : bool := match ts with TId x :: _ => c x | _ => false end.
Inductive g_finit : env -> finit (ex := ex) -> list tok -> env -> Prop :=
| gx_none E : g_finit E FNone [TSemi] E
| gx_expr E e ts : Eexp (cls E) e ts -> g_finit E (FExpr e) (ts ++ [TSemi]) E
(** LIMIT: a loop declares no typedef name and hides none *)
| gx_decl E d ts E1 : g_decl E d ts E1 -> limit lim (forall x, cls E1 x = cls E x) ->
    limit lim (forall x, In (x, true) (here E1) -> In (x, true) (here E)) -> g_finit E (FDecl d) ts E1.
Inductive g_stmt : env -> stmt (ex := ex) -> list tok -> env -> Prop :=
| gw_label E x s ts E' : g_stmt E s ts E' -> g_stmt E (SLabel x s) (TId x :: TP PColon :: ts) E'
| gw_case E e ets s ts E' : Econ (cls E) e ets -> g_stmt E s ts E' -> g_stmt E (SCase e s) (TKw KCase :: ets ++ TP PColon :: ts) E'
| gw_default E s ts E' : g_stmt E s ts E' -> g_stmt E (SDefault s) (TKw KDefault :: TP PColon :: ts) E'
| gw_block E its ts E' : g_items (enter E) its ts E' -> g_stmt E (SBlock its) (TP PLBrace :: ts ++ [TP PRBrace]) E
| gw_expr E e ts : g_opt (cls E) e ts -> g_stmt E (SExpr e) (ts ++ [TSemi]) E
| gw_if E e ets s ts E' : Eexp (cls E) e ets -> g_stmt E s ts E' ->
    g_stmt E (SIf e s None) (TKw KIf :: TP PLParen :: ets ++ TP PRParen :: ts) E'
| gw_if_else E e ets s ts E1 s' ts' E' : Eexp (cls E) e ets -> g_stmt E s ts E1 -> opens s = false -> g_stmt E1 s' ts' E' ->
    g_stmt E (SIf e s (Some s')) (TKw KIf :: TP PLParen :: ets ++ TP PRParen :: ts ++ TKw KElse :: ts') E'
| gw_switch E e ets s ts E' : Eexp (cls E) e ets -> g_stmt E s ts E' ->
    g_stmt E (SSwitch e s) (TKw KSwitch :: TP PLParen :: ets ++ TP PRParen :: ts) E'
| gw_while E e ets s ts E' : Eexp (cls E) e ets -> g_stmt E s ts E' ->
    g_stmt E (SWhile e s) (TKw KWhile :: TP PLParen :: ets ++ TP PRParen :: ts) E'
| gw_do E e ets s ts E' : g_stmt E s ts E' -> Eexp (cls E) e ets ->
    g_stmt E (SDo s e) (TKw KDo :: ts ++ TKw KWhile :: TP PLParen :: ets ++ [TP PRParen; TSemi]) E'
| gw_for E i its E1 c cts n nts s ts E2 : g_finit E i its E1 -> g_opt (cls E1) c cts -> g_opt (cls E1) n nts -> g_stmt E1 s ts E2 ->
    g_stmt E (SFor i c n s) (TKw KFor :: TP PLParen :: its ++ cts ++ TSemi :: nts ++ TP PRParen :: ts) (leave E E2)
| gw_return E e ts : g_opt (cls E) e ts -> g_stmt E (SReturn e) (TKw KReturn :: ts ++ [TSemi]) E
| gw_goto E x : g_stmt E (SGoto x) [TKw KGoto; TId x; TSemi] E
| gw_break E : g_stmt E SBreak [TKw KBreak; TSemi] E
| gw_continue E : g_stmt E SContinue [TKw KContinue; TSemi] E
(** LIMIT: in a block, no label has the name of a typedef *)
with g_items : env -> list (item (ex := ex)) -> list tok -> env -> Prop :=
| gm_none E : g_items E [] [] E
| gm_decl E d ts E1 its ts' E' : g_decl E d ts E1 -> g_items E1 its ts' E' -> g_items E (IDecl d :: its) (ts ++ ts') E'
| gm_stmt E s ts E1 its ts' E' : g_stmt E s ts E1 -> limit lim (begins_typedef (cls E) ts = false) ->
    g_items E1 its ts' E' -> g_items E (IStmt s :: its) (ts ++ ts') E'.

(** * External definitions, 6.9 *)
(** The parameters of the function that a declarator declares *)
Fixpoint function_params (d : declr (ex := ex)) : option (list param) :=
  match d with
  | DFun ps _ (DId _) => Some ps
  | DFun _ _ d | DPtr _ d | DArr _ _ _ d => function_params d
  | DId _ => None
  end.
Definition param_names (ps : list (param (ex := ex))) : list Z :=
  flat_map (fun p => match p with
                     | PDecl _ d => match name_of d with Some x => [x] | None => [] end
                     | PName x => [x]
                     end) ps.
(** LIMIT: the parameters of a definition hide no typedef name; no declaration list *)
Inductive g_ext : env -> ext (ex := ex) -> list tok -> env -> Prop :=
| gu_decl E d ts E' : g_decl E d ts E' -> g_ext E (XDecl d) ts E'
| gu_fun E ss sts E1 d dts f ps its ts E' : g_specs E false ss sts E1 -> has_type ss = true ->
    g_declr (cls E1) d dts -> name_of d = Some f -> can_declare lim E1 f false -> function_params d = Some ps ->
    limit lim (forall x, In x (param_names ps) -> cls E1 x = false) ->
    g_items (fold_right (fun x E => add x false E) (enter (add f false E1)) (param_names ps)) its ts E' ->
    g_ext E (XFun ss d [] its) (sts ++ dts ++ TP PLBrace :: ts ++ [TP PRBrace]) (add f false E1)
(** the old style, with one parameter *)
| gu_old E ss sts E1 f x d dts E2 its ts E' : lim = false -> g_specs E false ss sts E1 -> has_type ss = true ->
    can_declare lim E1 f false -> g_decl (enter (add f false E1)) d dts E2 -> g_items E2 its ts E' ->
    g_ext E (XFun ss (DFun [PName x] false (DId (Some f))) [d] its)
      (sts ++ TId f :: TP PLParen :: TId x :: TP PRParen :: dts ++ TP PLBrace :: ts ++ [TP PRBrace]) (add f false E1).
Inductive g_unit : env -> list (ext (ex := ex)) -> list tok -> Prop :=
| gk_last E x ts E' : g_ext E x ts E' -> g_unit E [x] ts
| gk_cons E x ts E' xs ts' : g_ext E x ts E' -> g_unit E' xs ts' -> g_unit E (x :: xs) (ts ++ ts').
End Grammar.

Scheme g_declr_mi := Minimality for g_declr Sort Prop with g_direct_mi := Minimality for g_direct Sort Prop
  with g_abs_mi := Minimality for g_abs Sort Prop with g_dabs_mi := Minimality for g_dabs Sort Prop
  with g_pars_mi := Minimality for g_pars Sort Prop with g_more_mi := Minimality for g_more Sort Prop
  with g_param_mi := Minimality for g_param Sort Prop.
Combined Scheme g_declr_mut from g_declr_mi, g_direct_mi, g_abs_mi, g_dabs_mi, g_pars_mi, g_more_mi, g_param_mi.
Scheme g_specs_mi := Minimality for g_specs Sort Prop with g_fields_mi := Minimality for g_fields Sort Prop.
Combined Scheme g_specs_mut from g_specs_mi, g_fields_mi.
Scheme g_init_mi := Minimality for g_init Sort Prop with g_ilist_mi := Minimality for g_ilist Sort Prop.
Combined Scheme g_init_mut from g_init_mi, g_ilist_mi.
Scheme g_stmt_mi := Minimality for g_stmt Sort Prop with g_items_mi := Minimality for g_items Sort Prop.
Combined Scheme g_stmt_mut from g_stmt_mi, g_items_mi.
