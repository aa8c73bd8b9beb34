(** The parser of declarations, statements and translation units, with the table of typedef names. *)
(* Modelled: source/parser/scope.c 24-212; parser.c 78-119; cursor.c 36-77; and the rules
   source/parser/rules/{declaration,declaration_specifier,declarator,type_name,initializer,initializer_list,
   initializer_designation,identifier,statement,labeled_statement,compound_statement,expression_statement,
   selection_statement,iteration_statement,jump_statement,function_definition,external_declaration,translation_unit}.c.

   Simplified:
   - the cursor (array, index) is the list of the tokens from the index on;
   - the rules expression, assignment_expression and constant_expression are parameters: any functions of the typedef
     names and the cursor. They leave the table of names as it is, so type names in expressions that define enumerations and
     statement expressions (an extension) are not modelled;
   - the keywords _Alignas, _Static_assert, __attribute__ and asm do not occur; label_addressing,
     designated_initializer_colons and implicit_function_definition_int are off (the defaults, parser.c 26-31);
   - every error but KEFIR_NO_MATCH is the outcome Syntax;
   - digraphs are identified with the punctuators they stand for; source locations are left out, allocation never fails. *)
From Coq Require Import ZArith List Bool Lia.
From Verif Require ParseModel.
Import ListNotations.
Import ParseModel (punct(..), outcome(..), punct_eqb).

Inductive tagk := KStruct | KUnion | KEnum.
(** KStorage: extern, _Thread_local, auto, register; KType: void .. _Complex, __builtin_va_list; KQual: const, restrict,
    volatile; KFun: inline, _Noreturn *)
Inductive kw :=
| KTypedef | KStatic | KStorage (n : Z) | KType (n : Z) | KQual (n : Z) | KAtomic | KFun (n : Z) | KTag (k : tagk)
| KSizeof | KAlignof
| KIf | KElse | KSwitch | KWhile | KDo | KFor | KReturn | KGoto | KBreak | KContinue | KCase | KDefault.

Inductive tok := TId (x : Z) | TKw (k : kw) | TP (p : punct) | TSemi | TEllipsis | TConst (c : Z) | TStr (s : Z).

(** * Table of typedef names, scope.c *)
(** A block: names with the value IDENTIFIER_TYPEDEF (true) or IDENTIFIER_VARIABLE; innermost block first *)
Definition block := list (Z * bool).
Definition scope := list block.
(** kefir_parser_block_scope_is_typedef, scope.c 89-100; None: KEFIR_NOT_FOUND *)
Fixpoint find (b : block) (x : Z) : option bool :=
  match b with
  | [] => None
  | (y, k) :: b' => if Z.eqb x y then Some k else find b' x
  end.
(** kefir_parser_scope_is_typedef, scope.c 192-212, as its callers use it: not found is no typedef *)
Fixpoint is_typedef (sc : scope) (x : Z) : bool :=
  match sc with
  | [] => false
  | b :: sc' => match find b x with Some k => k | None => is_typedef sc' x end
  end.
(** kefir_parser_scope_declare_typedef, _variable, scope.c 44-87, 166-190: inserted if new, an error if it is there as the
    other kind *)
Definition declare (k : bool) (x : Z) (sc : scope) : option scope :=
  match sc with
  | [] => None
  | b :: sc' =>
    match find b x with
    | None => Some (((x, k) :: b) :: sc')
    | Some k' => if Bool.eqb k k' then Some sc else None
    end
  end.

(** * Syntax trees *)
Section Syn.
Context {ex : Type}.

Inductive alen := AUnb | AStar | ALen (e : ex).
Inductive spec :=
| SpTypedef | SpStatic | SpStorage (n : Z) | SpType (n : Z) | SpQual (k : kw) | SpFun (n : Z)
| SpAtomic (t : tname)
| SpName (x : Z)
| SpTag (k : tagk) (x : Z)
| SpBody (k : tagk) (x : option Z) (fs : list field)
| SpEnum (x : option Z) (es : list (Z * option ex))
with tname := TName (ss : list spec) (d : declr)
with field := Field (ss : list spec) (ds : list (declr * option ex))
with declr :=
| DId (x : option Z)
| DPtr (qs : list kw) (d : declr)
| DArr (st : bool) (qs : list kw) (n : alen) (d : declr)
| DFun (ps : list param) (ell : bool) (d : declr)
with param := PDecl (ss : list spec) (d : declr) | PName (x : Z).

Inductive desig := DIndex (e : ex) | DMember (x : Z).
Inductive init := IExpr (e : ex) | IList (l : list (list desig * init)).
(** [int;] has no entry here; the code keeps one without a declarator (declaration.c 86-90) *)
Inductive decl := Decl (ss : list spec) (ds : list (declr * option init)).
Inductive stmt :=
| SLabel (x : Z) (s : stmt) | SCase (e : ex) (s : stmt) | SDefault (s : stmt)
| SBlock (its : list item)
| SExpr (e : option ex)
| SIf (e : ex) (a : stmt) (b : option stmt) | SSwitch (e : ex) (s : stmt)
| SWhile (e : ex) (s : stmt) | SDo (s : stmt) (e : ex) | SFor (i : finit) (c n : option ex) (s : stmt)
| SReturn (e : option ex) | SGoto (x : Z) | SBreak | SContinue
with item := IDecl (d : decl) | IStmt (s : stmt)
with finit := FNone | FExpr (e : ex) | FDecl (d : decl).
(** kr: the declaration list between declarator and body *)
Inductive ext := XFun (ss : list spec) (d : declr) (kr : list decl) (its : list item) | XDecl (d : decl).

(** kefir_ast_declarator_unpack_identifier, source/ast/declarator.c 287-313 *)
Fixpoint name_of (d : declr) : option Z :=
  match d with DId x => x | DPtr _ d | DArr _ _ _ d | DFun _ _ d => name_of d end.

(** * Rules *)
Definition st := (scope * list tok)%type.
Definition pr (A : Type) := st -> outcome A * st.

Definition ret {A} (a : A) : pr A := fun s => (Ok a, s).
Definition fail {A} (o : outcome A) : pr A := fun s => (o, s).
Definition bind {A B} (p : pr A) (f : A -> pr B) : pr B := fun s =>
  match p s with
  | (Ok a, s') => f a s'
  | (NoMatch, s') => (NoMatch, s')
  | (Syntax, s') => (Syntax, s')
  | (NoFuel, s') => (NoFuel, s')
  end.
(** kefir_parser_apply and kefir_parser_try_invoke, parser.c 78-119: no match restores the cursor, not the table *)
Definition apply {A} (p : pr A) : pr A := fun s =>
  match p s with (NoMatch, s') => (NoMatch, (fst s', snd s)) | r => r end.
(** REQUIRE_MATCH_OK(.., syntax error) *)
Definition must {A} (p : pr A) : pr A := fun s => match p s with (NoMatch, s') => (Syntax, s') | r => r end.
Definition orelse {A} (p q : pr A) : pr A := fun s => match p s with (NoMatch, s') => q s' | r => r end.
(** PARSER_SHIFT *)
Definition shift {A} (k : pr A) : pr A := fun s => k (fst s, tl (snd s)).
Definition is (p : punct) (s : st) : bool := match snd s with TP q :: _ => punct_eqb p q | _ => false end.
Definition is_semi (s : st) : bool := match snd s with TSemi :: _ => true | _ => false end.
(** REQUIRE(token is p, o); PARSER_SHIFT *)
Definition expect {A} (p : punct) (o : outcome A) (k : pr A) : pr A := fun s => if is p s then shift k s else (o, s).
Definition semi {A} (k : pr A) : pr A := fun s => if is_semi s then shift k s else (Syntax, s).
Definition when {A} (c : st -> bool) (p q : pr A) : pr A := fun s => if c s then p s else q s.

Notation "'do' x <- p ; q" := (bind p (fun x => q)) (at level 200, x name, p at level 100, q at level 200).

Context (expression assignment constant : (Z -> bool) -> list tok -> outcome ex * list tok).
(** kefir_parser_apply of an expression rule *)
Definition erule (r : (Z -> bool) -> list tok -> outcome ex * list tok) : pr ex :=
  apply (fun s => let (o, ts) := r (is_typedef (fst s)) (snd s) in (o, (fst s, ts))).

(** One goal per rule or loop; [acc] is what the loop has collected *)
Inductive goal : Type -> Type :=
| GSpecs (acc : list spec) : goal (list spec)
| GFields (acc : list field) : goal (list field)
| GFieldDecls (acc : list (declr * option ex)) : goal (list (declr * option ex))
| GEnums (acc : list (Z * option ex)) : goal (list (Z * option ex))
| GTypeName : goal tname
| GDeclr : goal declr
| GTail (abs : bool) (d : declr) : goal declr
| GParam : goal param
| GParams (acc : list param) : goal (list param * bool)
| GIds (acc : list param) : goal (list param)
| GAbs : goal declr
| GPtrTail : goal declr
| GInit : goal init
| GInitList (acc : list (list desig * init)) : goal (list (list desig * init))
| GDesig (acc : list desig) : goal (list desig)
| GInitDecls (acc : list (declr * option init)) : goal (list (declr * option init))
| GDecl : goal decl
| GStmt : goal stmt
| GItems (acc : list item) : goal (list item)
| GDecls (acc : list decl) : goal (list decl)
| GUnit (acc : list ext) : goal (list ext).

(** has_type_specifiers, declaration_specifier.c 376-392 *)
Definition is_type_spec (s : spec) : bool :=
  match s with SpType _ | SpAtomic _ | SpName _ | SpTag _ _ | SpBody _ _ _ | SpEnum _ _ => true | _ => false end.
Definition has_type (ss : list spec) : bool := existsb is_type_spec ss.
(** update_scope, declaration.c 112-141 *)
Definition is_typedef_spec (s : spec) : bool := match s with SpTypedef => true | _ => false end.
Definition typedefs (ss : list spec) : bool := existsb is_typedef_spec ss.
Fixpoint declare_all (k : bool) (ds : list (declr * option init)) (sc : scope) : option scope :=
  match ds with
  | [] => Some sc
  | (d, _) :: ds' =>
    match name_of d with
    | None => declare_all k ds' sc
    | Some x => match declare k x sc with Some sc' => declare_all k ds' sc' | None => None end
    end
  end.

(** scan_type_qualifier_list, declarator.c 23-42 *)
Fixpoint qualifiers (ts : list tok) : list kw * list tok :=
  match ts with
  | TKw (KQual n) :: r => let (q, r') := qualifiers r in (KQual n :: q, r')
  | TKw KAtomic :: r => let (q, r') := qualifiers r in (KAtomic :: q, r')
  | _ => ([], ts)
  end.
Definition quals {A} (k : list kw -> pr A) : pr A := fun s =>
  let (q, r) := qualifiers (snd s) in k q (fst s, r).
(** PARSER_TOKEN_IS_KEYWORD(static), shifted over *)
Definition opt_static {A} (k : bool -> pr A) : pr A := fun s =>
  match snd s with TKw KStatic :: r => k true (fst s, r) | _ => k false s end.

Section Step.
Context (run : forall A, goal A -> pr A).
Arguments run {A}.

(** scan_struct_field_declaration, declaration_specifier.c 67-145 *)
Definition field_declaration : pr field :=
  apply (do ss <- run (GSpecs []);
         do ds <- when is_semi (ret []) (run (GFieldDecls []));
         semi (ret (Field ss ds))).
(** scan_struct_specifier, declaration_specifier.c 213-264, after the keyword *)
Definition struct_specifier (k : tagk) : pr spec :=
  let body (x : option Z) := shift (do fs <- run (GFields []); expect PRBrace Syntax (ret (SpBody k x fs))) in
  fun s =>
  match snd s with
  | TId x :: _ => shift (when (is PLBrace) (body (Some x)) (ret (SpTag k x))) s
  | _ => if is PLBrace s then body None s else (Syntax, s)
  end.
(** scan_enum_specifier, declaration_specifier.c 325-374, after the keyword *)
Definition enum_specifier : pr spec :=
  let body (x : option Z) := shift (do es <- run (GEnums []); expect PRBrace Syntax (ret (SpEnum x es))) in
  fun s =>
  match snd s with
  | TId x :: _ => shift (when (is PLBrace) (body (Some x)) (ret (SpTag KEnum x))) s
  | _ => if is PLBrace s then body None s else (Syntax, s)
  end.

(** kefir_parser_scan_declaration_specifier, declaration_specifier.c 603-626: storage class 24-65, type specifier 394-484,
    qualifier 486-519, function specifier 521-548. What follows the type name of an _Atomic(..) is not looked at (437-451). *)
Definition specifier (acc : list spec) : pr spec := fun s =>
  match snd s with
  | TKw KTypedef :: _ => shift (ret SpTypedef) s
  | TKw KStatic :: _ => shift (ret SpStatic) s
  | TKw (KStorage n) :: _ => shift (ret (SpStorage n)) s
  | TKw (KType n) :: _ => shift (ret (SpType n)) s
  | TKw KAtomic :: TP PLParen :: _ => shift (shift (do t <- must (apply (run GTypeName)); ret (SpAtomic t))) s
  | TKw (KTag KEnum) :: _ => apply (shift enum_specifier) s
  | TKw (KTag k) :: _ => apply (shift (struct_specifier k)) s
  | TKw (KQual n) :: _ => shift (ret (SpQual (KQual n))) s
  | TKw KAtomic :: _ => shift (ret (SpQual KAtomic)) s
  | TKw (KFun n) :: _ => shift (ret (SpFun n)) s
  | TId x :: _ =>
    if negb (has_type acc) && is_typedef (fst s) x then shift (ret (SpName x)) s else (NoMatch, s)
  | _ => (NoMatch, s)
  end.

(** scan_array, declarator.c 128-218, after the bracket *)
Definition array_declarator (d : declr) (k : declr -> pr declr) : pr declr :=
  opt_static (fun st1 => quals (fun qs => opt_static (fun st2 =>
    if st1 && st2 then fail Syntax
    else let st := st1 || st2 in
      do n <- when (is PStar)
                (if st then fail Syntax else shift (ret AStar))
                (fun s => match erule assignment s with
                          | (NoMatch, s') => (if st then Syntax else Ok AUnb, s')
                          | (Ok e, s') => (Ok (ALen e), s')
                          | (Syntax, s') => (Syntax, s')
                          | (NoFuel, s') => (NoFuel, s')
                          end);
      expect PRBracket Syntax (k (DArr st qs n d))))).

(** scan_function_impl, declarator.c 353-383, after the parenthesis; 300-351 *)
Definition parameters (abs : bool) : pr (list param * bool) := fun s =>
  match bind (run GParam) (fun p => run (GParams [p])) s with
  | (NoMatch, s') =>
    let s0 := (fst s', snd s) in
    if abs then (Ok ([], false), s0)
    else (do ps <- match snd s0 with TId _ :: _ => run (GIds []) | _ => ret [] end; ret (ps, false)) s0
  | r => r
  end.

(** scan_pointer, declarator.c 44-90 *)
Definition pointer (sub : pr declr) : pr declr :=
  expect PStar NoMatch (quals (fun qs => do d <- sub; ret (DPtr qs d))).
(** scan_direct_declarator_base, declarator.c 92-126 *)
Definition direct_base : pr declr := fun s =>
  if is PLParen s then shift (do d <- run GDeclr; expect PRParen Syntax (ret d)) s
  else match snd s with TId x :: _ => shift (ret (DId (Some x))) s | _ => (NoMatch, s) end.
(** scan_direct_abstract_declarator_base, scan_direct_abstract, declarator.c 463-521 *)
Definition abstract_base : pr declr := fun s =>
  if is PLParen s then
    match shift (do d <- run GAbs; expect PRParen Syntax (ret d)) s with
    | (NoMatch, s') => (Ok (DId None), (fst s', snd s))
    | r => r
    end
  else (Ok (DId None), s).
Definition direct_abstract (permit_empty : bool) : pr declr :=
  do b <- abstract_base; do d <- run (GTail true b);
  match d with DId None => if permit_empty then ret d else fail NoMatch | _ => ret d end.

(** builder_callback, compound_statement.c 25-60; the block is closed on the way out *)
Definition push (s : st) : st := ([] :: fst s, snd s).
Definition pop {A} (k : pr A) : pr A := fun s => k (tl (fst s), snd s).
Definition compound : pr (list item) :=
  expect PLBrace NoMatch (fun s => (do its <- run (GItems []); expect PRBrace Syntax (pop (ret its))) (push s)).

Definition stmt_ : pr stmt := must (run GStmt).
Definition parens {A} (k : ex -> pr A) : pr A :=
  expect PLParen Syntax (do e <- must (erule expression); expect PRParen Syntax (k e)).
(** labeled_statement.c 25-73 *)
Definition labeled : pr stmt := fun s =>
  match snd s with
  | TId x :: TP PColon :: _ => shift (shift (do b <- stmt_; ret (SLabel x b))) s
  | TKw KCase :: _ => shift (do e <- must (erule constant); expect PColon Syntax (do b <- stmt_; ret (SCase e b))) s
  | TKw KDefault :: _ => shift (expect PColon Syntax (do b <- stmt_; ret (SDefault b))) s
  | _ => (NoMatch, s)
  end.
(** expression_statement.c 24-62 *)
Definition expression_statement : pr stmt :=
  do e <- when is_semi (ret None) (do e <- erule expression; ret (Some e)); semi (ret (SExpr e)).
(** selection_statement.c 25-66 *)
Definition selection : pr stmt := fun s =>
  match snd s with
  | TKw KIf :: _ =>
    shift (parens (fun e => do a <- stmt_;
      fun s1 => match snd s1 with
                | TKw KElse :: _ => shift (do b <- stmt_; ret (SIf e a (Some b))) s1
                | _ => (Ok (SIf e a None), s1)
                end)) s
  | TKw KSwitch :: _ => shift (parens (fun e => do b <- stmt_; ret (SSwitch e b))) s
  | _ => (NoMatch, s)
  end.
(** iteration_statement.c 25-143 *)
Definition opt_expr (stop : st -> bool) : pr (option ex) :=
  when stop (ret None) (do e <- must (erule expression); ret (Some e)).
Definition for_init : pr finit :=
  orelse (do d <- apply (run GDecl); ret (FDecl d))
         (do e <- opt_expr is_semi; semi (ret (match e with None => FNone | Some e => FExpr e end))).
Definition iteration : pr stmt := fun s =>
  match snd s with
  | TKw KWhile :: _ => shift (parens (fun e => do b <- stmt_; ret (SWhile e b))) s
  | TKw KDo :: _ =>
    shift (do b <- stmt_;
      fun s1 => match snd s1 with
                | TKw KWhile :: _ => shift (parens (fun e => semi (ret (SDo b e)))) s1
                | _ => (Syntax, s1)
                end) s
  | TKw KFor :: _ =>
    shift (expect PLParen Syntax
      (do i <- for_init;
       do c <- opt_expr is_semi;
       semi (do n <- opt_expr (is PRParen);
             expect PRParen Syntax (do b <- stmt_; ret (SFor i c n b))))) s
  | _ => (NoMatch, s)
  end.
(** jump_statement.c 25-115 *)
Definition jump : pr stmt := fun s =>
  match snd s with
  | TKw KReturn :: _ => shift (do e <- opt_expr is_semi; semi (ret (SReturn e))) s
  | TKw KGoto :: TId x :: _ => shift (shift (semi (ret (SGoto x)))) s
  | TKw KGoto :: _ => (Syntax, s)
  | TKw KBreak :: _ => shift (semi (ret SBreak)) s
  | TKw KContinue :: _ => shift (semi (ret SContinue)) s
  | _ => (NoMatch, s)
  end.
(** function_definition.c 86-118 *)
Definition function_definition : pr ext :=
  do ss <- run (GSpecs []); do d <- run GDeclr; do kr <- run (GDecls []); do its <- apply compound; ret (XFun ss d kr its).

Definition step (A : Type) (g : goal A) : pr A :=
  match g in goal A return pr A with
  | GSpecs acc => fun s =>                       (* kefir_parser_scan_declaration_specifier_list, declaration_specifier.c 628-649 *)
    match apply (specifier acc) s with
    | (NoMatch, s') => match acc with [] => (NoMatch, s') | _ => (Ok acc, s') end
    | (Ok sp, s') => run (GSpecs (acc ++ [sp])) s'
    | (Syntax, s') => (Syntax, s')
    | (NoFuel, s') => (NoFuel, s')
    end
  | GFields acc => fun s =>                      (* scan_struct_specifier_body, declaration_specifier.c 176-211 *)
    match field_declaration s with
    | (NoMatch, s') => (Ok acc, s')
    | (Ok f, s') => run (GFields (acc ++ [f])) s'
    | (Syntax, s') => (Syntax, s')
    | (NoFuel, s') => (NoFuel, s')
    end
  | GFieldDecls acc =>                           (* declaration_specifier.c 84-134 *)
    do d <- orelse (run GDeclr) (when (is PColon) (ret (DId None)) (fail Syntax));
    do w <- when (is PColon) (shift (do e <- must (erule constant); ret (Some e))) (ret None);
    when (is PComma) (shift (run (GFieldDecls (acc ++ [(d, w)])))) (ret (acc ++ [(d, w)]))
  | GEnums acc => fun s =>                       (* scan_enum_field_declaration, scan_enum_specifier_body 266-323 *)
    match snd s with
    | TId x :: _ =>
      shift (do v <- when (is PAssign) (shift (do e <- must (erule constant); ret (Some e))) (ret None);
        fun s1 => match declare false x (fst s1) with
                  | None => (Syntax, s1)
                  | Some sc =>
                    when (is PComma)
                      (shift (when (is PRBrace) (ret (acc ++ [(x, v)])) (run (GEnums (acc ++ [(x, v)])))))
                      (ret (acc ++ [(x, v)])) (sc, snd s1)
                  end) s
    | _ => (Syntax, s)
    end
  | GTypeName =>                                 (* type_name.c 25-72 *)
    do ss <- run (GSpecs []); do d <- orelse (run GAbs) (ret (DId None)); ret (TName ss d)
  | GDeclr =>                                    (* kefir_parser_scan_declarator, declarator.c 431-461 *)
    apply (when (is PStar) (pointer (run GDeclr)) (do b <- direct_base; run (GTail false b)))
  | GTail abs d =>                               (* scan_direct_declarator_tail, declarator.c 399-420 *)
    when (is PLBracket) (shift (array_declarator d (fun d => run (GTail abs d))))
      (when (is PLParen)
         (shift (do p <- parameters abs; expect PRParen Syntax (run (GTail abs (DFun (fst p) (snd p) d)))))
         (ret d))
  | GParam =>                                    (* scan_function_parameter, declarator.c 220-298 *)
    do ss <- run (GSpecs []);
    do d <- orelse (run GDeclr) (orelse (run GAbs) (ret (DId None)));
    ret (PDecl ss d)
  | GParams acc =>                               (* scan_function_parameter_list, declarator.c 304-326 *)
    when (is PComma)
      (shift (fun s =>
         match run GParam s with
         | (NoMatch, s') => match snd s' with TEllipsis :: _ => shift (ret (acc, true)) s' | _ => (Syntax, s') end
         | (Ok p, s') => run (GParams (acc ++ [p])) s'
         | (Syntax, s') => (Syntax, s')
         | (NoFuel, s') => (NoFuel, s')
         end))
      (ret (acc, false))
  | GIds acc => fun s =>                         (* scan_function_identifier_list, declarator.c 328-351; identifier.c *)
    match snd s with
    | TId x :: _ =>
      if is_typedef (fst s) x then (Syntax, s)
      else shift (when (is PComma) (shift (run (GIds (acc ++ [PName x])))) (ret (acc ++ [PName x]))) s
    | _ => (Syntax, s)
    end
  | GAbs =>                                      (* kefir_parser_scan_abstract_declarator, declarator.c 534-567 *)
    apply (when (is PStar) (pointer (run GPtrTail)) (direct_abstract false))
  | GPtrTail => orelse (pointer (run GPtrTail)) (direct_abstract true)     (* declarator.c 523-532 *)
  | GInit =>                                     (* initializer.c 23-50; initializer_list.c 54-103 *)
    when (is PLBrace)
      (shift (do l <- when (is PRBrace) (ret []) (run (GInitList [])); expect PRBrace Syntax (ret (IList l))))
      (do e <- must (erule assignment); ret (IExpr e))
  | GInitList acc =>                             (* initializer_list.c 23-52, 66-85 *)
    do ds <- when (fun s => is PLBracket s || is PDot s)
               (do ds <- run (GDesig []); expect PAssign Syntax (ret ds)) (ret []);
    do i <- run GInit;
    when (is PComma)
      (shift (when (is PRBrace) (ret (acc ++ [(ds, i)])) (run (GInitList (acc ++ [(ds, i)])))))
      (ret (acc ++ [(ds, i)]))
  | GDesig acc =>                                (* initializer_designation.c 4-50, 90-98 *)
    when (is PLBracket)
      (shift (do e <- must (erule constant); expect PRBracket Syntax (run (GDesig (acc ++ [DIndex e])))))
      (when (is PDot)
         (shift (fun s => match snd s with TId x :: _ => shift (run (GDesig (acc ++ [DMember x]))) s | _ => (Syntax, s) end))
         (ret acc))
  | GInitDecls acc =>                            (* declaration.c 45-74, 92-103 *)
    do d <- must (run GDeclr);
    do i <- when (is PAssign) (shift (do i <- run GInit; ret (Some i))) (ret None);
    when (is PComma) (shift (run (GInitDecls (acc ++ [(d, i)])))) (ret (acc ++ [(d, i)]))
  | GDecl =>                                     (* declaration.c 76-167 *)
    apply (do ss <- run (GSpecs []);
           do ds <- when is_semi (ret []) (run (GInitDecls []));
           semi (fun s => match declare_all (typedefs ss) ds (fst s) with
                          | Some sc => (Ok (Decl ss ds), (sc, snd s))
                          | None => (Syntax, s)
                          end))
  | GStmt =>                                     (* statement.c 23-41 *)
    orelse (apply labeled)
      (orelse (apply (do its <- compound; ret (SBlock its)))
         (orelse (apply expression_statement)
            (orelse (apply selection) (orelse (apply iteration) (apply jump)))))
  | GItems acc =>                                (* compound_statement.c 40-55 *)
    when (is PRBrace) (ret acc)
      (do i <- must (orelse (do d <- run GDecl; ret (IDecl d)) (do b <- run GStmt; ret (IStmt b)));
       run (GItems (acc ++ [i])))
  | GDecls acc => fun s =>                       (* scan_declaration_list, function_definition.c 59-84 *)
    match run GDecl s with
    | (NoMatch, s') => (Ok acc, s')
    | (Ok d, s') => run (GDecls (acc ++ [d])) s'
    | (Syntax, s') => (Syntax, s')
    | (NoFuel, s') => (NoFuel, s')
    end
  | GUnit acc =>                                 (* translation_unit.c 25-49; external_declaration.c *)
    do x <- must (orelse (apply function_definition) (do d <- run GDecl; ret (XDecl d)));
    fun s => match snd s with [] => (Ok (acc ++ [x]), s) | _ => run (GUnit (acc ++ [x])) s end
  end.
End Step.

Fixpoint parse (fuel : nat) : forall A, goal A -> pr A :=
  match fuel with
  | O => fun _ _ s => (NoFuel, s)
  | S n => step (parse n)
  end.

(** kefir_parser_scope_init, scope.c 115-125: one block; the rule translation_unit *)
Definition translation_unit (fuel : nat) (ts : list tok) : outcome (list ext) :=
  fst (parse fuel _ (GUnit []) ([[]], ts)).
End Syn.
