(** Declarators: the parser (source/parser/rules/declarator.c 24-561) and the analyzer
    (source/ast/analyzer/declarator.c 739-936, source/ast/type/function.c 44-89,
    source/ast/type_conv.c 202-230).

    Simplified: attributes are not skipped; a token stands for a whole structure, union or
    enumeration specifier and for each other keyword among declaration specifiers; an
    assignment expression is a number or a dereferenced expression.  What the specifiers of a
    parameter denote is neither an array, a function nor va_list, so only derivations are
    adjusted.  Attributes, source locations and memory failures are left out. *)

From Coq Require Import ZArith Bool List.
From Verif Require Import SpecifierModel.
Import ListNotations.

(** [KSpec type w]: a specifier other than a typedef name or qualifier; [type]: whether it is
    a type specifier. *)
Inductive tok :=
  | KSpec (type : bool) (w : nat) | KQual (q : qual) | KId (x : nat) | KLp | KRp | KLb | KRb | KStar | KComma | KDots
  | KStatic | KNum (n : nat) | KOther.

(** Declaration specifiers of a parameter *)
Inductive word := WSpec (type : bool) (w : nat) | WQual (q : qual) | WName (x : nat) | WStatic.
Inductive expr := ENum (n : nat) | EDeref (e : expr).

(** kefir_ast_declarator_array_type_t *)
Inductive bound := Unbounded | UnspecifiedVla | Bounded (e : expr).
(** struct kefir_ast_declarator; parameters are declarations or identifiers *)
Inductive dcl :=
  | DId (x : option nat)
  | DPtr (qs : list qual) (d : dcl)
  | DArr (b : bound) (static : bool) (qs : list qual) (d : dcl)
  | DFun (ps : list prm) (ellipsis : bool) (d : dcl)
with prm := PDecl (ws : list word) (d : dcl) | PId (x : nat).

(** Results: KEFIR_OK, KEFIR_NO_MATCH, KEFIR_SYNTAX_ERROR; [Stuck]: out of fuel. *)
Inductive res (A : Type) := Ok (a : A) | NoMatch | Err | Stuck.
Arguments Ok {A} a. Arguments NoMatch {A}. Arguments Err {A}. Arguments Stuck {A}.

(** scan_type_qualifier_list, 24-43 *)
Fixpoint quals_of (ts : list tok) : list qual * list tok :=
  match ts with
  | KQual q :: r => let (qs, r) := quals_of r in (q :: qs, r)
  | _ => ([], ts)
  end.

(** The assignment_expression rule *)
Fixpoint expression (ts : list tok) : res (expr * list tok) :=
  match ts with
  | KNum n :: r => Ok (ENum n, r)
  | KStar :: r =>
    match expression r with
    | Ok (e, r) => Ok (EDeref e, r)
    | _ => Err
    end
  | _ => NoMatch
  end.

(** scan_array_impl, 132-209, after the bracket *)
Definition static_of (ts : list tok) : bool * list tok :=
  match ts with KStatic :: r => (true, r) | _ => (false, ts) end.
Definition close {A} (a : A) (ts : list tok) : res (A * list tok) :=
  match ts with KRb :: r => Ok (a, r) | _ => Err end.
Definition array (ts : list tok) : res ((bound * bool * list qual) * list tok) :=
  let (s1, ts) := static_of ts in
  let (qs, ts) := quals_of ts in
  let (s2, ts) := static_of ts in
  if s1 && s2 then Err else
  let st := s1 || s2 in
  match ts with
  | KStar :: r => if st then Err else close (UnspecifiedVla, st, qs) r
  | _ =>
    match expression ts with
    | Ok (e, r) => close (Bounded e, st, qs) r
    | NoMatch => if st then Err else close (Unbounded, st, qs) ts
    | Err => Err
    | Stuck => Stuck
    end
  end.

(** scan_function_identifier_list, 328-353 *)
Fixpoint identifiers (ts : list tok) : res (list prm * list tok) :=
  match ts with
  | KId x :: KComma :: r =>
    match r with
    | KId _ :: _ => match identifiers r with Ok (ps, r) => Ok (PId x :: ps, r) | e => e end
    | _ => Err
    end
  | KId x :: r => Ok ([PId x], r)
  | _ => Ok ([], ts)
  end.

Section Parser.
  (** kefir_parser_scope_is_typedef *)
  Variable is_typedef : nat -> bool.

  (** kefir_parser_scan_declaration_specifier_list, declaration_specifier.c 625-645;
      [seen]: has_type_specifiers; an identifier is a type specifier only if none was seen
      and it names a type (457-475). *)
  Fixpoint specifiers (seen : bool) (ts : list tok) : list word * list tok :=
    match ts with
    | KSpec t w :: r => let (ws, r) := specifiers (seen || t) r in (WSpec t w :: ws, r)
    | KQual q :: r => let (ws, r) := specifiers seen r in (WQual q :: ws, r)
    | KStatic :: r => let (ws, r) := specifiers seen r in (WStatic :: ws, r)
    | KId x :: r =>
      if negb seen && is_typedef x then let (ws, r) := specifiers true r in (WName x :: ws, r) else ([], ts)
    | _ => ([], ts)
    end.

  (** [declarator]: kefir_parser_scan_declarator 431-463 with scan_pointer 45-92,
        scan_direct_declarator_base 94-130 and scan_direct 422-429.
      [tail]: scan_direct_declarator_tail 397-420.
      [function]: scan_function_impl 355-380, after the parenthesis.
      [parameters]: scan_function_parameter_list 306-326; [more] is its loop.
      [parameter]: scan_function_parameter 262-304 with scan_function_parameter_declarator 233-260.
      [abstract]: kefir_parser_scan_abstract_declarator 528-561.
      [pointer_tail]: scan_abstract_declarator_pointer_tail 517-526.
      [direct_abstract]: scan_direct_abstract 502-515, with its base 465-500. *)
  Fixpoint declarator (n : nat) (ts : list tok) {struct n} : res (dcl * list tok) :=
    match n with
    | O => Stuck
    | S n =>
      match ts with
      | KStar :: r =>
        let (qs, r) := quals_of r in
        match declarator n r with Ok (d, r) => Ok (DPtr qs d, r) | e => e end
      | KLp :: r =>
        match declarator n r with
        | Ok (d, KRp :: r) => tail n false d r
        | Ok _ => Err
        | e => e
        end
      | KId x :: r => tail n false (DId (Some x)) r
      | _ => NoMatch
      end
    end
  with tail (n : nat) (abstr : bool) (d : dcl) (ts : list tok) {struct n} : res (dcl * list tok) :=
    match n with
    | O => Stuck
    | S n =>
      match ts with
      | KLb :: r =>
        match array r with
        | Ok ((b, st, qs), r) => tail n abstr (DArr b st qs d) r
        | NoMatch => NoMatch | Err => Err | Stuck => Stuck
        end
      | KLp :: r =>
        match function n abstr r with
        | Ok ((ps, dots), r) => tail n abstr (DFun ps dots d) r
        | NoMatch => NoMatch | Err => Err | Stuck => Stuck
        end
      | _ => Ok (d, ts)
      end
    end
  with function (n : nat) (abstr : bool) (ts : list tok) {struct n} : res ((list prm * bool) * list tok) :=
    match n with
    | O => Stuck
    | S n =>
      let fin (a : list prm * bool) (r : list tok) :=
        match r with KRp :: r => Ok (a, r) | _ => Err end in
      match parameters n ts with
      | Ok (a, r) => fin a r
      | NoMatch =>
        if abstr then fin ([], false) ts else
        match identifiers ts with
        | Ok (ps, r) => fin (ps, false) r
        | NoMatch => Err | Err => Err | Stuck => Stuck
        end
      | Err => Err
      | Stuck => Stuck
      end
    end
  with parameters (n : nat) (ts : list tok) {struct n} : res ((list prm * bool) * list tok) :=
    match n with
    | O => Stuck
    | S n =>
      match parameter n ts with
      | Ok (p, r) => more n [p] r
      | NoMatch => NoMatch | Err => Err | Stuck => Stuck
      end
    end
  with more (n : nat) (ps : list prm) (ts : list tok) {struct n} : res ((list prm * bool) * list tok) :=
    match n with
    | O => Stuck
    | S n =>
      match ts with
      | KComma :: r =>
        match parameter n r with
        | Ok (p, r) => more n (ps ++ [p]) r
        | NoMatch => match r with KDots :: r => Ok ((ps, true), r) | _ => Err end
        | Err => Err | Stuck => Stuck
        end
      | _ => Ok ((ps, false), ts)
      end
    end
  with parameter (n : nat) (ts : list tok) {struct n} : res (prm * list tok) :=
    match n with
    | O => Stuck
    | S n =>
      let (ws, r) := specifiers false ts in
      match ws with
      | [] => NoMatch
      | _ =>
        match declarator n r with
        | Ok (d, r) => Ok (PDecl ws d, r)
        | NoMatch =>
          match abstract n r with
          | Ok (d, r) => Ok (PDecl ws d, r)
          | NoMatch => Ok (PDecl ws (DId None), r)
          | Err => Err | Stuck => Stuck
          end
        | Err => Err | Stuck => Stuck
        end
      end
    end
  with abstract (n : nat) (ts : list tok) {struct n} : res (dcl * list tok) :=
    match n with
    | O => Stuck
    | S n =>
      match ts with
      | KStar :: r =>
        let (qs, r) := quals_of r in
        match pointer_tail n r with Ok (d, r) => Ok (DPtr qs d, r) | e => e end
      | _ => direct_abstract n false ts
      end
    end
  with pointer_tail (n : nat) (ts : list tok) {struct n} : res (dcl * list tok) :=
    match n with
    | O => Stuck
    | S n =>
      match ts with
      | KStar :: r =>
        let (qs, r) := quals_of r in
        match pointer_tail n r with Ok (d, r) => Ok (DPtr qs d, r) | e => e end
      | _ => direct_abstract n true ts
      end
    end
  with direct_abstract (n : nat) (empty : bool) (ts : list tok) {struct n} : res (dcl * list tok) :=
    match n with
    | O => Stuck
    | S n =>
      let base :=
        match ts with
        | KLp :: r =>
          match abstract n r with
          | Ok (d, KRp :: r) => Ok (d, r)
          | Ok _ => Err
          | NoMatch => Ok (DId None, ts)
          | e => e
          end
        | _ => Ok (DId None, ts)
        end in
      match base with
      | Ok (d, r) =>
        match tail n true d r with
        | Ok (DId None, r) => if empty then Ok (DId None, r) else NoMatch
        | e => e
        end
      | e => e
      end
    end.
End Parser.

(** * The analyzer *)

(** struct kefir_ast_type as far as declarators build it; [YBase ws]: what the specifiers
    denote (C49); an array length that is a constant expression has its value *)
Inductive length := NoLength | Constant (z : Z) | Variable_ (e : option expr).
Inductive cty :=
  | YBase (ws : list word)
  | YPtr (t : cty)
  | YQual (q : quals) (t : cty)
  | YArr (n : length) (static : bool) (q : quals) (t : cty)
  | YFun (ret : cty) (ps : list (option cty)) (ellipsis : bool).

(** resolve_qualification over a list *)
Fixpoint qualification (s : quals) (qs : list qual) : option quals :=
  match qs with
  | [] => Some s
  | q :: qs => match resolve_qualification s q with Some s => qualification s qs | None => None end
  end.
Definition no_quals : quals := (false, false, false).
(** KEFIR_AST_TYPE_IS_ZERO_QUALIFICATION, kefir_ast_type_qualified *)
Definition qualify (q : quals) (t : cty) : cty :=
  let '(c, r, v) := q in if c || r || v then YQual q t else t.

(** kefir_ast_type_conv_adjust_function_parameter, type_conv.c 202-230 *)
Definition adjust (t : cty) : cty :=
  match t with
  | YFun _ _ _ => YPtr t
  | YArr _ _ q e => qualify q (YPtr e)
  | _ => t
  end.

Section Analyzer.
  (** kefir_ast_constant_expression_value_evaluate: the value of an integer constant
      expression, None for KEFIR_NOT_CONSTANT *)
  Variable constant : expr -> option Z.

  (** resolve_array_declarator, declarator.c 759-825 *)
  Definition array_length (b : bound) : length :=
    match b with
    | Unbounded => NoLength
    | UnspecifiedVla => Variable_ None
    | Bounded e => match constant e with Some z => Constant z | None => Variable_ (Some e) end
    end.

  (** analyze_declaration_declarator_impl, 904-936, with resolve_pointer_declarator 739-757 and
      resolve_function_declarator 827-902; for a parameter the type stored is the adjusted one
      (type/function.c 73-76), for an identifier none. *)
  Fixpoint analyze (d : dcl) (t : cty) : option (option nat * cty) :=
    match d with
    | DId x => Some (x, t)
    | DPtr qs d =>
      match qualification no_quals qs with
      | Some q => analyze d (qualify q (YPtr t))
      | None => None
      end
    | DArr b st qs d =>
      match qualification no_quals qs with
      | Some q => analyze d (YArr (array_length b) st q t)
      | None => None
      end
    | DFun ps dots d =>
      let fix params (ps : list prm) : option (list (option cty)) :=
        match ps with
        | [] => Some []
        | p :: ps =>
          match (match p with
                 | PDecl ws d => option_map (fun r => Some (adjust (snd r))) (analyze d (YBase ws))
                 | PId _ => Some None
                 end) with
          | Some p => option_map (cons p) (params ps)
          | None => None
          end
        end in
      match params ps with
      | Some ps => analyze d (YFun t ps dots)
      | None => None
      end
    end.
End Analyzer.

(** * Constraints on the declared type *)

Section Constraints.
  (** Whether specifiers denote a complete type, and whether [void] *)
  Variables complete_base void_base : list word -> bool.

  (** kefir_ast_unqualified_type, KEFIR_AST_TYPE_IS_INCOMPLETE: headers/kefir/ast/type.h 110-115 *)
  Fixpoint incomplete (t : cty) : bool :=
    match t with
    | YBase ws => negb (complete_base ws)
    | YQual _ t => incomplete t
    | YArr NoLength _ _ _ => true
    | _ => false
    end.
  Definition is_function (t : cty) : bool := match t with YFun _ _ _ => true | _ => false end.
  Definition is_array (t : cty) : bool := match t with YArr _ _ _ _ => true | _ => false end.
  Definition zero (q : quals) : bool := let '(c, r, v) := q in negb (c || r || v).

  (** kefir_ast_analyze_type, source/ast/analyzer/type.c 189-245, with analyze_array 55-96 and
      analyze_function 151-187.  [param]: KEFIR_AST_TYPE_ANALYSIS_FUNCTION_PARAMETER.  Left
      out: the storage class of parameters; structures and enumerations (within [YBase]). *)
  Fixpoint check (param : bool) (t : cty) : bool :=
    match t with
    | YBase _ => true
    | YPtr t => check false t
    | YQual _ t => check param t
    | YArr _ st q e => check false e && (negb (incomplete e) && negb (is_function e)) && ((negb st && zero q) || param)
    | YFun r ps _ =>
      negb (is_function r) && negb (is_array r) &&
      forallb (fun p : option cty =>
        match p with
        | None => true
        | Some p =>
          check true p &&
          match p with
          | YBase ws => if void_base ws then Nat.eqb (List.length ps) 1 else negb (incomplete p)
          | _ => negb (incomplete p)
          end
        end) ps
    end.
End Constraints.
