(** The expression parser. *)
(* Modelled: source/parser/parser.c 78-119 (kefir_parser_apply, kefir_parser_try_invoke), cursor.c 36-77,
   builder.c 89-128 (scan, wrap) and the operations that build the nodes below, and the expression rules
   source/parser/rules/{expression,assignment_expression,conditional_expression,logical_expression,
   bitwise_expression,equality_expression,relational_expression,shift_expression,additive_expression,
   multiplicative_expression,cast_expression,unary_expression,postfix_expression,primary_expression,
   compound_literal,identifier,constant,string_literal}.c.

   Simplified:
   - the state of the cursor (array, index) is the list of the tokens from the index on; the sentinel is the
     end of the list;
   - identifiers that are typedef names or builtin names, keywords other than sizeof and _Alignof, and the
     punctuators that occur in no expression are the tokens [TOther]; so the rules for generic selections,
     builtin calls and statement expressions never match and are left out;
   - the rules type_name and initializer_list are parameters (any function on cursors);
   - digraphs are identified with the punctuators they stand for;
   - source locations are left out, allocation never fails. *)
From Coq Require Import ZArith List Bool Lia.
Import ListNotations.

Inductive punct :=
| PLParen | PRParen | PLBracket | PRBracket | PLBrace | PRBrace | PDot | PArrow | PInc | PDec | PAmp | PStar | PPlus | PMinus
| PTilde | PNot | PSlash | PPercent | PShl | PShr | PLt | PGt | PLe | PGe | PEq | PNe | PCaret | PBar | PAndAnd | POrOr
| PQuestion | PColon | PComma
| PAssign | PAssignMul | PAssignDiv | PAssignMod | PAssignAdd | PAssignSub | PAssignShl | PAssignShr
| PAssignAnd | PAssignXor | PAssignOr.

Inductive tok := TName (n : Z) | TConst (c : Z) | TStr (s : Z) | TP (p : punct) | TSizeof | TAlignof | TOther (z : Z).

Definition punct_eq_dec : forall a b : punct, {a = b} + {a <> b}.
Proof. decide equality. Defined.
Definition punct_eqb (a b : punct) : bool := if punct_eq_dec a b then true else false.

(** kefir_ast_binary_operation_type_t *)
Inductive binop := OMul | ODiv | OMod | OAdd | OSub | OShl | OShr | OLt | OGt | OLe | OGe | OEq | ONe | OAnd | OXor | OOr | OLand | OLor.
(** kefir_ast_unary_operation_type_t *)
Inductive unop := OPlus | ONeg | OInvert | ONot | OPreInc | OPreDec | OPostInc | OPostDec | OIndirect | OAddr | OSizeof | OAlignof.
(** kefir_ast_assignment_operation_t *)
Inductive asgop := ASimple | AMul | ADiv | AMod | AAdd | ASub | AShl | AShr | AAnd | AXor | AOr.

Inductive outcome (A : Type) := Ok (a : A) | NoMatch | Syntax | NoFuel.
Arguments Ok {A}. Arguments NoMatch {A}. Arguments Syntax {A}. Arguments NoFuel {A}.

(** A rule reads the cursor and leaves it somewhere, whatever the outcome. *)
Definition parser (A : Type) := list tok -> outcome A * list tok.

Definition ret {A} (a : A) : parser A := fun s => (Ok a, s).
Definition fail {A} (o : outcome A) : parser A := fun s => (o, s).
Definition bind {A B} (p : parser A) (f : A -> parser B) : parser B := fun s =>
  match p s with
  | (Ok a, s') => f a s'
  | (NoMatch, s') => (NoMatch, s')
  | (Syntax, s') => (Syntax, s')
  | (NoFuel, s') => (NoFuel, s')
  end.
(** kefir_parser_apply and kefir_parser_try_invoke: restore the cursor if there is no match. *)
Definition apply {A} (p : parser A) : parser A := fun s =>
  match p s with (NoMatch, _) => (NoMatch, s) | r => r end.
(** REQUIRE_MATCH_OK(.., syntax error), headers/kefir/core/util.h 82-90 *)
Definition must {A} (p : parser A) : parser A := fun s =>
  match p s with (NoMatch, s') => (Syntax, s') | r => r end.
(** if (res == KEFIR_NO_MATCH) .. *)
Definition orelse {A} (p q : parser A) : parser A := fun s =>
  match p s with (NoMatch, s') => q s' | r => r end.
(** PARSER_SHIFT, cursor.c 56-62 *)
Definition shift (s : list tok) : list tok := tl s.
(** PARSER_TOKEN_IS_PUNCTUATOR(parser, 0, p) *)
Definition is (p : punct) (s : list tok) : bool := match s with TP q :: _ => punct_eqb p q | _ => false end.
(** REQUIRE(PARSER_TOKEN_IS_PUNCTUATOR(p), o); PARSER_SHIFT *)
Definition expect {A} (p : punct) (o : outcome A) (k : parser A) : parser A := fun s =>
  if is p s then k (shift s) else (o, s).

Notation "'do' x <- p ; q" := (bind p (fun x => q)) (at level 200, x name, p at level 100, q at level 200).

(** parser->configuration: label_addressing, omitted_conditional_operand *)
Record config := Cfg { label_addressing : bool; omitted_operand : bool }.

(** multiplicative_expression.c 35-58, additive 35-52, shift 35-52, relational 35-65, equality 35-52,
    bitwise_expression.c 50-55, logical_expression.c 52-55. The levels number the productions of 6.5. *)
Definition binop_at (k : nat) (p : punct) : option binop :=
  match k, p with
  | 12, PStar => Some OMul | 12, PSlash => Some ODiv | 12, PPercent => Some OMod
  | 11, PPlus => Some OAdd | 11, PMinus => Some OSub
  | 10, PShl => Some OShl | 10, PShr => Some OShr
  | 9, PLt => Some OLt | 9, PGt => Some OGt | 9, PLe => Some OLe | 9, PGe => Some OGe
  | 8, PEq => Some OEq | 8, PNe => Some ONe
  | 7, PAmp => Some OAnd
  | 6, PCaret => Some OXor
  | 5, PBar => Some OOr
  | 4, PAndAnd => Some OLand
  | 3, POrOr => Some OLor
  | _, _ => None
  end.

(** assignment_expression.c 35-125 *)
Definition asgop_of (p : punct) : option asgop :=
  match p with
  | PAssign => Some ASimple | PAssignMul => Some AMul | PAssignDiv => Some ADiv | PAssignMod => Some AMod
  | PAssignAdd => Some AAdd | PAssignSub => Some ASub | PAssignShl => Some AShl | PAssignShr => Some AShr
  | PAssignAnd => Some AAnd | PAssignXor => Some AXor | PAssignOr => Some AOr
  | _ => None
  end.

(** unary_expression.c 32-86 *)
Definition prefix_of (p : punct) : option unop :=
  match p with
  | PInc => Some OPreInc | PDec => Some OPreDec | PAmp => Some OAddr | PStar => Some OIndirect
  | PPlus => Some OPlus | PMinus => Some ONeg | PTilde => Some OInvert | PNot => Some ONot
  | _ => None
  end.

Section Parser.
Context {tyname init : Type}.

Inductive ast :=
| EName (n : Z) | EConst (c : Z) | EStr (s : Z)
| ETypeName (t : tyname)
| ECompound (t : tyname) (i : init)
| EUn (o : unop) (e : ast)
| EBin (o : binop) (a b : ast)
| EAssign (o : asgop) (a b : ast)
| ECond (a : ast) (b : option ast) (c : ast)
| EComma (es : list ast)
| ECast (t : ast) (e : ast)
| ECall (f : ast) (args : list ast)
| EIndex (a b : ast)
| EMember (direct : bool) (e : ast) (n : Z)
| ELabel (n : Z).

(** builder.c 437-494 *)
Definition comma_operator (a b : ast) : ast :=
  match a with EComma l => EComma (l ++ [b]) | _ => EComma [a; b] end.
(** builder.c 198-229: the node below the argument is the call *)
Definition call_append (f a : ast) : ast :=
  match f with ECall g args => ECall g (args ++ [a]) | _ => f end.

(** One goal per callback; [Bin k] are the ten left-associative rules, [..Loop] their loops *)
Inductive goal :=
| Expression | CommaLoop (e : ast)
| Assignment | Reduce
| Conditional
| Bin (k : nat) | BinLoop (k : nat) (e : ast)
| Cast | ScanCast
| Unary
| Postfix | Postfixes (e : ast) | ArgList (e : ast)
| Compound
| Primary.

Context (type_name : parser tyname) (initializer_list : parser init) (cfg : config).

Section Step.
Context (run : goal -> parser ast).

(** the rule one level down: the operand of [Bin k] *)
Definition tighter (k : nat) : goal := if Nat.leb 12 k then Cast else Bin (S k).

Definition step (g : goal) : parser ast :=
  match g with
  | Expression =>                                                          (* expression.c 27-33 *)
    do e <- apply (run Assignment); run (CommaLoop e)
  | CommaLoop e => fun s =>                                                (* expression.c 34-45 *)
    if is PComma s then (do b <- must (apply (run Assignment)); run (CommaLoop (comma_operator e b))) (shift s)
    else (Ok e, s)
  | Assignment => orelse (apply (run Reduce)) (apply (run Conditional))    (* assignment_expression.c 137-146 *)
  | Reduce =>                                                              (* assignment_expression.c 27-128 *)
    do e <- apply (run Unary);
    fun s => match s with
             | TP p :: s' =>
               match asgop_of p with
               | Some o => (do b <- must (apply (run Assignment)); ret (EAssign o e b)) s'
               | None => (NoMatch, s)
               end
             | _ => (NoMatch, s)
             end
  | Conditional =>                                                         (* conditional_expression.c 25-62 *)
    do e <- apply (run (Bin 3));
    fun s =>
      if is PQuestion s then
        let s1 := shift s in
        if negb (is PColon s1) || negb (omitted_operand cfg) then
          (do b <- must (apply (run Expression));
           expect PColon Syntax
             (do c <- must (apply (run Conditional)); ret (ECond e (Some b) c))) s1
        else (do c <- must (apply (run Conditional)); ret (ECond e None c)) (shift s1)
      else (Ok e, s)
  | Bin k => do e <- apply (run (tighter k)); run (BinLoop k e)            (* e.g. additive_expression.c 26-57 *)
  | BinLoop k e => fun s =>
    match s with
    | TP p :: s' =>
      match binop_at k p with
      | Some o => (do b <- must (apply (run (tighter k))); run (BinLoop k (EBin o e b))) s'
      | None => (Ok e, s)
      end
    | _ => (Ok e, s)
    end
  | Cast => orelse (apply (run ScanCast)) (apply (run Unary))              (* cast_expression.c 46-59 *)
  | ScanCast =>                                                            (* cast_expression.c 25-44 *)
    expect PLParen NoMatch
      (do t <- apply type_name;
       expect PRParen Syntax
         (fun s => match apply (run Cast) s with
                   | (NoMatch, s') => (if is PLBrace s' then NoMatch else Syntax, s')
                   | (Ok e, s') => (Ok (ECast (ETypeName t) e), s')
                   | r => r
                   end))
  | Unary => fun s =>                                                      (* unary_expression.c 25-133 *)
    match s with
    | TP p :: s' =>
      match prefix_of p with
      | Some o => (do e <- must (apply (run Cast)); ret (EUn o e)) s'
      | None =>
        if punct_eqb p PAndAnd && label_addressing cfg then
          match s' with TName n :: s'' => (Ok (ELabel n), s'') | _ => (Syntax, s') end
        else apply (run Postfix) s
      end
    | TSizeof :: s' =>
      match apply (run Unary) s' with
      | (Ok e, s'') => (Ok (EUn OSizeof e), s'')
      | (NoMatch, s'') =>
        expect PLParen Syntax
          (do t <- must (apply type_name);
           expect PRParen Syntax (ret (EUn OSizeof (ETypeName t)))) s''
      | r => r
      end
    | TAlignof :: s' =>
      expect PLParen Syntax
        (do e <- orelse (do t <- apply type_name; ret (ETypeName t)) (must (apply (run Assignment)));
         expect PRParen Syntax (ret (EUn OAlignof e))) s'
    | _ => apply (run Postfix) s
    end
  | Postfix =>                                                             (* postfix_expression.c 143-170 *)
    orelse (apply (run Compound)) (do e <- apply (run Primary); run (Postfixes e))
  | Postfixes e => fun s =>                                                (* postfix_expression.c 74-105 *)
    if is PLBracket s then                                                 (* 26-37 *)
      (do i <- must (apply (run Expression));
       expect PRBracket Syntax (run (Postfixes (EIndex e i)))) (shift s)
    else if is PLParen s then
      (do c <- run (ArgList (ECall e [])); run (Postfixes c)) (shift s)
    else if is PDot s || is PArrow s then                                  (* 62-72 *)
      match shift s with
      | TName n :: s' => run (Postfixes (EMember (is PDot s) e n)) s'
      | s' => (Syntax, s')
      end
    else if is PInc s then run (Postfixes (EUn OPostInc e)) (shift s)
    else if is PDec s then run (Postfixes (EUn OPostDec e)) (shift s)
    else (Ok e, s)
  | ArgList f => fun s =>                                                (* postfix_expression.c 39-60 *)
    if is PRParen s then (Ok f, shift s)
    else
      (do a <- must (apply (run Assignment));
       fun s1 => if is PComma s1 then run (ArgList (call_append f a)) (shift s1)
                 else if is PRParen s1 then (Ok (call_append f a), shift s1)
                 else (Syntax, s1)) s
  | Compound =>                                                            (* compound_literal.c 25-48 *)
    expect PLParen NoMatch
      (do t <- apply type_name;
       expect PRParen Syntax
         (do i <- initializer_list; ret (ECompound t i)))
  | Primary => fun s =>                                                    (* primary_expression.c 23-45 *)
    match s with
    | TName n :: s' => (Ok (EName n), s')
    | TConst c :: s' => (Ok (EConst c), s')
    | TStr c :: s' => (Ok (EStr c), s')
    | _ => expect PLParen NoMatch
             (do e <- apply (run Expression); expect PRParen NoMatch (ret e)) s
    end
  end.
End Step.

Fixpoint parse (fuel : nat) : goal -> parser ast :=
  match fuel with
  | O => fun _ s => (NoFuel, s)
  | S n => step (parse n)
  end.

(** Fuel: the number of tokens left, and how many rules apply without reading one *)
Definition rank (g : goal) : nat :=
  match g with
  | Expression => 30 | CommaLoop _ => 0 | Assignment => 29 | Reduce => 28 | Conditional => 27
  | Bin k => if Nat.leb k 12 then 24 - k else 12 | BinLoop _ _ => 0 | Cast => 8 | ScanCast => 7 | Unary => 6 | Postfix => 5 | Postfixes _ => 0
  | ArgList _ => 30 | Compound => 4 | Primary => 3
  end.
Definition run (g : goal) : parser ast := fun s => parse (S (40 * length s + rank g)) g s.

(** kefir_parser_apply(.., expression) *)
Definition expression : parser ast := apply (run Expression).
End Parser.
Arguments ast : clear implicits.
Arguments goal : clear implicits.
