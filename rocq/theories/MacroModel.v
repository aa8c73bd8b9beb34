(** Macro expansion: source/preprocessor/substitutions.c and user_macro.c.

    Simplifications.  Token sequences are the lists of tokens still to come: that the stack
    of buffers of token_sequence.c behaves so is proved in PropTokenSeq.v.  Source
    locations are dropped.  Keywords do not occur before conversion and extension tokens
    are absent.  Character constants, header names and other literals are [TOther].  The
    text that kefir_preprocessor_format_string produces for [#] is a parameter [fmt].
    A macro from predefined_macro.c is an object-like macro whose replacement is the token
    it produces (the line of __LINE__ fixed).  Memory is always available. *)

From Coq Require Import Bool List String Arith Lia.
From Verif Require Import LexModel.
Import ListNotations.
Open Scope string_scope.
Open Scope list_scope.

(** struct kefir_token, headers/kefir/lexer/lexem.h:225-252; [skip] is
    preprocessor_props.skip_identifier_subst. *)
Inductive tok :=
  | TId (s : string) (skip : bool)
  | TNum (s : string)          (* KEFIR_TOKEN_PP_NUMBER *)
  | TPunct (p : punct)
  | TWs (newline : bool)       (* KEFIR_TOKEN_PP_WHITESPACE *)
  | TStr (s : string)          (* KEFIR_TOKEN_STRING_LITERAL *)
  | TOther (n : nat)           (* KEFIR_TOKEN_CONSTANT, KEFIR_TOKEN_PP_HEADER_NAME *)
  | TPlace                     (* KEFIR_TOKEN_PP_PLACEMAKER *)
  | TSentinel.

Definition is_ws (t : tok) : bool := match t with TWs _ => true | _ => false end.

(** Results of the C functions: a value, an error, or no result within the fuel. *)
Inductive outcome (A : Type) := Ok (a : A) | Err | Fuel.
Arguments Ok {A} a. Arguments Err {A}. Arguments Fuel {A}.
Definition bind {A B} (x : outcome A) (f : A -> outcome B) : outcome B :=
  match x with Ok a => f a | Err => Err | Fuel => Fuel end.

(** kefir_preprocessor_token_sequence_skip_whitespaces, token_sequence.c:151-180 *)
Fixpoint skip_ws (l : list tok) : list tok :=
  match l with t :: r => if is_ws t then skip_ws r else l | [] => [] end.

(** struct kefir_preprocessor_user_macro, headers/kefir/preprocessor/user_macro.h *)
Inductive macro :=
  | MObj (body : list tok)
  | MFun (params : list string) (vararg : bool) (body : list tok).

Section Macro.
Variable fmt : list tok -> string.

(** *** Replacement lists, user_macro.c *)

(** build_function_macro_args_tree, user_macro.c:45-68: the tree as an association list
    (PropCore.v proves that the hash tree behaves as a finite map).  A repeated name is
    refused by kefir_hashtree_insert. *)
Definition argtree := list (string * list tok).
Fixpoint build_tree (ps : list string) (args : list (list tok)) (vararg : bool) : option argtree :=
  match ps, args with
  | [], a :: _ => Some (if vararg then [("__VA_ARGS__", a)] else [])
  | [], [] => if vararg then None else Some []
  | p :: ps, a :: args => option_map (cons (p, a)) (build_tree ps args vararg)
  | _ :: _, [] => None
  end.
Fixpoint has_key (t : argtree) (s : string) : bool :=
  match t with [] => false | (k, _) :: r => String.eqb k s || has_key r s end.
Fixpoint distinct (t : argtree) : bool :=
  match t with [] => true | (k, _) :: r => negb (has_key r k) && distinct r end.
Fixpoint look (t : argtree) (s : string) : option (list tok) :=
  match t with [] => None | (k, a) :: r => if String.eqb k s then Some a else look r s end.

(** [None] is the null arg_tree of an object-like macro. *)
Definition param (t : option argtree) (x : tok) : option (list tok) :=
  match t, x with Some t, TId s _ => look t s | _, _ => None end.

(** concat_tokens_impl, user_macro.c:203-234: the texts are joined, the class is that of
    the left operand. *)
Definition concat_texts (mk : string -> tok) (l : string) (right : tok) : option tok :=
  match right with
  | TId r _ => Some (mk (l ++ r)%string)
  | TNum r => Some (mk (l ++ r)%string)
  | _ => None
  end.

(** macro_concatenation_impl, user_macro.c:302-387; [None] is an error.
    macro_concat_punctuators (:236-286) is in LexModel.v. *)
Definition concat_impl (left right : tok) : option tok :=
  match left, right with
  | TPlace, _ => Some right
  | _, TPlace => Some left
  | TId l _, _ => concat_texts (fun s => TId s false) l right
  | TNum l, _ => concat_texts TNum l right
  | TPunct p, TPunct q => option_map TPunct (concat_punctuators p q)
  | _, _ => None
  end.

(** concat_resolve_left_argument, user_macro.c:129-159: the tokens before the operand, and
    the operand. *)
Definition resolve_left (t : option argtree) (x : tok) : list tok * tok :=
  match param t x with
  | Some [] => ([], TPlace)
  | Some (a :: l) => (removelast (a :: l), last (a :: l) TPlace)
  | None => ([], x)
  end.
(** concat_resolve_right_argument, user_macro.c:161-191 *)
Definition resolve_right (t : option argtree) (x : tok) : tok * list tok :=
  match param t x with
  | Some [] => (TPlace, [])
  | Some (a :: l) => (a, l)
  | None => (x, [])
  end.

(** macro_concatenation, user_macro.c:389-406 *)
Definition macro_concatenation (t : option argtree) (x y : tok) : option (list tok) :=
  let (before, left) := resolve_left t x in
  let (right, after) := resolve_right t y in
  option_map (fun v => before ++ [v] ++ after) (concat_impl left right).

(** match_concatenation, user_macro.c:408-456: [None] is KEFIR_NO_MATCH, with the sequence
    restored; [Some None] an error; otherwise the sequence that is left. *)
Definition match_concatenation (t : option argtree) (left : tok) (seq : list tok) : option (option (list tok)) :=
  if is_ws left then None else
  match skip_ws seq with
  | TPunct P_DOUBLE_HASH :: r =>
    match skip_ws r with
    | [] => Some None
    | rhs :: r => Some (option_map (fun res => res ++ r) (macro_concatenation t left rhs))
    end
  | _ => None
  end.

(** run_replacement_list_substitutions_impl, user_macro.c:458-517.
    fn_macro_parameter_substitution is :70-91, fn_macro_parameter_stringification
    :93-125. *)
Fixpoint replace (fuel : nat) (t : option argtree) (seq : list tok) : outcome (list tok) :=
  match fuel with
  | O => Fuel
  | S fuel =>
    match seq with
    | [] => Ok []
    | x :: seq =>
      match match_concatenation t x seq with
      | Some None => Err
      | Some (Some seq) => replace fuel t seq
      | None =>
        match param t x with
        | Some a => bind (replace fuel t seq) (fun r => Ok (a ++ r))
        | None =>
          match t, x with
          | Some t', TPunct P_HASH =>
            match skip_ws seq with
            | TId s _ :: seq =>
              match look t' s with
              | Some a => bind (replace fuel t seq) (fun r => Ok (TStr (fmt a) :: r))
              | None => Err
              end
            | _ => Err
            end
          | _, _ => bind (replace fuel t seq) (fun r => Ok (x :: r))
          end
        end
      end
    end
  end.

(** The loop of user_macro_apply, user_macro.c:607-622: the macro's own name is marked, and
    placemakers are dropped. *)
Definition mark (name : string) (t : tok) : tok :=
  match t with TId s b => TId s (if String.eqb s name then true else b) | _ => t end.
Definition not_place (t : tok) : bool := match t with TPlace => false | _ => true end.
Definition finish (name : string) (l : list tok) : list tok := filter not_place (map (mark name) l).

(** user_macro_apply, user_macro.c:581-625, with apply_object_macro :575-579 *)
Definition apply_object (fuel : nat) (name : string) (body : list tok) : outcome (list tok) :=
  bind (replace fuel None body) (fun l => Ok (finish name l)).
(** apply_function_macro, user_macro.c:555-573 *)
Definition apply_function (fuel : nat) (name : string) (ps : list string) (vararg : bool) (body : list tok)
    (args : list (list tok)) : outcome (list tok) :=
  match build_tree ps args vararg with
  | Some t => if distinct t then bind (replace fuel (Some t) body) (fun l => Ok (finish name l)) else Err
  | None => Err
  end.

(** *** Arguments, substitutions.c:43-174 *)

(** function_macro_argument_buffer_append, substitutions.c:56-80.  The last argument comes
    first in [args]. *)
Definition append_arg (args : list (list tok)) (t : tok) : list (list tok) :=
  match args with [] => [[t]] | a :: r => (a ++ [t]) :: r end.

(** The loop of scan_function_macro_arguments, substitutions.c:119-157; the result is the
    arguments and the sequence after the right parenthesis. *)
Fixpoint scan_loop (seq : list tok) (fresh : bool) (nested rem : nat) (vararg : bool) (args : list (list tok))
    : option (list (list tok) * list tok) :=
  match seq with
  | [] => None
  | t :: r =>
    if fresh && is_ws t then scan_loop r true nested rem vararg args else
    match t with
    | TPunct P_LEFT_PARENTHESE => scan_loop r false (S nested) rem vararg (append_arg args t)
    | TPunct P_RIGHT_PARENTHESE =>
      match nested with
      | S n => scan_loop r false n rem vararg (append_arg args t)
      | O => Some (args, r)
      end
    | TPunct P_COMMA =>
      match nested with
      | S _ => scan_loop r false nested rem vararg (append_arg args t)
      | O =>
        match rem with
        | O => if vararg then scan_loop r false nested rem vararg (append_arg args t) else None
        | S rem' =>
          if negb (Nat.eqb rem' 0) || vararg then
            let args := match args with [] => [[]] | _ => args end in
            scan_loop r true nested rem' vararg ([] :: args)
          else None
        end
      end
    | TSentinel => None
    | _ => scan_loop r false nested rem vararg (append_arg args t)
    end
  end.

(** scan_function_macro_arguments, substitutions.c:108-168, up to the expansion of the
    arguments. *)
Definition scan_args (seq : list tok) (argc : nat) (vararg : bool) : option (list (list tok) * list tok) :=
  match scan_loop seq true 0 argc vararg [] with
  | None => None
  | Some (args, r) =>
    let args := match args with [] => if Nat.eqb argc 1 || vararg then [[]] else [] | _ => rev args end in
    if Nat.eqb (List.length args) (argc + if vararg then 1 else 0) then Some (args, r) else None
  end.

(** prepare_function_macro_argument, substitutions.c:99-106: white space at the end goes. *)
Fixpoint strip (l : list tok) : list tok :=
  match l with
  | [] => []
  | t :: r => match strip r with [] => if is_ws t then [] else [t] | r' => t :: r' end
  end.

Fixpoint mapM {A B} (f : A -> outcome B) (l : list A) : outcome (list B) :=
  match l with
  | [] => Ok []
  | x :: r => bind (f x) (fun y => bind (mapM f r) (fun ys => Ok (y :: ys)))
  end.

(** *** _Pragma, substitutions.c:391-450 *)
(** run_pragma_operator, :391-418 *)
Definition pragma_operator (seq : list tok) : option (list tok) :=
  match skip_ws seq with
  | TPunct P_LEFT_PARENTHESE :: r =>
    match skip_ws r with
    | TStr _ :: r =>
      match skip_ws r with TPunct P_RIGHT_PARENTHESE :: r => Some r | _ => None end
    | _ => None
    end
  | _ => None
  end.
(** The second loop of run_substitutions_impl, :427-448.  The fuel is the length. *)
Fixpoint pragmas (n : nat) (l : list tok) : outcome (list tok) :=
  match n, l with
  | _, [] => Ok []
  | O, _ => Fuel
  | S n, t :: r =>
    match t with
    | TId s _ => if String.eqb s "_Pragma" then match pragma_operator r with Some r => pragmas n r | None => Err end
                 else bind (pragmas n r) (fun r => Ok (t :: r))
    | _ => bind (pragmas n r) (fun r => Ok (t :: r))
    end
  end.

(** *** Expansion, substitutions.c *)

Variable defs : list (string * macro).
Fixpoint locate_in (l : list (string * macro)) (s : string) : option macro :=
  match l with [] => None | (k, m) :: r => if String.eqb k s then Some m else locate_in r s end.
Definition locate (s : string) : option macro := locate_in defs s.
Definition is_macro (s : string) : bool := match locate s with Some _ => true | None => false end.

(** substitute_defined_operator, substitutions.c:279-331: the sequence after it, with the
    number pushed. *)
Definition defined_operator (seq : list tok) : option (list tok) :=
  let number s r := TNum (if is_macro s then "1" else "0") :: r in
  match skip_ws seq with
  | TId s _ :: r => Some (number s r)
  | TPunct P_LEFT_PARENTHESE :: r =>
    match skip_ws r with
    | TId s _ :: r =>
      match skip_ws r with TPunct P_RIGHT_PARENTHESE :: r => Some (number s r) | _ => None end
    | _ => None
    end
  | _ => None
  end.

(** run_substitutions, substitutions.c:357-389, with substitute_identifier :333-355,
    substitute_object_macro :27-41, substitute_function_macro :213-240,
    substitute_function_macro_impl :192-211, substitute_unknown_identifier :269-277.
    [cond] is KEFIR_PREPROCESSOR_SUBSTITUTION_IF_CONDITION.  The fuel bounds the number of
    iterations and the depth of the calls. *)
Fixpoint run (fuel : nat) (cond : bool) (seq : list tok) : outcome (list tok) :=
  match fuel with
  | O => Fuel
  | S fuel =>
    match seq with
    | [] => Ok []
    | t :: r =>
      let emit := bind (run fuel cond r) (fun res => Ok (t :: res)) in
      match t with
      | TId s skip =>
        if negb skip || cond then
          if String.eqb s "defined" && cond then
            match defined_operator r with Some r => run fuel cond r | None => Err end
          else
            match locate s with
            | None => if cond then run fuel cond (TNum "0" :: r) else emit
            | Some (MObj body) =>
              bind (apply_object fuel s body) (fun l => run fuel cond (l ++ r))
            | Some (MFun ps vararg body) =>
              match skip_ws r with
              | TPunct P_LEFT_PARENTHESE :: r =>
                match scan_args r (List.length ps) vararg with
                | None => Err
                | Some (args, r) =>
                  (* kefir_preprocessor_run_substitutions of each argument *)
                  bind (mapM (fun a => bind (run fuel false a) (fun l => pragmas (List.length l) l)) args) (fun args =>
                  bind (apply_function fuel s ps vararg body (map strip args)) (fun l => run fuel cond (l ++ r)))
                end
              | _ => emit
              end
            end
        else emit
      | _ => emit
      end
    end
  end.

(** kefir_preprocessor_run_substitutions, substitutions.c:452-468, and
    run_substitutions_impl :420-450 *)
Definition run_substitutions (fuel : nat) (cond : bool) (l : list tok) : outcome (list tok) :=
  bind (run fuel cond l) (fun r => pragmas (List.length r) r).

End Macro.
