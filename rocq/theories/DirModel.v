(** Model of the directive scanner of the preprocessor, source/preprocessor/directives.c:
    the recognition of directives, the reading of their operands, of macro definitions
    and of the tokens of text lines.

    The recognition (kefir_preprocessor_directive_scanner_match, skip_line,
    skip_whitespaces_until) is [CondModel.match_directive], [skip_line] and [skip_ws];
    the tokenizer is [TokModel.next_token].  The state of the scanner is the text behind
    the cursor and newline_flag.  Source locations, memory and the interning of names
    are not modelled; neither is kefir_preprocessor_skip_group, which is in C10. *)

From Coq Require Import ZArith Bool List String.
From Verif Require Import LexModel StrModel TokModel.
From Verif Require CondModel.
Import ListNotations.
Open Scope Z_scope.

(** struct kefir_preprocessor_directive, headers/kefir/preprocessor/directives.h.  The
    parameters of a function-like macro: their names, and whether there is an ellipsis. *)
Inductive directive :=
  | DvIf (condition : list ptok) | DvElif (condition : list ptok)
  | DvIfdef (inverse : bool) (name : list Z) | DvElse | DvEndif
  | DvHeader (system : bool) (name : list Z) | DvInclude (tokens : list ptok)
  | DvDefine (name : list Z) (parameters : option (list (list Z) * bool)) (replacement : list ptok)
  | DvUndef (name : list Z) | DvError (tokens : list ptok) | DvLine (tokens : list ptok)
  | DvEmpty | DvNon (tokens : list ptok) | DvToken (t : ptok) | DvEnd.

(** skip_whitespaces, directives.c:82-95: the next token that is not white space within
    a line *)
Fixpoint skip_white (fuel : nat) (s : list Z) : res (ptok * list Z) :=
  match fuel with
  | O => Error
  | S fuel =>
    bind (next_token s) (fun p =>
    match fst p with
    | TkSpace false => skip_white fuel (snd p)
    | _ => Ok p
    end)
  end.
Definition skip_whitespaces (s : list Z) : res (ptok * list Z) := skip_white (S (List.length s)) s.

(** scan_pp_tokens, directives.c:97-115 *)
Fixpoint scan_tokens (fuel : nat) (s : list Z) : res (list ptok * list Z) :=
  match fuel with
  | O => Error
  | S fuel =>
    bind (next_token s) (fun p =>
    match fst p with
    | TkEnd | TkSpace true => Ok ([], snd p)
    | t => bind (scan_tokens fuel (snd p)) (fun q => Ok (t :: fst q, snd q))
    end)
  end.
Definition scan_pp_tokens (s : list Z) : res (list ptok * list Z) := scan_tokens (S (List.length s)) s.

(** The end of next_ifdef, directives.c:221-240, and of next_undef, :424-443: a name, and
    the rest of the line is skipped *)
Definition name_then_skip (s : list Z) : res (list Z * list Z) :=
  bind (skip_whitespaces s) (fun p =>
  match fst p with
  | TkName n => Ok (n, CondModel.skip_line (snd p))
  | _ => Error
  end).

(** next_include, directives.c:256-295 *)
Definition next_include (s : list Z) : res (directive * list Z) :=
  let s' := CondModel.skip_ws s in
  match match_header s' with
  | Ok (system, n, r) => Ok (DvHeader system n, CondModel.skip_line r)
  | NoMatch => bind (scan_pp_tokens s') (fun q => Ok (DvInclude (fst q), snd q))
  | Error => Error
  | Overrun => Overrun
  end.

(** The loop of next_define_replacement_list, directives.c:306-322; [t] is the token in
    hand *)
Fixpoint replacement_loop (fuel : nat) (t : ptok) (s : list Z) : res (list ptok * list Z) :=
  match fuel with
  | O => Error
  | S fuel =>
    match t with
    | TkEnd | TkSpace true => Ok ([], s)
    | _ => bind (next_token s) (fun p =>
           bind (replacement_loop fuel (fst p) (snd p)) (fun q => Ok (t :: fst q, snd q)))
    end
  end.
Definition is_space_token (t : ptok) : bool := match t with TkSpace _ => true | _ => false end.
(** directives.c:328-340, from the end of the list *)
Fixpoint drop_spaces (l : list ptok) : list ptok :=
  match l with
  | [] => []
  | t :: r => if is_space_token t then drop_spaces r else l
  end.
(** next_define_replacement_list, directives.c:297-343 *)
Definition next_replacement (t : ptok) (s : list Z) : res (list ptok * list Z) :=
  bind (match t with TkSpace false => skip_whitespaces s | _ => Ok (t, s) end) (fun p =>
  bind (replacement_loop (S (S (List.length s))) (fst p) (snd p)) (fun q =>
  Ok (rev (drop_spaces (rev (fst q))), snd q))).

(** The loop of scan_define_parameters, directives.c:348-377: the parameters, whether
    there is an ellipsis, the token in hand *)
Fixpoint parameter_loop (fuel : nat) (acc : list (list Z)) (s : list Z) : res (list (list Z) * bool * ptok * list Z) :=
  match fuel with
  | O => Error
  | S fuel =>
    bind (skip_whitespaces s) (fun p =>
    match fst p with
    | TkName n =>
      bind (skip_whitespaces (snd p)) (fun q =>
      match fst q with
      | TkPunct P_RIGHT_PARENTHESE => Ok (acc ++ [n], false, fst q, snd q)
      | TkPunct P_COMMA => parameter_loop fuel (acc ++ [n]) (snd q)
      | _ => Error
      end)
    | TkPunct P_ELLIPSIS => Ok (acc, true, fst p, snd p)
    | TkPunct P_RIGHT_PARENTHESE => Ok (acc, false, fst p, snd p)
    | _ => Error
    end)
  end.
(** scan_define_parameters, directives.c:344-385 *)
Definition scan_parameters (s : list Z) : res (list (list Z) * bool * ptok * list Z) :=
  bind (parameter_loop (S (List.length s)) [] s) (fun x =>
  let '(names, vararg, t, r) := x in
  bind (match t with TkPunct P_RIGHT_PARENTHESE => Ok (t, r) | _ => skip_whitespaces r end) (fun p =>
  match fst p with
  | TkPunct P_RIGHT_PARENTHESE => bind (skip_whitespaces (snd p)) (fun q => Ok (names, vararg, fst q, snd q))
  | _ => Error
  end)).

(** next_define, directives.c:401-422, with next_define_function, :387-399 *)
Definition next_define (s : list Z) : res (directive * list Z) :=
  bind (skip_whitespaces s) (fun p =>
  match fst p with
  | TkName n =>
    bind (next_token (snd p)) (fun q =>
    match fst q with
    | TkPunct P_LEFT_PARENTHESE =>
      bind (scan_parameters (snd q)) (fun x =>
      let '(names, vararg, t, r) := x in
      bind (next_replacement t r) (fun y => Ok (DvDefine n (Some (names, vararg)) (fst y), snd y)))
    | _ => bind (next_replacement (fst q) (snd q)) (fun y => Ok (DvDefine n None (fst y), snd y))
    end)
  | _ => Error
  end).

(** next_error and next_line, directives.c:445-458, 475-488 *)
Definition operands (mk : list ptok -> directive) (s : list Z) : res (directive * list Z) :=
  bind (scan_pp_tokens s) (fun q => Ok (mk (fst q), snd q)).

(** next_pp_token, directives.c:504-518: the directive, newline_flag, the cursor *)
Definition next_pp_token (s : list Z) : res (directive * bool * list Z) :=
  bind (next_token s) (fun p =>
  match fst p with
  | TkEnd => Ok (DvEnd, true, snd p)
  | TkSpace b => Ok (DvToken (fst p), b, snd p)
  | _ => Ok (DvToken (fst p), false, snd p)
  end).

Definition at_newline (x : res (directive * list Z)) : res (directive * bool * list Z) :=
  bind x (fun p => Ok (fst p, true, snd p)).

(** kefir_preprocessor_directive_scanner_next, directives.c:520-606 *)
Definition scan_next (newline_flag : bool) (s : list Z) : res (directive * bool * list Z) :=
  if newline_flag then
    let (d, r) := CondModel.match_directive s in
    match d with
    | CondModel.DIf => at_newline (operands DvIf r)
    | CondModel.DIfdef => at_newline (bind (name_then_skip r) (fun p => Ok (DvIfdef false (fst p), snd p)))
    | CondModel.DIfndef => at_newline (bind (name_then_skip r) (fun p => Ok (DvIfdef true (fst p), snd p)))
    | CondModel.DElif => at_newline (operands DvElif r)
    | CondModel.DElse => Ok (DvElse, true, CondModel.skip_line r)
    | CondModel.DEndif => Ok (DvEndif, true, CondModel.skip_line r)
    | CondModel.DInclude => at_newline (next_include r)
    | CondModel.DDefine => at_newline (next_define r)
    | CondModel.DUndef => at_newline (bind (name_then_skip r) (fun p => Ok (DvUndef (fst p), snd p)))
    | CondModel.DError => at_newline (operands DvError (CondModel.skip_ws r))
    | CondModel.DLine => at_newline (operands DvLine (CondModel.skip_ws r))
    | CondModel.DEmpty => Ok (DvEmpty, true, r)
    | CondModel.DNon => at_newline (operands DvNon r)
    | CondModel.DPpToken => next_pp_token r
    | CondModel.DSentinel => Ok (DvEnd, true, r)
    end
  else next_pp_token s.

(** A caller that reads the directives to the end of the file, no group being skipped. *)
Fixpoint scan_all (fuel : nat) (newline_flag : bool) (s : list Z) : res (list directive) :=
  match fuel with
  | O => Error
  | S fuel =>
    bind (scan_next newline_flag s) (fun p =>
    let '(d, f, r) := p in
    match d with
    | DvEnd => Ok []
    | _ => bind (scan_all fuel f r) (fun l => Ok (d :: l))
    end)
  end.
(** kefir_preprocessor_directive_scanner_init, directives.c:29-38 *)
Definition scan_file (s : list Z) : res (list directive) := scan_all (S (List.length s)) true s.
