(** Conditional inclusion: the directive scanner and the group loop of the preprocessor. *)
(* Modelled:
   source/preprocessor/directives.c: skip_line 66-81, skip_whitespaces_until 119-126,
   directive_scanner_match 128-198, directive_scanner_next 520-600;
   source/preprocessor/preprocessor.c: skip_group 171-233, process_if 387-400, process_elif 402-426,
   flush_group_buffer 474-481, run_directive 483-595, run_group_impl 597-620, run_group 622-638, run 649-689.

   The source is the character list behind the cursor (line splices already removed, see LexModel);
   the end of the list and a NUL character both read as U'\0' (source_cursor.c).

   Simplified: the tokens of a line are taken together, so a text line is one item of the group
   buffer and the operands of a directive are the characters up to the newline. This is what the
   tokenizer delivers unless a comment spans lines. Tokenization, macro substitution, evaluation of
   conditions and the work of #define/#undef/#include are parameters. *)
From Coq Require Import ZArith List Bool Lia String.
From Verif Require Import LexModel.
Import ListNotations.
Open Scope Z_scope.

(** enum kefir_preprocessor_directive_type, headers/kefir/preprocessor/directives.h. PRAGMA is never
    produced by the scanner: it is missing from KnownDirectives (directives.c 174-182). *)
Inductive dtype :=
| DIf | DIfdef | DIfndef | DElif | DElse | DEndif | DInclude | DDefine | DUndef | DError | DLine
| DEmpty | DNon | DPpToken | DSentinel.

(** source/util/char32.c 33-47 *)
Definition is_space (c : Z) : bool :=
  (c =? 32) || (c =? 12) || (c =? 11) || (c =? 9) || (c =? 10) || (c =? 13).

(** source/util/char32.c 105-167 *)
Definition is_nondigit (c : Z) : bool :=
  (c =? 95) || ((97 <=? c) && (c <=? 122)) || ((65 <=? c) && (c <=? 90)).

(** directives.c 119-126, with the newline as terminator *)
Fixpoint skip_ws (l : list Z) : list Z :=
  match l with
  | [] => []
  | c :: r => if is_space c && negb (c =? newline) then skip_ws r else l
  end.

(** directives.c 66-81 *)
Fixpoint skip_line (l : list Z) : list Z :=
  match l with
  | [] => []
  | c :: r => if c =? 0 then l else if c =? newline then r else skip_line r
  end.

(** The characters skip_line drops, without the newline. *)
Fixpoint take_line (l : list Z) : list Z :=
  match l with
  | [] => []
  | c :: r => if (c =? 0) || (c =? newline) then [] else c :: take_line r
  end.

(** directives.c 164-172: at most MAX_DIRECTIVE_NAME - 1 characters *)
Fixpoint scan_name (n : nat) (l : list Z) : list Z * list Z :=
  match n, l with
  | S n', c :: r => if is_nondigit c then let (w, r') := scan_name n' r in (c :: w, r') else ([], l)
  | _, _ => ([], l)
  end.

(** directives.c 174-182 *)
Definition known : list (list Z * dtype) := [
  (text "if", DIf); (text "ifdef", DIfdef); (text "ifndef", DIfndef); (text "elif", DElif);
  (text "else", DElse); (text "endif", DEndif); (text "include", DInclude); (text "define", DDefine);
  (text "undef", DUndef); (text "error", DError); (text "line", DLine)].

Fixpoint same_text (a b : list Z) : bool :=
  match a, b with
  | [], [] => true
  | x :: a', y :: b' => (x =? y) && same_text a' b'
  | _, _ => false
  end.

(** directives.c 183-189 *)
Fixpoint find_known (l : list (list Z * dtype)) (w : list Z) : option dtype :=
  match l with
  | [] => None
  | (k, d) :: r => if same_text k w then Some d else find_known r w
  end.

(** directives.c 128-198: the directive at the cursor and the cursor afterwards *)
Definition match_directive (l : list Z) : dtype * list Z :=
  match skip_ws l with
  | [] => (DSentinel, [])
  | c :: r =>
    if c =? 0 then (DSentinel, c :: r)
    else if negb (c =? 35) then (DPpToken, l)
    else
      let b := skip_ws r in
      if char_at b 0 =? newline then (DEmpty, b)
      else
        let (w, rest) := scan_name 63 b in
        match find_known known w with
        | Some d => (d, rest)
        | None => (DNon, c :: r)
        end
  end.

Inductive outcome (A : Type) := Done (a : A) | Fail | NoFuel.
Arguments Done {A} a. Arguments Fail {A}. Arguments NoFuel {A}.

Definition bindO {A B} (x : outcome A) (f : A -> outcome B) : outcome B :=
  match x with Done a => f a | Fail => Fail | NoFuel => NoFuel end.

(** preprocessor.c 171-233. A nested #elif or #else is left in the middle of its line. *)
Fixpoint skip_group (fuel : nat) (nested : nat) (l : list Z) : outcome (list Z) :=
  match fuel with
  | O => NoFuel
  | S f =>
    let (d, r) := match_directive l in
    match d with
    | DIf | DIfdef | DIfndef => skip_group f (S nested) (skip_line r)
    | DElif | DElse => match nested with O => Done l | S _ => skip_group f nested r end
    | DEndif => match nested with O => Done l | S n => skip_group f n (skip_line r) end
    | DSentinel => Done r
    | _ => skip_group f nested (skip_line r)
    end
  end.

(** enum if_condition_state, preprocessor.c 235 *)
Inductive cstate := CNone | CSuccess | CFail.

Section Run.
(** [M] the macro scope, [Out] what ends up in the output buffer. *)
Variables M Out : Type.
(** What one text line becomes when the group buffer is substituted in scope [m]
    (flush_group_buffer, preprocessor.c 474-481). *)
Variable txt : M -> list Z -> Out.
(** evaluate_pp_tokens on the operands of #if/#elif, preprocessor.c 329-385 *)
Variable eval : M -> list Z -> option bool.
(** next_ifdef (directives.c 228-246) and the macro lookup of preprocessor.c 489-491 *)
Variable defd : M -> list Z -> option bool.
(** process_include, process_define, process_undef, preprocessor.c 237-327 *)
Variable step : M -> dtype -> list Z -> option (M * list Out).
(** process_line, preprocessor.c 439-472: sets the location, which is no part of [M] *)
Variable line_ok : M -> list Z -> bool.

(** What was evaluated or executed, in order. *)
Inductive event := Asked (m : M) (d : dtype) (operands : list Z) | Did (m : M) (d : dtype) (operands : list Z).

Definition pstate : Type := list Z * M * list Out * list event.

(** flush_group_buffer, preprocessor.c 474-481 *)
Definition flush (m : M) (out : list Out) (gb : list (list Z)) : list Out := out ++ map (txt m) gb.

(** run_group_impl 597-620 with run_directive 483-595, process_if 387-400, process_elif 402-426.
    [gb] is group_buffer, [out] buffer. *)
Fixpoint group (fuel : nat) (cs : cstate) (gb : list (list Z)) (src : list Z) (m : M) (out : list Out)
    (log : list event) : outcome pstate :=
  match fuel with
  | O => NoFuel
  | S f =>
    let (d, r) := match_directive src in
    let ops := take_line r in
    let next := skip_line r in
    (* restore the scanner, leave the loop and flush *)
    let stop s := Done (s, m, flush m out gb, log) in
    (* run_group on the group that follows, then go on with this loop *)
    let taken lg :=
      bindO (group f CNone [] next m (flush m out gb) lg)
        (fun p => match p with (s, m', out', lg') => group f CSuccess [] s m' out' lg' end) in
    let skipped c gb' out' lg :=
      bindO (skip_group (S (List.length next)) 0 next) (fun s => group f c gb' s m out' lg) in
    match d with
    | DIfdef | DIfndef =>
      match defd m ops with
      | None => Fail
      | Some b =>
        let lg := log ++ [Asked m d ops] in
        if (match d with DIfndef => negb b | _ => b end) then taken lg else skipped CFail gb out lg
      end
    | DEndif => match cs with CNone => stop src | _ => group f CNone gb next m out log end
    | DElse =>
      match cs with
      | CNone => stop src
      | CFail => taken log
      | CSuccess => skipped CSuccess gb out log
      end
    | DIf =>
      match eval m ops with
      | None => Fail
      | Some b =>
        let lg := log ++ [Asked m d ops] in
        if b then taken lg else skipped CFail [] (flush m out gb) lg
      end
    | DElif =>
      match cs with
      | CNone => stop src
      | CFail =>
        match eval m ops with
        | None => Fail
        | Some b =>
          let lg := log ++ [Asked m d ops] in
          if b then taken lg else skipped CFail [] (flush m out gb) lg
        end
      | CSuccess => skipped CSuccess [] (flush m out gb) log
      end
    | DInclude | DDefine | DUndef =>
      match step m d ops with
      | None => Fail
      | Some (m', o) => group f cs [] next m' (flush m out gb ++ o) (log ++ [Did m d ops])
      end
    | DError => Fail
    | DLine => if line_ok m ops then group f cs gb next m out (log ++ [Did m d ops]) else Fail
    | DEmpty => group f cs gb r m out log
    | DNon => group f cs gb next m out log
    | DPpToken => group f cs (gb ++ [ops]) next m out log
    | DSentinel => stop r
    end
  end.

(** kefir_preprocessor_run, preprocessor.c 649-689: after the group only the end may follow. *)
Definition run (src : list Z) (m : M) : outcome (M * list Out * list event) :=
  bindO (group (S (List.length src)) CNone [] src m [] [])
    (fun p => match p with (s, m', out, lg) =>
       match fst (match_directive s) with DSentinel => Done (m', out, lg) | _ => Fail end end).
End Run.
Arguments Asked {M} m d operands. Arguments Did {M} m d operands.
