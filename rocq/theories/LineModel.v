(** Model of the directive #line: process_line, source/preprocessor/preprocessor.c:438-473, and the
    line number that the cursor counts, source/lexer/source_cursor.c:87-142.

    The directive is read by [DirModel.scan_next].  The text is the one after the deletion of
    spliced lines (C06), so that only the lines without splices are counted here (C43 is about the
    lines of a file without #line).  The macro replacement of the operands (C11, C46) is not
    repeated: [process_line] starts with the tokens it leaves.  Columns, allocation failures and the
    interning of the file name are left out. *)

From Coq Require Import ZArith Bool List.
From Verif Require Import LexModel StrModel TokModel DirModel.
Import ListNotations.
Open Scope Z_scope.

(** struct kefir_source_location, headers/kefir/core/source_location.h:29-33 *)
Record location := { source : list Z; line : Z }.
(** kefir_source_location_line_t is an unsigned int, source_location.h:26 *)
Definition wrap32 (z : Z) : Z := z mod 2 ^ 32.

(** strtoul(s, &end, 10) for a text that begins neither with white space nor with a sign (a
    preprocessing number begins with a digit or a period): the value, and the text from [end] on *)
Definition ulong_max : Z := 2 ^ 64 - 1.
Fixpoint strtoul_loop (acc : Z) (s : list Z) : Z * list Z :=
  match s with
  | c :: r => if is_digit c then strtoul_loop (10 * acc + (c - 48)) r else (acc, s)
  | [] => (acc, [])
  end.
Definition strtoul (s : list Z) : Z * list Z :=
  let (v, r) := strtoul_loop 0 s in (Z.min v ulong_max, r).

(** A string as C reads it: up to the null character *)
Fixpoint c_string (s : list Z) : list Z :=
  match s with
  | c :: r => if c =? 0 then [] else c :: c_string r
  | [] => []
  end.

(** The loop over the tokens behind the number, preprocessor.c:456-467: it ends at the file name *)
Fixpoint file_name (l : list ptok) : res (option (list Z)) :=
  match l with
  | [] => Ok None
  | TkSpace _ :: r => file_name r
  | TkString t :: _ => if mode_eqb (s_mode t) Multibyte then Ok (Some (c_string (s_bytes t))) else Error
  | _ :: _ => Error
  end.

(** process_line, preprocessor.c:442-472 *)
Definition process_line (l : list ptok) (here : location) : res location :=
  match l with
  | TkNumber n :: r =>
      let (v, rest) := strtoul n in
      match rest with
      | [] => bind (file_name r) (fun f =>
          Ok {| source := match f with Some f => f | None => source here end; line := wrap32 v |})
      | _ => Error
      end
  | _ => Error
  end.

(** A directive #line without macros: the location and the text behind it.  No result if the text
    does not begin with this directive. *)
Definition run_line (here : location) (s : list Z) : option (res (location * list Z)) :=
  match scan_next true s with
  | Ok (DvLine l, _, r) => Some (bind (process_line l here) (fun h => Ok (h, r)))
  | _ => None
  end.

(** next_impl, source_cursor.c:87-142 *)
Fixpoint advance (here : location) (s : list Z) (count : nat) : location :=
  match count, s with
  | S n, c :: r =>
      advance (if c =? newline then {| source := source here; line := wrap32 (line here + 1) |} else here) r n
  | _, _ => here
  end.
