(** #include: where the file is looked for and how it is read into the including file.
    Modelled: source/cli/filesystem_source.c 49-159, source/cli/input.c 32-73 (the outcome for a path),
    source/preprocessor/preprocessor.c 233-285.  The operating system's realpath, access, open and mmap are a
    parameter ([fs]); the macro scope, text lines and conditions are those of CondModel. Not modelled: failing
    allocations, standard input, __FILE__ and __LINE__ (nothing a line expands to depends on the file), the
    virtual locator used by the tests (virtual_source_file.c). *)
From Coq Require Import ZArith List Bool String.
From Verif Require Import LexModel CondModel.
Import ListNotations.
Open Scope Z_scope.

Definition path := list Z.
Definition slash : Z := 47.

(** What realpath(3) gives for a path: the canonical path, ENOENT, or another error. *)
Inductive resolved := RPath (p : path) | RNoEnt | RError.

(** realpath; access(p, R_OK) == 0; the bytes of the file if open, fstat and mmap succeed (input.c 38-54; a
    directory opens but cannot be mapped). *)
Record fs := { real : path -> resolved; readable : path -> bool; content : path -> option (list Z) }.

(** KEFIR_OK, KEFIR_NOT_FOUND, any other error *)
Inductive opened := Opened (p : path) (c : list Z) | NotFound | Failed.

(** filesystem_source.c 49-80 *)
Definition open_file (F : fs) (p : path) : opened :=
  if readable F p then match content F p with Some c => Opened p c | None => Failed end else NotFound.

(** filesystem_source.c 82-111: root (if any), '/', the path; realpath; open. *)
Definition try_open_file (F : fs) (root : option path) (f : path) : opened :=
  let p := match root with Some r => r ++ [slash] ++ f | None => f end in
  match real F p with
  | RNoEnt => NotFound
  | RError => Failed
  | RPath q => match open_file F q with NotFound => NotFound | r => r end
  end.

(** dirname(3), used at filesystem_source.c 127 *)
Fixpoint strip (r : list Z) : list Z :=
  match r with c :: r' => if c =? slash then strip r' else r | [] => [] end.
Fixpoint component (r : list Z) : list Z :=
  match r with c :: r' => if c =? slash then r else component r' | [] => [] end.
Definition dirname (p : path) : path :=
  match p with
  | [] => text "."
  | _ => match strip (rev p) with
         | [] => [slash]
         | r => match component r with
                | [] => text "."
                | r' => match strip r' with [] => [slash] | d => rev d end
                end
         end
  end.

(** filesystem_source.c 142-151: the include directories in order *)
Fixpoint try_roots (F : fs) (roots : list path) (f : path) : opened :=
  match roots with
  | [] => NotFound
  | r :: roots' => match try_open_file F (Some r) f with NotFound => try_roots F roots' f | x => x end
  end.

(** filesystem_source.c 113-159 *)
Definition open_source (F : fs) (roots : list path) (f : path) (system : bool) (current : option path) : opened :=
  let rest := match try_roots F roots f with
              | NotFound => match try_open_file F None f with NotFound => NotFound | x => x end
              | x => x
              end in
  match current with
  | Some cur => if system then rest
                else match try_open_file F (Some (dirname cur)) f with NotFound => rest | x => x end
  | None => rest
  end.

(** The tokens of the directive after substitution, as far as process_include looks at them. *)
Inductive itoken :=
| HeaderName (system : bool) (name : path)
| StringLiteral (multibyte : bool) (value : path)
| OtherToken.

(** preprocessor.c 238-252: only the first token is looked at. *)
Definition include_path (l : list itoken) : option (path * bool) :=
  match l with
  | HeaderName s f :: _ => Some (f, s)
  | StringLiteral true f :: _ => Some (f, false)
  | _ => None
  end.

Section Run.
Variables M Out : Type.
Variable txt : M -> list Z -> Out.
Variable eval : M -> list Z -> option bool.
Variable defd : M -> list Z -> option bool.
Variable line_ok : M -> list Z -> bool.
Variable define : M -> dtype -> list Z -> option (M * list Out).   (* #define and #undef *)
Variable tokens : M -> list Z -> option (list itoken).              (* the operands, substituted *)
Variable F : fs.
Variable roots : list path.

(** preprocessor.c 233-285: a second preprocessor, with the same macro scope, is run on the file; its tokens are
    appended to the buffer (without the sentinel).  [sub] runs it. *)
Definition process_include (current : option path)
    (sub : path -> list Z -> M -> outcome (M * list Out * list (event M))) (m : M) (ops : list Z)
    : option (M * list Out) :=
  match tokens m ops with
  | None => None
  | Some l =>
    match include_path l with
    | None => None
    | Some (f, system) =>
      match open_source F roots f system current with
      | Opened p c => match sub p c m with Done (m', out, _) => Some (m', out) | _ => None end
      | _ => None
      end
    end
  end.

(** preprocessor.c 649-689 on one file, with at most [n] files open inside it.  The code has no such limit: it runs
    as deep as its stack allows, so every statement is about some or all [n]. *)
Fixpoint preprocess (n : nat) (current : option path) (src : list Z) (m : M)
    : outcome (M * list Out * list (event M)) :=
  run M Out txt eval defd
    (fun m d ops =>
       match d with
       | DInclude => match n with
                     | O => None
                     | S n' => process_include current (fun p c m => preprocess n' (Some p) c m) m ops
                     end
       | _ => define m d ops
       end) line_ok src m.

(** A preprocessor without #include *)
Definition flat (m : M) (d : dtype) (ops : list Z) : option (M * list Out) :=
  match d with DInclude => None | _ => define m d ops end.
End Run.
