(** What #include should do (C17 6.10.2): the file is the first one found in a sequence of places, and the directive
    is replaced by the entire contents of it. *)
From Coq Require Import ZArith List Bool String.
From Verif Require Import LexModel CondModel PropCond IncludeModel.
Import ListNotations.
Open Scope Z_scope.

(** The directory of a file: all before the last slash. *)
Inductive directory : path -> path -> Prop :=
| dir_none : forall name, ~ In slash name -> name <> [] -> directory name (text ".")
| dir_root : forall name, ~ In slash name -> name <> [] -> directory (slash :: name) [slash]
| dir_in : forall d c name, ~ In slash name -> name <> [] -> c <> slash ->
    directory ((d ++ [c]) ++ slash :: name) (d ++ [c]).

(** The places where [f] is looked for: for the quoted form first the directory of the including file; then the
    include directories; then the path itself. *)
Definition places (roots : list path) (f : path) (system : bool) (dir : option path) : list path :=
  (match dir with Some d => if system then [] else [d ++ slash :: f] | None => [] end)
  ++ map (fun r => r ++ slash :: f) roots ++ [f].

(** [q] leads to the readable file [p] with content [c]. *)
Definition names_file (F : fs) (q p : path) (c : list Z) : Prop :=
  real F q = RPath p /\ readable F p = true /\ content F p = Some c.
(** Nothing is there, or nothing that may be read. *)
Definition absent (F : fs) (q : path) : Prop :=
  real F q = RNoEnt \/ exists p, real F q = RPath p /\ readable F p = false.

(** The first place with something in it holds [p]. *)
Definition found (F : fs) (l : list path) (p : path) (c : list Z) : Prop :=
  exists before q after, l = before ++ q :: after /\ Forall (absent F) before /\ names_file F q p c.

(** [dir] is the directory of the including file, if there is one. *)
Definition of_file (current dir : option path) : Prop :=
  match current, dir with
  | Some cur, Some d => directory cur d
  | None, None => True
  | _, _ => False
  end.

Fixpoint join (a b : items) : items := match a with INil => b | ICons i s => ICons i (join s b) end.

Section Expand.
Variable M : Type.
Variable tokens : M -> list Z -> option (list itoken).
Variable F : fs.
Variable roots : list path.

(** In every macro scope the operands are a single token naming [f]. *)
Definition designates (ops : list Z) (f : path) (system : bool) : Prop :=
  (forall m, tokens m ops = Some [HeaderName system f])
  \/ (system = false /\ forall m, tokens m ops = Some [StringLiteral true f]).

(** [expands all current s s']: [s'] is [s] (part of file [current]) with #include lines replaced by the contents
    of the files, expanded themselves; with [all] every #include line, otherwise some may be left as they are. *)
Inductive expands (all : bool) : option path -> items -> items -> Prop :=
| ex_nil : forall cur, expands all cur INil INil
| ex_cons : forall cur i i' s s', expands1 all cur i i' -> expands all cur s s' ->
    expands all cur (ICons i s) (ICons i' s')
| ex_include : forall cur dir x f system p c file file' s s',
    designates (operands x) f system -> of_file cur dir -> found F (places roots f system dir) p c ->
    c = spell file -> wf file -> expands all (Some p) file file' -> expands all cur s s' ->
    expands all cur (ICons (Include x) s) (join file' s')
with expands1 (all : bool) : option path -> item -> item -> Prop :=
| ex_text : forall cur l, expands1 all cur (Text l) (Text l)
| ex_null : forall cur x, expands1 all cur (Null x) (Null x)
| ex_unknown : forall cur x w, expands1 all cur (Unknown x w) (Unknown x w)
| ex_define : forall cur x, expands1 all cur (Define x) (Define x)
| ex_undef : forall cur x, expands1 all cur (Undef x) (Undef x)
| ex_error : forall cur x, expands1 all cur (Error x) (Error x)
| ex_line : forall cur x, expands1 all cur (Line x) (Line x)
| ex_left : forall cur x, all = false -> expands1 all cur (Include x) (Include x)
| ex_if : forall cur x g g' t t', expands all cur g g' -> expandst all cur t t' -> expands1 all cur (If x g t) (If x g' t')
| ex_ifdef : forall cur x g g' t t', expands all cur g g' -> expandst all cur t t' ->
    expands1 all cur (Ifdef x g t) (Ifdef x g' t')
| ex_ifndef : forall cur x g g' t t', expands all cur g g' -> expandst all cur t t' ->
    expands1 all cur (Ifndef x g t) (Ifndef x g' t')
with expandst (all : bool) : option path -> tail -> tail -> Prop :=
| ex_elif : forall cur x g g' t t', expands all cur g g' -> expandst all cur t t' ->
    expandst all cur (Elif x g t) (Elif x g' t')
| ex_else : forall cur x g g' y, expands all cur g g' -> expandst all cur (Else x g y) (Else x g' y)
| ex_endif : forall cur y, expandst all cur (Endif y) (Endif y).
End Expand.
