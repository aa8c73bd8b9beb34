(** Model of generic selections: how they are put together, analysed, evaluated as constants, translated and copied.
    source/ast/nodes/generic_selection.c, source/ast/analyzer/nodes/generic_selection.c,
    source/ast/constant_expression/generic_selection.c, source/ast-translator/nodes/generic_selection.c,
    source/ast-translator/lvalue.c 342-366, source/parser/builder.c 532-635.

    Simplified: a generic selection stands alone or within other generic selections, not below other operators; what
    it is made of otherwise are the expressions of ExprTypeModel. A type name is the type that it denotes (C49, C50), its
    analysis cannot fail. Allocation succeeds. The translation and the evaluation of the other expressions are
    parameters. *)
From Coq Require Import ZArith List Bool.
From Verif Require Import CompatModel ExprTypeModel.
Import ListNotations.
Open Scope Z_scope.

(** headers/kefir/ast/node.h 74-84 *)
Inductive gexpr :=
| GPlain (e : expr)
| GSel (control : gexpr) (associations : list (ty * gexpr)) (default : option gexpr).

(** kefir_ast_new_generic_selection, generic_selection.c 158-190 *)
Definition new_selection (control : gexpr) : gexpr := GSel control [] None.
(** kefir_ast_generic_selection_append, generic_selection.c 192-221; the calls of builder.c 587 and 622 *)
Definition append (g : gexpr) (t : option ty) (e : gexpr) : option gexpr :=
  match g, t with
  | GSel c l d, Some t => Some (GSel c (l ++ [(t, e)]) d)
  | GSel c l None, None => Some (GSel c l (Some e))
  | _, _ => None
  end.
(** The loop of source/parser/rules/generic_selection.c 47-74 *)
Fixpoint append_all (g : gexpr) (l : list (option ty * gexpr)) : option gexpr :=
  match l with
  | [] => Some g
  | (t, e) :: r => match append g t e with Some g' => append_all g' r | None => None end
  end.

(** Nodes with the properties that the analysis has stored; None as they are initialised *)
Inductive node :=
| NPlain (e : expr) (p : option props)
| NSel (control : node) (associations : list (ty * node)) (default : option node) (p : option props).
Definition tag (n : node) : option props := match n with NPlain _ p | NSel _ _ _ p => p end.

Fixpoint fresh (g : gexpr) : node :=
  match g with
  | GPlain e => NPlain e None
  | GSel c l d =>
    NSel (fresh c) (map (fun a => (fst a, fresh (snd a))) l) (match d with Some x => Some (fresh x) | None => None end) None
  end.

(** KEFIR_AST_TYPE_COMPATIBLE of the type of the controlling expression and that of an association *)
Definition agrees (pc : props) (t : ty) : out bool :=
  match compatible (conv (n_type pc)) t with Yes => Ok true | No => Ok false | _ => Bad end.

(** kefir_ast_analyze_generic_selection_node, analyzer/nodes/generic_selection.c 28-66 *)
Fixpoint annotate (G : ctx) (g : gexpr) : out (props * node) :=
  match g with
  | GPlain e => bind (analyze G e) (fun p => Ok (p, NPlain e (Some p)))
  | GSel c l d =>
    bind (annotate G c) (fun rc =>
    bind ((fix loop (matched : option props) (l : list (ty * gexpr)) : out (option props * list (ty * node)) :=
             match l with
             | [] => Ok (matched, [])
             | (t, a) :: r =>
               bind (annotate G a) (fun ra =>
               bind (match matched with
                     | Some _ => Ok matched
                     | None => bind (agrees (fst rc) t) (fun b => Ok (if b then Some (fst ra) else None))
                     end) (fun matched' =>
               bind (loop matched' r) (fun rr => Ok (fst rr, (t, snd ra) :: snd rr))))
             end) None l) (fun rl =>
    match fst rl, d with
    | Some p, _ => Ok (p, NSel (snd rc) (snd rl) (match d with Some x => Some (fresh x) | None => None end) (Some p))
    | None, Some x => bind (annotate G x) (fun rd => Ok (fst rd, NSel (snd rc) (snd rl) (Some (snd rd)) (Some (fst rd))))
    | None, None => Err
    end))
  end.

Section Walk.
Context {A : Type}.
(** What becomes of the other expressions *)
Variable leaf : expr -> props -> out A.

(** kefir_ast_translate_generic_selection_node, ast-translator/nodes/generic_selection.c 28-54. A node that has not been
    analysed has no type: Bad. *)
Fixpoint translate (n : node) : out A :=
  match n with
  | NPlain e (Some p) => leaf e p
  | NPlain _ None => Bad
  | NSel c l d _ =>
    match tag c with
    | None => Bad
    | Some pc =>
      (fix find (l : list (ty * node)) : out A :=
         match l with
         | [] => match d with Some x => translate x | None => Err end
         | (t, a) :: r => bind (agrees pc t) (fun b => if b then translate a else find r)
         end) l
    end
  end.

(** kefir_ast_evaluate_generic_selection_node, constant_expression/generic_selection.c 27-58, and
    kefir_ast_constant_expression_value_evaluate, constant_expression.c 57-86 *)
Fixpoint evaluate (n : node) : out A :=
  match tag n with
  | None => Err
  | Some p =>
    if n_const p then
      match n with
      | NPlain e _ => leaf e p
      | NSel c l d _ =>
        match tag c with
        | None => Bad
        | Some pc =>
          (fix find (l : list (ty * node)) : out A :=
             match l with
             | [] => match d with Some x => evaluate x | None => Err end
             | (t, a) :: r => bind (agrees pc t) (fun b => if b then evaluate a else find r)
             end) l
        end
      end
    else Err
  end.

(** kefir_ast_translate_lvalue, ast-translator/lvalue.c 342-366: the visitor has no case for generic selections. *)
Definition translate_lvalue (n : node) : out A :=
  match n with
  | NPlain e (Some p) => leaf e p
  | NPlain _ None => Bad
  | NSel _ _ _ _ => Err
  end.
End Walk.

(** ** Copies *)

(** A pointer takes 8 bytes; struct kefir_ast_generic_selection_assoc holds two (headers/kefir/ast/node.h 74-77).
    generic_selection.c 97 allocates the size of a pointer to it. *)
Definition pointer_size : Z := 8.
Definition assoc_block : Z := pointer_size.
(** Writing len bytes at the offset into a block; None: outside of the block *)
Definition write (block offset len : Z) : option unit := if offset + len <=? block then Some tt else None.

(** ast_generic_selection_clone, generic_selection.c 65-156; None: it writes outside of what it has allocated *)
Fixpoint clone (g : gexpr) : option gexpr :=
  match g with
  | GPlain e => Some (GPlain e)
  | GSel c l d =>
    match clone c with
    | None => None
    | Some c' =>
      match (fix loop (l : list (ty * gexpr)) : option (list (ty * gexpr)) :=
               match l with
               | [] => Some []
               | (t, a) :: r =>
                 match write assoc_block 0 pointer_size with
                 | None => None
                 | Some _ =>
                   match clone a with
                   | None => None
                   | Some a' =>
                     match write assoc_block pointer_size pointer_size with
                     | None => None
                     | Some _ => match loop r with Some r' => Some ((t, a') :: r') | None => None end
                     end
                   end
                 end
               end) l with
      | None => None
      | Some l' =>
        match d with
        | None => Some (GSel c' l' None)
        | Some x => match clone x with Some x' => Some (GSel c' l' (Some x')) | None => None end
        end
      end
    end
  end.
