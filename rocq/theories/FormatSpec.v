(** What the output of the preprocessor means: read again, it has the same preprocessing
    tokens (C17 5.1.1.2, phase 3 before and after phase 4). *)

From Coq Require Import ZArith Bool List String.
From Verif Require Import LexModel StrModel TokModel TokSpec PropPunct PropStrPrint FormatModel.
Import ListNotations.
Open Scope Z_scope.

(** 6.4.6p3: these behave the same except for their spelling. *)
Definition digraphs : list (punct * punct) := [
  (P_DIGRAPH_LEFT_BRACKET, P_LEFT_BRACKET); (P_DIGRAPH_RIGHT_BRACKET, P_RIGHT_BRACKET);
  (P_DIGRAPH_LEFT_BRACE, P_LEFT_BRACE); (P_DIGRAPH_RIGHT_BRACE, P_RIGHT_BRACE);
  (P_DIGRAPH_HASH, P_HASH); (P_DIGRAPH_DOUBLE_HASH, P_DOUBLE_HASH)].

(** The same token: of white space it only matters whether there is a new-line, and that
    only if the lines are to be kept. *)
Inductive same_token : ws_format -> ptok -> ptok -> Prop :=
  | sm_lines : forall n, same_token Original (TkSpace n) (TkSpace n)
  | sm_space : forall n n', same_token SingleSpace (TkSpace n) (TkSpace n')
  | sm_name : forall f w, same_token f (TkName w) (TkName w)
  | sm_number : forall f w, same_token f (TkNumber w) (TkNumber w)
  | sm_char : forall f c, same_token f (TkChar c) (TkChar c)
  | sm_string : forall f l, same_token f (TkString l) (TkString l)
  | sm_punct : forall f p, same_token f (TkPunct p) (TkPunct p)
  | sm_digraph : forall f p q, In (p, q) digraphs -> same_token f (TkPunct p) (TkPunct q).
Definition same_tokens (f : ws_format) : list ptok -> list ptok -> Prop := Forall2 (same_token f).

(** The tokens that a text is divided into by the tokenizer. *)
Definition tokens (s : list Z) : res (list ptok) :=
  bind (tokenize (S (List.length s)) s) (fun l => Ok (map fst l)).

(** Tokens for which the printing is shown: names and numbers without universal
    character names, string literals and character constants that are printed as they
    can be read (C09, C45), and no digraph of [#]. *)
Inductive printable (iswprint : Z -> bool) : ptok -> Prop :=
  | pr_space : forall n, printable iswprint (TkSpace n)
  | pr_name : forall w, identifier w -> ~ In 92 w -> (List.length w <= 255)%nat -> printable iswprint (TkName w)
  | pr_number : forall w, pp_number w -> ~ In 92 w -> printable iswprint (TkNumber w)
  | pr_char : forall v, 0 <= v < 128 -> printable iswprint (TkChar (CNarrow (Some v)))
  | pr_string : forall m vs, all_survive iswprint m vs = true -> printable iswprint (TkString (literal_with m vs))
  | pr_punct : forall p, p <> P_DIGRAPH_HASH -> p <> P_DIGRAPH_DOUBLE_HASH -> printable iswprint (TkPunct p).

(** The spelling of names and numbers in the text [s] has no universal character name. *)
Fixpoint plain_words (s : list Z) (l : list (ptok * list Z)) : Prop :=
  match l with
  | [] => True
  | (t, r) :: l' =>
    match t with TkName _ | TkNumber _ => forall w, s = w ++ r -> ~ In 92 w | _ => True end /\ plain_words r l'
  end.

(** Every two tokens have white space between them. *)
Definition is_white (t : ptok) : Prop := exists n, t = TkSpace n.
Fixpoint spaced (ts : list ptok) : Prop :=
  match ts with
  | a :: (b :: _) as r => (is_white a \/ is_white b) /\ spaced r
  | _ => True
  end.
