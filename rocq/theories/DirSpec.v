(** What the directives of a file are: C17 6.10p1 (grammar), 6.10p2 (what is a
    directive), 6.10.2 (inclusion), 6.10.3 (macro definitions). *)

From Coq Require Import ZArith Bool List String.
From Verif Require Import LexModel PropPunct TokSpec.
Import ListNotations.
Open Scope Z_scope.

(** A line of preprocessing tokens and white space, without its new-line, and the text
    after it.  A comment may run over the end of a physical line. *)
Inductive line : list Z -> list item -> list Z -> Prop :=
  | ln_end : forall s r, white true s r -> line s [] r
  | ln_white : forall s t l r, white false s t -> line t l r -> line s (IWhite false :: l) r
  | ln_token : forall k w t l r, ~ opens_white (w ++ t) -> longest k w (w ++ t) -> line t l r ->
               line (w ++ t) (IToken k w :: l) r.

Definition whites (l : list item) : Prop := Forall (fun i => i = IWhite false) l.
Definition name (w : string) : item := IToken KName (text w).
Definition sign (w : string) : item := IToken KPunct (text w).

Definition c17_directives : list (list Z) := map text
  ["if"; "ifdef"; "ifndef"; "elif"; "else"; "endif"; "include"; "define"; "undef"; "line"; "error"; "pragma"]%string.

(** Items are the operands as written; white space around them is of no importance. *)
Inductive sdir :=
  | SIf (l : list item) | SElif (l : list item) | SIfdef (n : list Z) | SIfndef (n : list Z) | SElse | SEndif
  | SHeader (system : bool) (n : list Z) | SInclude (l : list item)
  | SDefine (n : list Z) (parameters : option (list (list Z) * bool)) (l : list item)
  | SUndef (n : list Z) | SLine (l : list item) | SError (l : list item) | SPragma (l : list item)
  | SEmpty | SNon (l : list item).

(** identifier-list *)
Inductive identifier_list : list item -> list (list Z) -> Prop :=
  | il_one : forall a n b, whites a -> whites b -> identifier_list (a ++ IToken KName n :: b) [n]
  | il_more : forall p ns a n b, identifier_list p ns -> whites a -> whites b ->
              identifier_list (p ++ sign "," :: a ++ IToken KName n :: b) (ns ++ [n]).
(** What is between the parentheses, and whether there is an ellipsis *)
Inductive parameters : list item -> list (list Z) -> bool -> Prop :=
  | pa_none : forall a, whites a -> parameters a [] false
  | pa_list : forall p ns, identifier_list p ns -> parameters p ns false
  | pa_ellipsis : forall a b, whites a -> whites b -> parameters (a ++ sign "..." :: b) [] true
  | pa_both : forall p ns a b, identifier_list p ns -> whites a -> whites b ->
              parameters (p ++ sign "," :: a ++ sign "..." :: b) ns true.

Definition spelling_of (i : item) : list Z := match i with IToken _ w => w | IWhite _ => [] end.
Definition is_token (i : item) : Prop := match i with IToken _ _ => True | IWhite _ => False end.

(** What is behind the #, 6.10p1 *)
Inductive directive_line : list item -> sdir -> Prop :=
  | dl_if : forall a l, whites a -> directive_line (a ++ name "if" :: l) (SIf l)
  | dl_elif : forall a l, whites a -> directive_line (a ++ name "elif" :: l) (SElif l)
  | dl_ifdef : forall a b n c, whites a -> whites b -> whites c ->
      directive_line (a ++ name "ifdef" :: b ++ IToken KName n :: c) (SIfdef n)
  | dl_ifndef : forall a b n c, whites a -> whites b -> whites c ->
      directive_line (a ++ name "ifndef" :: b ++ IToken KName n :: c) (SIfndef n)
  | dl_else : forall a b, whites a -> whites b -> directive_line (a ++ name "else" :: b) SElse
  | dl_endif : forall a b, whites a -> whites b -> directive_line (a ++ name "endif" :: b) SEndif
  | dl_header : forall a b h c system n, whites a -> whites b -> whites c -> Forall is_token h ->
      header_name system n (List.concat (map spelling_of h)) ->
      directive_line (a ++ name "include" :: b ++ h ++ c) (SHeader system n)
  | dl_include : forall a b k c w l, whites a -> whites b -> c <> 60 -> c <> 34 ->
      directive_line (a ++ name "include" :: b ++ IToken k (c :: w) :: l) (SInclude (b ++ IToken k (c :: w) :: l))
  | dl_object : forall a b n l, whites a -> whites b -> (l = [] \/ exists l', l = IWhite false :: l') ->
      directive_line (a ++ name "define" :: b ++ IToken KName n :: l) (SDefine n None l)
  | dl_function : forall a b n p ns v l, whites a -> whites b -> parameters p ns v -> NoDup ns ->
      directive_line (a ++ name "define" :: b ++ IToken KName n :: sign "(" :: p ++ sign ")" :: l) (SDefine n (Some (ns, v)) l)
  | dl_undef : forall a b n c, whites a -> whites b -> whites c ->
      directive_line (a ++ name "undef" :: b ++ IToken KName n :: c) (SUndef n)
  | dl_line : forall a l, whites a -> directive_line (a ++ name "line" :: l) (SLine l)
  | dl_error : forall a l, whites a -> directive_line (a ++ name "error" :: l) (SError l)
  | dl_pragma : forall a l, whites a -> directive_line (a ++ name "pragma" :: l) (SPragma l)
  | dl_empty : forall a, whites a -> directive_line a SEmpty
  | dl_non : forall a k w l, whites a -> ~ (k = KName /\ In w c17_directives) ->
      directive_line (a ++ IToken k w :: l) (SNon (a ++ IToken k w :: l)).

Definition first (p : list Z -> Prop) (l : list item) : Prop :=
  exists a w l', whites a /\ l = a ++ IToken KPunct w :: l' /\ p w.
Definition introducer (w : list Z) : Prop := w = text "#" \/ w = text "%:".

(** The tokens of the text lines and the directives of a file.  [plain_text] and
    [plain_directive] are further conditions on the lines, by which the theorems say how
    far they go. *)
Inductive elem := EWhite | EToken (k : kind) (w : list Z) | EDirective (d : sdir).
Definition elem_of (i : item) : elem := match i with IWhite _ => EWhite | IToken k w => EToken k w end.
Section Source.
Variables (plain_text : list item -> Prop) (plain_directive : list Z -> sdir -> list Z -> Prop).
Inductive source : list Z -> list elem -> Prop :=
  | so_end : source [] []
  | so_text : forall s l r e, line s l r -> ~ first introducer l -> plain_text l -> source r e ->
              source s (map elem_of l ++ EWhite :: e)
  | so_directive : forall s a w l d r e, line s (a ++ IToken KPunct w :: l) r -> whites a -> introducer w ->
              directive_line l d -> plain_directive s d r -> source r e ->
              source s (EDirective d :: e).
End Source.

(** White space matters only in that it separates: each token or directive, with
    whether white space, a directive or the start of the file is before it. *)
Fixpoint spaced {A} (before : bool) (l : list (option (bool * A))) : list (bool * A) :=
  match l with
  | [] => []
  | None :: r => spaced true r
  | Some (d, a) :: r => (before || d, a) :: spaced d r
  end.

(** The lines for which agreement is shown: no ## at the start of a text line; *)
Definition plain_text (l : list item) : Prop := ~ first (fun w => w = text "##") l.
(** blanks instead of comments around the #, which is no digraph; no digit or backslash directly
    after the name of a directive; no comment that runs over the end of the line in a
    directive whose line is skipped to its end; no comment before a header name. *)
Definition blank (c : Z) : Prop := white_char c /\ c <> 10.
Definition blanks (s : list Z) : Prop := Forall blank s.
Definition one_line (s r : list Z) : Prop := exists z, s = z ++ 10 :: r /\ ~ In 10 z /\ ~ In 0 z.
Definition plain_directive (s : list Z) (d : sdir) (r : list Z) : Prop :=
  exists x y z, s = x ++ 35 :: y ++ z /\ blanks x /\ blanks y /\
  match d with SEmpty => starts_with z [10] | _ => ~ opens_white z end /\
  (forall w c u, In w c17_directives -> z = w ++ c :: u -> ~ digit c /\ c <> 92) /\
  match d with
  | SIfdef _ | SIfndef _ | SElse | SEndif | SUndef _ => one_line s r
  | SHeader _ n => one_line s r /\ Forall (fun c => 0 < c < 128) n /\
                   exists u v, z = text "include" ++ u ++ v /\ blanks u /\ ~ opens_white v
  | _ => True
  end.
