(** The expression grammar of C17 (6.5) as derivations of token lists from trees, and printing. *)
From Coq Require Import ZArith List Bool Lia PeanoNat.
From Verif Require Import ParseModel.
Import ListNotations.

(** unary-operator, 6.5.3 *)
Inductive uop := UAddr | UDeref | UPlus | UMinus | UCompl | UNot.

Section Grammar.
Context {tyname init : Type} (type_spell : tyname -> list tok) (init_spell : init -> list tok).

Inductive tree :=
| TrName (n : Z) | TrConst (c : Z) | TrStr (s : Z)
| TrUn (o : uop) (t : tree)
| TrPre (inc : bool) (t : tree) | TrPost (inc : bool) (t : tree)
| TrSizeof (t : tree) | TrSizeofType (ty : tyname) | TrAlignofType (ty : tyname)
| TrBin (o : binop) (a b : tree)
| TrCond (a b c : tree)
| TrAssign (o : asgop) (a b : tree)
| TrComma (a b : tree)
| TrCast (ty : tyname) (t : tree)
| TrCall (f : tree) (args : list tree)
| TrIndex (a b : tree)
| TrMember (dot : bool) (t : tree) (n : Z)
| TrCompound (ty : tyname) (i : init).

Definition uop_punct (o : uop) : punct :=
  match o with UAddr => PAmp | UDeref => PStar | UPlus => PPlus | UMinus => PMinus | UCompl => PTilde | UNot => PNot end.
Definition bin_punct (o : binop) : punct :=
  match o with
  | OMul => PStar | ODiv => PSlash | OMod => PPercent | OAdd => PPlus | OSub => PMinus | OShl => PShl | OShr => PShr
  | OLt => PLt | OGt => PGt | OLe => PLe | OGe => PGe | OEq => PEq | ONe => PNe | OAnd => PAmp | OXor => PCaret | OOr => PBar
  | OLand => PAndAnd | OLor => POrOr
  end.
Definition asg_punct (o : asgop) : punct :=
  match o with
  | ASimple => PAssign | AMul => PAssignMul | ADiv => PAssignDiv | AMod => PAssignMod | AAdd => PAssignAdd | ASub => PAssignSub
  | AShl => PAssignShl | AShr => PAssignShr | AAnd => PAssignAnd | AXor => PAssignXor | AOr => PAssignOr
  end.

(** Productions: 0 expression, 1 assignment-, 2 conditional-, 3 logical-OR-, 4 logical-AND-, 5 inclusive-OR-,
    6 exclusive-OR-, 7 AND-, 8 equality-, 9 relational-, 10 shift-, 11 additive-, 12 multiplicative-, 13 cast-,
    14 unary-, 15 postfix-, 16 primary-expression *)
Definition bin_level (o : binop) : nat :=
  match o with
  | OLor => 3 | OLand => 4 | OOr => 5 | OXor => 6 | OAnd => 7 | OEq | ONe => 8 | OLt | OGt | OLe | OGe => 9
  | OShl | OShr => 10 | OAdd | OSub => 11 | OMul | ODiv | OMod => 12
  end.

Definition parens (ts : list tok) : list tok := TP PLParen :: ts ++ [TP PRParen].

(** [lit] is the production compound literals belong to: 15 in 6.5.2 *)
Inductive D (lit : nat) : nat -> tree -> list tok -> Prop :=
| D_name : forall n, D lit 16 (TrName n) [TName n]
| D_const : forall c, D lit 16 (TrConst c) [TConst c]
| D_str : forall s, D lit 16 (TrStr s) [TStr s]
| D_paren : forall t ts, D lit 0 t ts -> D lit 16 t (parens ts)
| D_index : forall a b ta tb, D lit 15 a ta -> D lit 0 b tb ->
    D lit 15 (TrIndex a b) (ta ++ TP PLBracket :: tb ++ [TP PRBracket])
| D_call0 : forall f tf, D lit 15 f tf -> D lit 15 (TrCall f []) (tf ++ parens [])
| D_call : forall f tf args ts, D lit 15 f tf -> DArgs lit args ts -> D lit 15 (TrCall f args) (tf ++ parens ts)
| D_member : forall t ts dot n, D lit 15 t ts ->
    D lit 15 (TrMember dot t n) (ts ++ [TP (if dot then PDot else PArrow); TName n])
| D_post : forall t ts inc, D lit 15 t ts -> D lit 15 (TrPost inc t) (ts ++ [TP (if inc then PInc else PDec)])
| D_compound : forall ty i, D lit lit (TrCompound ty i) (parens (type_spell ty) ++ init_spell i)
| D_pre : forall t ts inc, D lit 14 t ts -> D lit 14 (TrPre inc t) (TP (if inc then PInc else PDec) :: ts)
| D_un : forall o t ts, D lit 13 t ts -> D lit 14 (TrUn o t) (TP (uop_punct o) :: ts)
| D_sizeof : forall t ts, D lit 14 t ts -> D lit 14 (TrSizeof t) (TSizeof :: ts)
| D_sizeof_type : forall ty, D lit 14 (TrSizeofType ty) (TSizeof :: parens (type_spell ty))
| D_alignof_type : forall ty, D lit 14 (TrAlignofType ty) (TAlignof :: parens (type_spell ty))
| D_cast : forall ty t ts, D lit 13 t ts -> D lit 13 (TrCast ty t) (parens (type_spell ty) ++ ts)
| D_bin : forall o a b ta tb, D lit (bin_level o) a ta -> D lit (S (bin_level o)) b tb ->
    D lit (bin_level o) (TrBin o a b) (ta ++ TP (bin_punct o) :: tb)
| D_cond : forall a b c ta tb tc, D lit 3 a ta -> D lit 0 b tb -> D lit 2 c tc ->
    D lit 2 (TrCond a b c) (ta ++ TP PQuestion :: tb ++ TP PColon :: tc)
| D_assign : forall o a b ta tb, D lit 14 a ta -> D lit 1 b tb -> D lit 1 (TrAssign o a b) (ta ++ TP (asg_punct o) :: tb)
| D_comma : forall a b ta tb, D lit 0 a ta -> D lit 1 b tb -> D lit 0 (TrComma a b) (ta ++ TP PComma :: tb)
| D_up : forall l t ts, l < 16 -> D lit (S l) t ts -> D lit l t ts
with DArgs (lit : nat) : list tree -> list tok -> Prop :=
| DA_one : forall a ts, D lit 1 a ts -> DArgs lit [a] ts
| DA_cons : forall a ts args ts', D lit 1 a ts -> DArgs lit args ts' -> DArgs lit (a :: args) (ts ++ TP PComma :: ts').

(** The production a tree belongs to, and the tree printed where production [l] is wanted. *)
Definition level (lit : nat) (t : tree) : nat :=
  match t with
  | TrName _ | TrConst _ | TrStr _ => 16
  | TrCall _ _ | TrIndex _ _ | TrMember _ _ _ | TrPost _ _ => 15
  | TrCompound _ _ => lit
  | TrUn _ _ | TrPre _ _ | TrSizeof _ | TrSizeofType _ | TrAlignofType _ => 14
  | TrCast _ _ => 13
  | TrBin o _ _ => bin_level o
  | TrCond _ _ _ => 2
  | TrAssign _ _ _ => 1
  | TrComma _ _ => 0
  end.

Fixpoint commas (l : list (list tok)) : list tok :=
  match l with
  | [] => []
  | [x] => x
  | x :: r => x ++ TP PComma :: commas r
  end.

Fixpoint print (lit l : nat) (t : tree) {struct t} : list tok :=
  (fun ts => if Nat.leb l (level lit t) then ts else parens ts)
  match t with
  | TrName n => [TName n]
  | TrConst c => [TConst c]
  | TrStr s => [TStr s]
  | TrUn o t => TP (uop_punct o) :: print lit 13 t
  | TrPre inc t => TP (if inc then PInc else PDec) :: print lit 14 t
  | TrPost inc t => print lit 15 t ++ [TP (if inc then PInc else PDec)]
  | TrSizeof t => TSizeof :: print lit 14 t
  | TrSizeofType ty => TSizeof :: parens (type_spell ty)
  | TrAlignofType ty => TAlignof :: parens (type_spell ty)
  | TrBin o a b => print lit (bin_level o) a ++ TP (bin_punct o) :: print lit (S (bin_level o)) b
  | TrCond a b c => print lit 3 a ++ TP PQuestion :: print lit 0 b ++ TP PColon :: print lit 2 c
  | TrAssign o a b => print lit 14 a ++ TP (asg_punct o) :: print lit 1 b
  | TrComma a b => print lit 0 a ++ TP PComma :: print lit 1 b
  | TrCast ty t => parens (type_spell ty) ++ print lit 13 t
  | TrCall f args => print lit 15 f ++ parens (commas (map (print lit 1) args))
  | TrIndex a b => print lit 15 a ++ TP PLBracket :: print lit 0 b ++ [TP PRBracket]
  | TrMember dot t n => print lit 15 t ++ [TP (if dot then PDot else PArrow); TName n]
  | TrCompound ty i => parens (type_spell ty) ++ init_spell i
  end.

(** What may follow a phrase of production [l]: a token that does not continue it *)
Definition stop_punct (l : nat) (p : punct) : bool :=
  match p with
  | PLParen | PLBracket | PLBrace | PDot | PArrow | PInc | PDec => false
  | PComma => Nat.ltb 0 l
  | PAssign | PAssignMul | PAssignDiv | PAssignMod | PAssignAdd | PAssignSub | PAssignShl | PAssignShr
  | PAssignAnd | PAssignXor | PAssignOr => Nat.ltb 1 l
  | PQuestion => Nat.ltb 2 l
  | POrOr => Nat.ltb 3 l
  | PAndAnd => Nat.ltb 4 l
  | PBar => Nat.ltb 5 l
  | PCaret => Nat.ltb 6 l
  | PAmp => Nat.ltb 7 l
  | PEq | PNe => Nat.ltb 8 l
  | PLt | PGt | PLe | PGe => Nat.ltb 9 l
  | PShl | PShr => Nat.ltb 10 l
  | PPlus | PMinus => Nat.ltb 11 l
  | PStar | PSlash | PPercent => Nat.ltb 12 l
  | PRParen | PRBracket | PRBrace | PTilde | PNot | PColon => true
  end.
Definition stops (l : nat) (rest : list tok) : Prop :=
  match rest with TP p :: _ => stop_punct l p = true | _ => True end.

(** The syntax tree of a tree: comma expressions are lists, the rest is one to one. *)
Definition un_node (o : uop) : unop :=
  match o with UAddr => OAddr | UDeref => OIndirect | UPlus => OPlus | UMinus => ONeg | UCompl => OInvert | UNot => ONot end.
Definition join (a b : ast tyname init) : ast tyname init :=
  match a with EComma l => EComma (l ++ [b]) | _ => EComma [a; b] end.
Fixpoint node (t : tree) : ast tyname init :=
  match t with
  | TrName n => EName n
  | TrConst c => EConst c
  | TrStr s => EStr s
  | TrUn o t => EUn (un_node o) (node t)
  | TrPre inc t => EUn (if inc then OPreInc else OPreDec) (node t)
  | TrPost inc t => EUn (if inc then OPostInc else OPostDec) (node t)
  | TrSizeof t => EUn OSizeof (node t)
  | TrSizeofType ty => EUn OSizeof (ETypeName ty)
  | TrAlignofType ty => EUn OAlignof (ETypeName ty)
  | TrBin o a b => EBin o (node a) (node b)
  | TrCond a b c => ECond (node a) (Some (node b)) (node c)
  | TrAssign o a b => EAssign o (node a) (node b)
  | TrComma a b => join (node a) (node b)
  | TrCast ty t => ECast (ETypeName ty) (node t)
  | TrCall f args => ECall (node f) (map node args)
  | TrIndex a b => EIndex (node a) (node b)
  | TrMember dot t n => EMember dot (node t) n
  | TrCompound ty i => ECompound ty i
  end.

Section TreeInd.
Context (P : tree -> Prop).
Hypotheses (Hname : forall n, P (TrName n)) (Hconst : forall c, P (TrConst c)) (Hstr : forall s, P (TrStr s))
  (Hun : forall o t, P t -> P (TrUn o t)) (Hpre : forall i t, P t -> P (TrPre i t)) (Hpost : forall i t, P t -> P (TrPost i t))
  (Hsz : forall t, P t -> P (TrSizeof t)) (Hszt : forall ty, P (TrSizeofType ty)) (Halt : forall ty, P (TrAlignofType ty))
  (Hbin : forall o a b, P a -> P b -> P (TrBin o a b)) (Hcond : forall a b c, P a -> P b -> P c -> P (TrCond a b c))
  (Hasg : forall o a b, P a -> P b -> P (TrAssign o a b)) (Hcom : forall a b, P a -> P b -> P (TrComma a b))
  (Hcast : forall ty t, P t -> P (TrCast ty t)) (Hcall : forall f args, P f -> Forall P args -> P (TrCall f args))
  (Hidx : forall a b, P a -> P b -> P (TrIndex a b)) (Hmem : forall d t n, P t -> P (TrMember d t n))
  (Hcl : forall ty i, P (TrCompound ty i)).
Fixpoint tree_induction (t : tree) : P t :=
  match t with
  | TrName n => Hname n | TrConst c => Hconst c | TrStr s => Hstr s
  | TrUn o t => Hun o t (tree_induction t) | TrPre i t => Hpre i t (tree_induction t) | TrPost i t => Hpost i t (tree_induction t)
  | TrSizeof t => Hsz t (tree_induction t) | TrSizeofType ty => Hszt ty | TrAlignofType ty => Halt ty
  | TrBin o a b => Hbin o a b (tree_induction a) (tree_induction b)
  | TrCond a b c => Hcond a b c (tree_induction a) (tree_induction b) (tree_induction c)
  | TrAssign o a b => Hasg o a b (tree_induction a) (tree_induction b)
  | TrComma a b => Hcom a b (tree_induction a) (tree_induction b)
  | TrCast ty t => Hcast ty t (tree_induction t)
  | TrCall f args => Hcall f args (tree_induction f)
      ((fix go (l : list tree) : Forall P l :=
          match l with [] => Forall_nil P | x :: r => Forall_cons x (tree_induction x) (go r) end) args)
  | TrIndex a b => Hidx a b (tree_induction a) (tree_induction b)
  | TrMember d t n => Hmem d t n (tree_induction t)
  | TrCompound ty i => Hcl ty i
  end.
End TreeInd.
End Grammar.
Arguments tree : clear implicits.
Scheme D_min := Minimality for D Sort Prop with DArgs_min := Minimality for DArgs Sort Prop.
Combined Scheme D_mutind from D_min, DArgs_min.
