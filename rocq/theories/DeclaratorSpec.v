(** What a declarator means: the grammar of 6.7.6 and 6.7.7 and the derivations of types of
    6.7.6.1-6.7.6.3. *)

From Coq Require Import ZArith Bool List.
From Verif Require Import SpecifierModel DeclaratorModel.
Import ListNotations.

(** "derived-declarator-type-list": outermost derivation first.  [Function ps dots]: a
    prototype with the specifiers and derivations of each parameter; [Unprototyped n]: an
    identifier list of [n] names. *)
Inductive deriv :=
  | Pointer (qs : list qual)
  | Array (b : bound) (static : bool) (qs : list qual)
  | Function (ps : list (list word * list deriv)) (dots : bool)
  | Unprototyped (n : nat).

(** * The grammar *)

Definition qtoks (qs : list qual) : list tok := map KQual qs.
Fixpoint etoks (e : expr) : list tok :=
  match e with ENum n => [KNum n] | EDeref e => KStar :: etoks e end.
Definition wtok (w : word) : tok :=
  match w with WSpec t w => KSpec t w | WQual q => KQual q | WName x => KId x | WStatic => KStatic end.
Fixpoint itoks (xs : list nat) : list tok :=
  match xs with [] => [] | [x] => [KId x] | x :: xs => KId x :: KComma :: itoks xs end.

Definition type_word (w : word) : bool := match w with WSpec t _ => t | WName _ => true | _ => false end.

Section Grammar.
  (** The identifiers that are typedef names *)
  Variable is_typedef : nat -> bool.
  (** Restrictions (see [standard], [covered], [accepted] below): on lists of qualifiers; on
      what stands in parentheses in the named declarator of a parameter; on the abstract
      declarator of a parameter; on the specifiers of a parameter; on lengths of arrays; on
      identifier lists. *)
  Record limits := mk_limits {
    qual_ok : list qual -> Prop;
    paren_ok : list tok -> Prop;
    abstract_ok : list tok -> Prop;
    words_ok : list word -> Prop;
    length_ok : expr -> Prop;
    names_ok : list nat -> Prop
  }.
  Variable lim : limits.

  (** Declaration specifiers: a typedef name is one only where no type specifier precedes it. *)
  Fixpoint words (seen : bool) (ws : list word) : Prop :=
    match ws with
    | [] => True
    | WName x :: ws => seen = false /\ is_typedef x = true /\ words true ws
    | w :: ws => words (seen || type_word w) ws
    end.

  (** Between the brackets of an array declarator *)
  Inductive brackets : list tok -> bound -> bool -> list qual -> Prop :=
    | B_none qs : qual_ok lim qs -> brackets (qtoks qs) Unbounded false qs
    | B_length qs e : qual_ok lim qs -> length_ok lim e -> brackets (qtoks qs ++ etoks e) (Bounded e) false qs
    | B_static qs e : qual_ok lim qs -> length_ok lim e -> brackets (KStatic :: qtoks qs ++ etoks e) (Bounded e) true qs
    | B_static_after qs e : qs <> [] -> qual_ok lim qs -> length_ok lim e ->
      brackets (qtoks qs ++ KStatic :: etoks e) (Bounded e) true qs
    | B_star qs : qual_ok lim qs -> brackets (qtoks qs ++ [KStar]) UnspecifiedVla false qs.

  (** [dtor p]: declarator, [p]: of a parameter; [ddtor]: direct-declarator; [plist]:
      parameter-type-list; [pdecl]: parameter-declaration; [adtor]: abstract-declarator;
      [adirect]: direct-abstract-declarator, [abase]: the same or nothing. *)
  Inductive dtor : bool -> list tok -> nat -> list deriv -> Prop :=
    | D_direct p ts x L : ddtor p ts x L -> dtor p ts x L
    | D_pointer p qs ts x L : qual_ok lim qs -> dtor p ts x L -> dtor p (KStar :: qtoks qs ++ ts) x (L ++ [Pointer qs])
  with ddtor : bool -> list tok -> nat -> list deriv -> Prop :=
    | N_name p x : ddtor p [KId x] x []
    | N_paren p ts x L : dtor p ts x L -> (p = true -> paren_ok lim ts) -> ddtor p (KLp :: ts ++ [KRp]) x L
    | N_array p ts x L bs b st qs : ddtor p ts x L -> brackets bs b st qs ->
      ddtor p (ts ++ KLb :: bs ++ [KRb]) x (L ++ [Array b st qs])
    | N_function p ts x L ps P dots : ddtor p ts x L -> plist ps P dots ->
      ddtor p (ts ++ KLp :: ps ++ [KRp]) x (L ++ [Function P dots])
    | N_names p ts x L xs : ddtor p ts x L -> names_ok lim xs ->
      ddtor p (ts ++ KLp :: itoks xs ++ [KRp]) x (L ++ [Unprototyped (List.length xs)])
  with plist : list tok -> list (list word * list deriv) -> bool -> Prop :=
    | L_one ts ws L : pdecl ts ws L -> plist ts [(ws, L)] false
    | L_dots ts ws L : pdecl ts ws L -> plist (ts ++ [KComma; KDots]) [(ws, L)] true
    | L_more ts ws L us P dots : pdecl ts ws L -> plist us P dots -> plist (ts ++ KComma :: us) ((ws, L) :: P) dots
  with pdecl : list tok -> list word -> list deriv -> Prop :=
    | P_named ws ts x L : ws <> [] -> words false ws -> words_ok lim ws -> dtor true ts x L -> pdecl (map wtok ws ++ ts) ws L
    | P_abstract ws ts L : ws <> [] -> words false ws -> words_ok lim ws -> adtor ts L -> abstract_ok lim ts ->
      pdecl (map wtok ws ++ ts) ws L
    | P_none ws : ws <> [] -> words false ws -> words_ok lim ws -> pdecl (map wtok ws) ws []
  with adtor : list tok -> list deriv -> Prop :=
    | A_pointer qs : qual_ok lim qs -> adtor (KStar :: qtoks qs) [Pointer qs]
    | A_pointer_more qs ts L : qual_ok lim qs -> adtor ts L -> adtor (KStar :: qtoks qs ++ ts) (L ++ [Pointer qs])
    | A_direct ts L : adirect ts L -> adtor ts L
  with adirect : list tok -> list deriv -> Prop :=
    | T_paren ts L : adtor ts L -> adirect (KLp :: ts ++ [KRp]) L
    | T_array ts L bs b st qs : abase ts L -> brackets bs b st qs ->
      adirect (ts ++ KLb :: bs ++ [KRb]) (L ++ [Array b st qs])
    | T_function ts L ps P dots : abase ts L -> plist ps P dots ->
      adirect (ts ++ KLp :: ps ++ [KRp]) (L ++ [Function P dots])
    | T_empty ts L : abase ts L -> adirect (ts ++ [KLp; KRp]) (L ++ [Unprototyped 0])
  with abase : list tok -> list deriv -> Prop :=
    | Z_none : abase [] []
    | Z_some ts L : adirect ts L -> abase ts L.
End Grammar.

(** The grammar of the standard: no _Atomic (not supported); 6.7.6.3p11: in a parameter, an
    identifier that can be a typedef name is one, so a parenthesis is not followed by a typedef
    name as parameter name; a type specifier in each parameter (6.7.2p2); no typedef names in
    identifier lists (6.9.1p6). *)
Definition plain (qs : list qual) : Prop := ~ In QAtomic qs.
Definition no_typedef (is_typedef : nat -> bool) (ts : list tok) : Prop :=
  forall x r, ts = KId x :: r -> is_typedef x = false.
Definition some_type (ws : list word) : Prop := existsb type_word ws = true.
Definition standard (is_typedef : nat -> bool) : limits :=
  mk_limits plain (no_typedef is_typedef) (fun _ => True) some_type (fun _ => True)
    (fun xs => forall x, In x xs -> is_typedef x = false).

(** The part of it that is proved: an abstract declarator of a parameter does not begin with
    asterisks and parentheses followed by a name ([int (T)], [int ( *(T x))]); a length does
    not begin with an asterisk ([a[*p]]). *)
Fixpoint unnamed (star : bool) (ts : list tok) : bool :=
  match ts with
  | KStar :: r => unnamed true r
  | KLp :: r => unnamed false r
  | KQual _ :: r => if star then unnamed true r else true
  | KId _ :: _ => false
  | _ => true
  end.
Definition no_star (e : expr) : Prop := match e with EDeref _ => False | _ => True end.
Definition covered (is_typedef : nat -> bool) : limits :=
  mk_limits plain (no_typedef is_typedef) (fun ts => unnamed false ts = true) some_type no_star
    (fun xs => forall x, In x xs -> is_typedef x = false).

(** What the parser accepts at most: the grammar without 6.7.6.3p11 and 6.7.2p2. *)
Definition accepted (is_typedef : nat -> bool) : limits :=
  mk_limits (fun _ => True) (fun _ => True) (fun _ => True) (fun _ => True) (fun _ => True) (fun _ => True).

(** * The types *)

Definition has (p : qual -> bool) (qs : list qual) : bool := existsb p qs.
Definition set_of (qs : list qual) : quals :=
  (has (fun q => match q with QConst => true | _ => false end) qs,
   has (fun q => match q with QRestrict => true | _ => false end) qs,
   has (fun q => match q with QVolatile => true | _ => false end) qs).
(** A type qualified by a set; by the empty set it is the type itself *)
Definition with_quals (qs : list qual) (t : cty) : cty :=
  if has (fun q => match q with QAtomic => false | _ => true end) qs then YQual (set_of qs) t else t.

Section Types.
  (** The value of an expression if it is an integer constant expression *)
  Variable constant : expr -> option Z.
  (** 6.7.6.2p4 *)
  Definition length_of (b : bound) : length :=
    match b with
    | Unbounded => NoLength
    | UnspecifiedVla => Variable_ None
    | Bounded e => match constant e with Some z => Constant z | None => Variable_ (Some e) end
    end.
  (** "derivation T".  6.7.6.3p7-8: a parameter declared as an array is a pointer with the
      qualifiers of the brackets, one declared as a function is a pointer to the function. *)
  Fixpoint derive (v : deriv) (t : cty) : cty :=
    match v with
    | Pointer qs => with_quals qs (YPtr t)
    | Array b st qs => YArr (length_of b) st (set_of qs) t
    | Function ps dots =>
      YFun t (map (fun p : list word * list deriv =>
        let (ws, L) := p in
        let all := fold_right derive (YBase ws) in
        Some (match L with
              | Array _ _ qs :: L => with_quals qs (YPtr (all L))
              | (Function _ _ | Unprototyped _) :: _ => YPtr (all L)
              | _ => all L
              end)) ps) dots
    | Unprototyped n => YFun t (repeat None n) false
    end.
  Definition build (L : list deriv) (t : cty) : cty := fold_right derive t L.
End Types.

(** * Constraints *)

(** The types a type is made of; [returns]: including return types *)
Inductive inside (returns : bool) : cty -> cty -> Prop :=
  | I_self t : inside returns t t
  | I_pointer s t : inside returns s t -> inside returns s (YPtr t)
  | I_qualified s q t : inside returns s t -> inside returns s (YQual q t)
  | I_element s n st q t : inside returns s t -> inside returns s (YArr n st q t)
  | I_parameter s r ps dots p : In (Some p) ps -> inside returns s p -> inside returns s (YFun r ps dots)
  | I_return s r ps dots : returns = true -> inside returns s r -> inside returns s (YFun r ps dots).

Section Constraints.
  Variables complete_base void_base : list word -> bool.
  (** An object type whose size is known, or a function type *)
  Inductive complete_type : cty -> Prop :=
    | C_base ws : complete_base ws = true -> complete_type (YBase ws)
    | C_pointer t : complete_type (YPtr t)
    | C_qualified q t : complete_type t -> complete_type (YQual q t)
    | C_array n st q t : n <> NoLength -> complete_type (YArr n st q t)
    | C_function r ps dots : complete_type (YFun r ps dots).
  (** 6.7.6.2p1: elements are of complete object type, [static] and qualifiers stand only in
      the outermost derivation of a parameter (which is adjusted to a pointer); 6.7.6.3p1: a
      function returns neither a function nor an array; 6.7.6.3p4,10: parameters are of
      complete type, or there is the one parameter [void]. *)
  Definition satisfied (s : cty) : Prop :=
    match s with
    | YArr _ st q e => complete_type e /\ (forall r ps dots, e <> YFun r ps dots) /\ st = false /\ q = no_quals
    | YFun r ps _ =>
      (forall r' ps' dots', r <> YFun r' ps' dots') /\ (forall n st q e, r <> YArr n st q e) /\
      forall p, In (Some p) ps -> complete_type p \/ exists ws, p = YBase ws /\ void_base ws = true /\ ps = [Some p]
    | _ => True
    end.
  (** 6.7.6.2p1: a constant length is positive *)
  Definition positive (s : cty) : Prop :=
    match s with YArr (Constant z) _ _ _ => (0 < z)%Z | _ => True end.
End Constraints.
