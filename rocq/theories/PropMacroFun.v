(** C46: function-like macros. *)

From Coq Require Import Bool List String Arith Lia.
From Verif Require Import LexModel PropPunct MacroModel MacroSpec MacroProofs PropMacro.
Import ListNotations.
Open Scope string_scope.
Open Scope list_scope.

(** ** Specification *)

(** 6.10.3p10-11: the text of the arguments.  [balanced] text has matching parentheses;
    an argument also has no comma outside of them. *)
Definition ordinary (t : tok) : Prop :=
  t <> TPunct P_LEFT_PARENTHESE /\ t <> TPunct P_RIGHT_PARENTHESE /\ t <> TSentinel.
Inductive balanced : list tok -> Prop :=
  | B_nil : balanced []
  | B_tok : forall t l, ordinary t -> balanced l -> balanced (t :: l)
  | B_par : forall a l, balanced a -> balanced l -> balanced (TPunct P_LEFT_PARENTHESE :: a ++ TPunct P_RIGHT_PARENTHESE :: l).
Inductive argument : list tok -> Prop :=
  | A_nil : argument []
  | A_tok : forall t l, ordinary t -> t <> TPunct P_COMMA -> argument l -> argument (t :: l)
  | A_par : forall a l, balanced a -> argument l -> argument (TPunct P_LEFT_PARENTHESE :: a ++ TPunct P_RIGHT_PARENTHESE :: l).
(** White space at the beginning of an argument is not part of it. *)
Definition no_lead (l : list tok) : Prop := match l with t :: _ => is_ws t = false | [] => True end.

(** [arguments n v text l]: for a macro of [n] named parameters and, if [v], an ellipsis, the
    text between the parentheses consists of the arguments [l]. *)
Inductive arguments : nat -> bool -> list tok -> list (list tok) -> Prop :=
  | G_none : forall s, spaces s -> arguments 0 false s []
  | G_last : forall s a, spaces s -> no_lead a -> argument a -> arguments 1 false (s ++ a) [a]
  | G_rest : forall s a, spaces s -> no_lead a -> balanced a -> arguments 0 true (s ++ a) [a]
  | G_more : forall n v s a t l, spaces s -> no_lead a -> argument a -> n <> 0 \/ v = true -> arguments n v t l ->
      arguments (S n) v (s ++ a ++ TPunct P_COMMA :: t) (a :: l).

(** White space at the end is not part of it either. *)
Definition trimmed (l l' : list tok) : Prop :=
  exists s, spaces s /\ l = l' ++ s /\ (forall x t, l' = x ++ [t] -> is_ws t = false).

Section Spec.
Variable fmt : list tok -> string.
Variable defs : list (string * macro).

(** 6.10.3.1 and 6.10.3.2: parameters are replaced by the expanded arguments, [#] and a
    parameter by the spelling of the argument as written. *)
Definition actual := list (string * (list tok * list tok)).
Definition find_actual (as_ : actual) (p : string) : option (list tok * list tok) :=
  option_map snd (find (fun x => String.eqb (fst x) p) as_).
(** A [##] comes next. *)
Definition joined (l : list tok) : Prop := exists s r, spaces s /\ l = s ++ TPunct P_DOUBLE_HASH :: r.
(** 6.10.3.3p2: an empty argument is a placemaker. *)
Definition placed (l : list tok) : list tok := match l with [] => [TPlace] | _ => l end.
(** The operand of a [##]: as the standard has it, and after macro expansion. *)
Inductive operand (as_ : actual) : tok -> list tok -> list tok -> Prop :=
  | O_param : forall s b raw full, find_actual as_ s = Some (raw, full) -> operand as_ (TId s b) (placed raw) (placed full)
  | O_token : forall t, (forall s b, t = TId s b -> find_actual as_ s = None) -> operand as_ t [t] [t].
(** 6.10.3.3p3 *)
Inductive glued : tok -> tok -> tok -> Prop :=
  | G_left : forall t, glued TPlace t t
  | G_right : forall t, glued t TPlace t
  | G_both : forall t u v, joins t u v -> glued t u v.

(** What [#] and [##] have been applied to, and what [##] has made. *)
Inductive use := U_hash (raw full : list tok) | U_paste (raw full : list tok).

(** [x] is the last token formed so far: [chain x l r rest us] joins it with what follows
    each [##], from left to right. *)
Inductive chain (as_ : actual) : tok -> list tok -> list tok -> list tok -> list use -> Prop :=
  | H_end : forall x l, ~ joined l -> chain as_ x l [x] l []
  | H_more : forall x s1 s2 u raw full y after v l p x' r rest us, spaces s1 -> spaces s2 -> is_ws u = false ->
      operand as_ u raw full -> raw = y :: after -> glued x y v -> v :: after = p ++ [x'] -> is_ws x' = false ->
      chain as_ x' l r rest us ->
      chain as_ x (s1 ++ TPunct P_DOUBLE_HASH :: s2 ++ u :: l) (p ++ r) rest (U_paste raw full :: U_paste [v] [v] :: us).

Inductive substituted (as_ : actual) : list tok -> list tok -> list use -> Prop :=
  | S_nil : substituted as_ [] [] []
  | S_keep : forall t l l' us, t <> TPunct P_HASH -> t <> TPunct P_DOUBLE_HASH -> (is_ws t = false -> ~ joined l) ->
      (forall s b, t = TId s b -> find_actual as_ s = None) -> substituted as_ l l' us -> substituted as_ (t :: l) (t :: l') us
  | S_param : forall s b raw full l l' us, find_actual as_ s = Some (raw, full) -> ~ joined l -> substituted as_ l l' us ->
      substituted as_ (TId s b :: l) (full ++ l') us
  | S_hash : forall s b sp raw full l l' us, spaces sp -> find_actual as_ s = Some (raw, full) -> ~ joined l -> substituted as_ l l' us ->
      substituted as_ (TPunct P_HASH :: sp ++ TId s b :: l) (TStr (fmt raw) :: l') (U_hash raw full :: us)
  | S_paste : forall t raw full p x l r rest l' us us', is_ws t = false -> joined l -> operand as_ t raw full ->
      raw = p ++ [x] -> is_ws x = false -> chain as_ x l r rest us -> substituted as_ rest l' us' ->
      substituted as_ (t :: l) (filter not_place (p ++ r) ++ l') (U_paste raw full :: us ++ us').

Definition parameters (ps : list string) (vararg : bool) : list string := ps ++ if vararg then ["__VA_ARGS__"] else [].
(** What is not covered.  [#] or [##] applied to an argument that macro expansion changes;
    a token [#] or [##] or the name of a parameter in an argument joined with something, or
    made by joining. *)
Definition inert (as_ : actual) (t : tok) : Prop :=
  t <> TPunct P_HASH /\ t <> TPunct P_DOUBLE_HASH /\ forall s b, t = TId s b -> find_actual as_ s = None.
Definition covered (as_ : actual) (u : use) : Prop :=
  match u with
  | U_hash raw full => raw = full
  | U_paste raw full => raw = full /\ Forall (inert as_) raw
  end.

(** Macro replacement (6.10.3.4) of texts in which every name of a macro is replaced: [h]
    are the macros being replaced, none of which is met again, and the name of a
    function-like macro is always followed by its arguments inside the text that is
    scanned.  The last premise of [C_call] restricts [#] and [##]. *)
Inductive clean : list string -> list tok -> list tok -> Prop :=
  | C_nil : forall h, clean h [] []
  | C_keep : forall h t l l', t <> TPlace -> (forall s b, t = TId s b -> b = false /\ s <> "_Pragma" /\ locate defs s = None /\ ~ In s h) ->
      clean h l l' -> clean h (t :: l) (t :: l')
  | C_object : forall h s body body' m l l', locate defs s = Some (MObj body) -> ~ In s h -> source body ->
      pastes body body' -> clean (s :: h) body' m -> clean h l l' -> clean h (TId s false :: l) (m ++ l')
  | C_call : forall h s ps vararg body sp text raws raws' fulls fulls' as_ m us m' l l',
      locate defs s = Some (MFun ps vararg body) -> ~ In s h -> NoDup (parameters ps vararg) ->
      spaces sp -> arguments (List.length ps) vararg text raws -> Forall2 trimmed raws raws' ->
      clean_all h raws fulls -> Forall2 trimmed fulls fulls' ->
      as_ = combine (parameters ps vararg) (combine raws' fulls') ->
      substituted as_ body m us -> clean (s :: h) m m' -> clean h l l' -> Forall (covered as_) us ->
      clean h (TId s false :: sp ++ TPunct P_LEFT_PARENTHESE :: text ++ TPunct P_RIGHT_PARENTHESE :: l) (m' ++ l')
with clean_all : list string -> list (list tok) -> list (list tok) -> Prop :=
  | D_nil : forall h, clean_all h [] []
  | D_cons : forall h a a' l l', clean h a a' -> clean_all h l l' -> clean_all h (a :: l) (a' :: l').
Scheme clean_min := Minimality for clean Sort Prop
with clean_all_min := Minimality for clean_all Sort Prop.
Combined Scheme clean_both from clean_min, clean_all_min.

End Spec.

(** ** Arguments *)

Definition app_all (acc : list (list tok)) (l : list tok) : list (list tok) := fold_left append_arg l acc.
Lemma app_all_cons : forall l a r, app_all (a :: r) l = (a ++ l) :: r.
Proof.
  induction l as [|t l IH]; intros a r; [rewrite app_nil_r; reflexivity|]. unfold app_all in *. simpl. rewrite IH.
  rewrite <- app_assoc. reflexivity.
Qed.
Lemma app_all_nil : forall t l, app_all [] (t :: l) = [t :: l].
Proof. intros. unfold app_all. simpl. apply (app_all_cons l [t] []). Qed.
Lemma app_all_app : forall a b acc, app_all acc (a ++ b) = app_all (app_all acc a) b.
Proof. intros. unfold app_all. apply fold_left_app. Qed.

Lemma scan_ordinary : forall t r n rem v acc, ordinary t -> (t = TPunct P_COMMA -> n <> 0 \/ rem = 0 /\ v = true) ->
  scan_loop (t :: r) false n rem v acc = scan_loop r false n rem v (append_arg acc t).
Proof.
  intros t r n rem v acc (A & B & C) D. destruct t as [| |p| | | | |]; try reflexivity; [|congruence].
  destruct p; try reflexivity; try congruence. simpl. specialize (D eq_refl).
  destruct n; [|reflexivity]. destruct D as [D|[-> ->]]; [congruence|reflexivity].
Qed.
Lemma scan_balanced : forall l, balanced l -> forall r n rem v acc, n <> 0 \/ rem = 0 /\ v = true ->
  scan_loop (l ++ r) false n rem v acc = scan_loop r false n rem v (app_all acc l).
Proof.
  induction 1 as [|t l O B IH|a l B1 IH1 B2 IH2]; intros r n rem v acc D; [reflexivity| |].
  - simpl app. rewrite scan_ordinary by auto. rewrite IH by exact D. reflexivity.
  - simpl app. cbn [scan_loop andb]. rewrite <- app_assoc. rewrite IH1 by (left; discriminate).
    simpl app. cbn [scan_loop andb]. rewrite IH2 by exact D. f_equal. unfold app_all. simpl.
    rewrite fold_left_app. reflexivity.
Qed.
Lemma scan_argument : forall l, argument l -> forall r n rem v acc,
  scan_loop (l ++ r) false n rem v acc = scan_loop r false n rem v (app_all acc l).
Proof.
  induction 1 as [|t l O N A IH|a l B A IH]; intros r n rem v acc; [reflexivity| |].
  - simpl app. rewrite scan_ordinary by (auto; intro; contradiction). rewrite IH. reflexivity.
  - simpl app. cbn [scan_loop andb]. rewrite <- app_assoc. rewrite scan_balanced by (auto; left; discriminate).
    simpl app. cbn [scan_loop andb]. rewrite IH. f_equal. unfold app_all. simpl.
    rewrite fold_left_app. reflexivity.
Qed.
Lemma scan_spaces : forall s r n rem v acc, spaces s -> scan_loop (s ++ r) true n rem v acc = scan_loop r true n rem v acc.
Proof.
  induction s as [|t s IH]; intros r n rem v acc H; [reflexivity|]. simpl app. cbn [scan_loop andb].
  rewrite (H t (or_introl eq_refl)). apply IH. intros u I. apply H. right. exact I.
Qed.
Lemma scan_fresh : forall t r n rem v acc, is_ws t = false -> scan_loop (t :: r) true n rem v acc = scan_loop (t :: r) false n rem v acc.
Proof. intros t r n rem v acc H. cbn [scan_loop andb]. rewrite H. reflexivity. Qed.
Lemma scan_lead : forall s a t r n rem v acc, spaces s -> no_lead a -> is_ws t = false ->
  scan_loop (s ++ a ++ t :: r) true n rem v acc = scan_loop (a ++ t :: r) false n rem v acc.
Proof.
  intros s a t r n rem v acc S L W. rewrite scan_spaces by exact S. destruct a as [|x a]; simpl app; apply scan_fresh; assumption.
Qed.

(** The arguments so far, the last one first; [[]] stands for none. *)
Lemma scan_arguments : forall n v t l, arguments n v t l -> forall rest acc,
  (acc <> [] -> l <> []) ->
  scan_loop (t ++ TPunct P_RIGHT_PARENTHESE :: rest) true 0 n v (match acc with [] => [] | _ => [] :: acc end) =
  Some (match acc, l with
        | [], [[]] => []
        | _, _ => rev l ++ acc
        end, rest).
Proof.
  induction 1 as [s S|s a S L A|s a S L B|n v s a t l S L A N G IH]; intros rest acc Hacc.
  - destruct acc; [|exfalso; apply Hacc; [discriminate|reflexivity]]. rewrite scan_spaces by exact S. reflexivity.
  - rewrite <- app_assoc. rewrite scan_lead by auto. rewrite scan_argument by exact A. cbn [scan_loop andb].
    destruct acc as [|c acc]; [destruct a; [reflexivity|rewrite app_all_nil; reflexivity]|].
    rewrite app_all_cons. reflexivity.
  - rewrite <- app_assoc. rewrite scan_lead by auto. rewrite scan_balanced by auto. cbn [scan_loop andb].
    destruct acc as [|c acc]; [destruct a; [reflexivity|rewrite app_all_nil; reflexivity]|].
    rewrite app_all_cons. reflexivity.
  - rewrite <- !app_assoc. simpl app. rewrite scan_lead by auto. rewrite scan_argument by exact A. cbn [scan_loop andb].
    assert (E : negb (Nat.eqb n 0) || v = true).
    { destruct N as [N| ->]; [|apply orb_true_r]. apply Nat.eqb_neq in N. rewrite N. reflexivity. }
    rewrite E.
    assert (Q : match app_all (match acc with [] => [] | _ => [] :: acc end) a with
                | [] => [[]] | _ => app_all (match acc with [] => [] | _ => [] :: acc end) a end = a :: acc).
    { destruct acc; [destruct a; [reflexivity|rewrite app_all_nil; reflexivity]|rewrite app_all_cons; reflexivity]. }
    rewrite Q. rewrite (IH rest (a :: acc)).
    + f_equal. f_equal. simpl rev. rewrite <- app_assoc. destruct acc; [|reflexivity].
      destruct l; [|destruct a; reflexivity].
      exfalso. inversion G; subst; destruct N; congruence.
    + intros _ ->. inversion G; subst; destruct N; congruence.
Qed.
Lemma arguments_length : forall n v t l, arguments n v t l -> List.length l = n + if v then 1 else 0.
Proof. induction 1; simpl; auto. Qed.

(** scan_function_macro_arguments finds the arguments. *)
Theorem c46_arguments : forall n v text l rest, arguments n v text l ->
  scan_args (text ++ TPunct P_RIGHT_PARENTHESE :: rest) n v = Some (l, rest).
Proof.
  intros n v text l rest G. unfold scan_args. pose proof (scan_arguments _ _ _ _ G rest []) as H. simpl in H.
  rewrite H by congruence. pose proof (arguments_length _ _ _ _ G) as E.
  assert (Q : (match (match l with [[]] => [] | _ => rev l ++ [] end) with
     | [] => if Nat.eqb n 1 || v then [[]] else [] | _ => rev (match l with [[]] => [] | _ => rev l ++ [] end) end) = l).
  { rewrite app_nil_r. destruct l as [|x [|y l]].
    - simpl. destruct v; [simpl in E; lia|]. simpl in E. destruct n; [reflexivity|lia].
    - destruct x; [|reflexivity]. simpl in E. destruct v; [rewrite orb_true_r; reflexivity|].
      destruct n as [|[|n]]; try (simpl in E; lia). reflexivity.
    - destruct x; (destruct (rev _) eqn:R; [apply (f_equal (@rev _)) in R; rewrite rev_involutive in R; discriminate|];
        rewrite <- R; apply rev_involutive). }
  rewrite Q, E, Nat.eqb_refl. reflexivity.
Qed.

(** ** Replacement lists *)

Lemma strip_snoc : forall l s, spaces s -> strip (l ++ s) = strip l.
Proof.
  intros l s. induction l as [|t l IH]; intro S.
  - simpl. induction s as [|t s IHs]; [reflexivity|]. simpl. rewrite IHs.
    + rewrite (S t (or_introl eq_refl)). reflexivity.
    + intros u I. apply S. right. exact I.
  - simpl. rewrite IH by exact S. reflexivity.
Qed.
Lemma strip_id : forall l, (forall x t, l = x ++ [t] -> is_ws t = false) -> strip l = l.
Proof.
  induction l as [|t l IH]; intro H; [reflexivity|]. simpl. rewrite IH.
  - destruct l; [|reflexivity]. rewrite (H [] t eq_refl). reflexivity.
  - intros x u E. apply (H (t :: x)). simpl. f_equal. exact E.
Qed.
Lemma strip_trimmed : forall l l', trimmed l l' -> strip l = l'.
Proof. intros l l' (s & S & -> & H). rewrite strip_snoc by exact S. apply strip_id. exact H. Qed.
Lemma strip_all : forall l l', Forall2 trimmed l l' -> map strip l = l'.
Proof. induction 1; [reflexivity|]. simpl. f_equal; [apply strip_trimmed; assumption|assumption]. Qed.

Lemma build_tree_combine : forall ps args vararg, List.length args = List.length (parameters ps vararg) ->
  build_tree ps args vararg = Some (combine (parameters ps vararg) args).
Proof.
  unfold parameters. induction ps as [|p ps IH]; intros args vararg H.
  - destruct vararg; simpl in *; destruct args as [|a [|b args]]; simpl in *; try lia; reflexivity.
  - destruct args as [|a args]; [simpl in H; rewrite app_length in H; lia|]. simpl in *. rewrite IH by lia. reflexivity.
Qed.
Lemma has_key_combine : forall ks (args : list (list tok)) k, has_key (combine ks args) k = true -> In k ks.
Proof.
  induction ks as [|k' ks IH]; intros args k H; [discriminate|]. destruct args; [discriminate|]. simpl in H.
  apply orb_true_iff in H. destruct H as [H|H]; [left; apply String.eqb_eq; exact H|right; eauto].
Qed.
Lemma distinct_combine : forall ks (args : list (list tok)), NoDup ks -> distinct (combine ks args) = true.
Proof.
  induction ks as [|k ks IH]; intros args H; [reflexivity|]. destruct args; [reflexivity|]. inversion H; subst. simpl.
  rewrite IH by assumption. rewrite andb_true_r. apply negb_true_iff. apply not_true_is_false. intro E.
  apply has_key_combine in E. contradiction.
Qed.
Lemma look_actual : forall ks raws fulls s, List.length raws = List.length fulls -> 
  look (combine ks fulls) s = option_map snd (find_actual (combine ks (combine raws fulls)) s).
Proof.
  induction ks as [|k ks IH]; intros raws fulls s H; [reflexivity|].
  destruct fulls as [|f fulls]; destruct raws as [|r raws]; simpl in *; try lia; [reflexivity|].
  unfold find_actual in *. simpl. destruct (String.eqb k s); [reflexivity|]. apply IH. lia.
Qed.

Section Fun.
Variable fmt : list tok -> string.
Variable defs : list (string * macro).

Lemma joined_dec : forall l, joined l \/ ~ joined l.
Proof.
  intro l. destruct (skip_ws_split l) as (s & E & W). destruct (skip_ws l) as [|t r] eqn:K.
  - right. intros (s' & r' & S' & E'). rewrite E' in K. rewrite skip_ws_spaces in K by exact S'. discriminate.
  - destruct (match t with TPunct P_DOUBLE_HASH => true | _ => false end) eqn:D.
    + left. exists s, r. split; [exact W|]. destruct t as [| |q| | | | |]; try discriminate. destruct q; try discriminate. exact E.
    + right. intros (s' & r' & S' & E'). rewrite E' in K. rewrite skip_ws_spaces in K by exact S'. simpl in K.
      injection K as <- <-. discriminate.
Qed.
Lemma no_paste_match : forall t x l, ~ joined l -> match_concatenation t x l = None.
Proof.
  intros t x l N. unfold match_concatenation. destruct (is_ws x); [reflexivity|].
  destruct (skip_ws_split l) as (s & E & W). destruct (skip_ws l) as [|[| |p| | | | |] r]; try reflexivity.
  destruct p; try reflexivity. exfalso. apply N. exists s, r. auto.
Qed.
Lemma ws_match : forall t x l, is_ws x = true -> match_concatenation t x l = None.
Proof. intros t x l H. unfold match_concatenation. rewrite H. reflexivity. Qed.
Lemma glued_concat : forall x y v, glued x y v -> concat_impl x y = Some v.
Proof.
  intros x y v [t|t|t u w J]; [reflexivity|destruct t; reflexivity|]. apply joins_concat. exact J.
Qed.

Lemma replace_keep : forall f tree t l, match_concatenation (Some tree) t l = None -> param (Some tree) t = None -> t <> TPunct P_HASH ->
  replace fmt (S f) (Some tree) (t :: l) = bind (replace fmt f (Some tree) l) (fun r => Ok (t :: r)).
Proof.
  intros f tree t l A B C. cbn [replace]. rewrite A, B. destruct t as [| |q| | | | |]; try reflexivity. destruct q; try reflexivity. congruence.
Qed.

Section Tree.
Variable tree : argtree.
Variable as_ : actual.
Hypothesis HL : forall s, look tree s = option_map snd (find_actual as_ s).
Notation reaches l r := (exists f0, forall f, f0 <= f -> replace fmt f (Some tree) l = Ok r).

Lemma inert_param : forall t, inert as_ t -> param (Some tree) t = None.
Proof. intros t (_ & _ & H). destruct t; try reflexivity. simpl. rewrite HL, (H _ _ eq_refl). reflexivity. Qed.
Lemma not_joined : forall p x l, Forall (inert as_) p -> is_ws x = false -> x <> TPunct P_DOUBLE_HASH -> ~ joined (p ++ x :: l).
Proof.
  intros p x l F W N (s & r & S & E). revert p F E. induction s as [|t s IH]; intros p F E.
  - destruct p as [|y p]; simpl in E; injection E as -> E; [congruence|]. inversion F; subst. destruct H1 as (_ & D & _). congruence.
  - destruct p as [|y p]; simpl in E; injection E as -> E.
    + rewrite (S t (or_introl eq_refl)) in W. discriminate.
    + inversion F; subst. apply (IH (fun u I => S u (or_intror I)) p H2 E).
Qed.
Lemma replace_prefix : forall p x l r, Forall (inert as_) p -> is_ws x = false -> x <> TPunct P_DOUBLE_HASH ->
  reaches (x :: l) r -> reaches (p ++ x :: l) (p ++ r).
Proof.
  induction p as [|t p IH]; intros x l r F W N [f0 H]; [exists f0; exact H|]. inversion F as [|? ? It Fp]; subst.
  destruct (IH x l r Fp W N (ex_intro _ f0 H)) as [f1 H1]. exists (S f1). intros f Hf. destruct f as [|f]; [lia|]. simpl app.
  rewrite replace_keep; [rewrite H1 by lia; reflexivity| |apply inert_param; exact It|apply It].
  apply no_paste_match. apply not_joined; assumption.
Qed.

Lemma operand_left : forall t raw full p x, operand as_ t raw full -> raw = full -> raw = p ++ [x] ->
  resolve_left (Some tree) t = (p, x).
Proof.
  intros t raw full p x O E R. unfold resolve_left. destruct O as [s b raw full F|t F].
  - cbn [param]. rewrite HL, F. cbn [option_map snd]. rewrite E in R. destruct full as [|y full].
    + destruct p as [|? [|? ?]]; simpl in R; try discriminate. congruence.
    + cbn [placed] in R. rewrite R, removelast_last, last_last. destruct p; reflexivity.
  - assert (Q : param (Some tree) t = None).
    { destruct t; try reflexivity. simpl. rewrite HL, (F _ _ eq_refl). reflexivity. }
    rewrite Q. destruct p as [|? [|? ?]]; simpl in R; try discriminate; congruence.
Qed.
Lemma operand_right : forall t raw full y after, operand as_ t raw full -> raw = full -> raw = y :: after ->
  resolve_right (Some tree) t = (y, after).
Proof.
  intros t raw full y after O E R. unfold resolve_right. destruct O as [s b raw full F|t F].
  - cbn [param]. rewrite HL, F. cbn [option_map snd]. rewrite E in R. destruct full as [|z full]; simpl in *; congruence.
  - assert (Q : param (Some tree) t = None).
    { destruct t; try reflexivity. simpl. rewrite HL, (F _ _ eq_refl). reflexivity. }
    rewrite Q. congruence.
Qed.

(** One [##], whose left operand is the parameter or token [t]. *)
Lemma replace_join : forall t raw full p x s1 s2 u raw' full' y after v l r, is_ws t = false ->
  operand as_ t raw full -> raw = full -> raw = p ++ [x] -> spaces s1 -> spaces s2 -> is_ws u = false ->
  operand as_ u raw' full' -> raw' = full' -> raw' = y :: after -> glued x y v ->
  reaches (p ++ v :: after ++ l) r -> reaches (t :: s1 ++ TPunct P_DOUBLE_HASH :: s2 ++ u :: l) r.
Proof.
  intros t raw full p x s1 s2 u raw' full' y after v l r Wt O1 E1 R1 S1 S2 Wu O2 E2 R2 G [f0 H]. exists (S f0). intros f Hf.
  destruct f as [|f]; [lia|]. cbn [replace]. unfold match_concatenation. rewrite Wt, (skip_ws_spaces _ _ S1). cbn [skip_ws is_ws].
  rewrite (skip_ws_spaces _ _ S2). cbn [skip_ws]. rewrite Wu. unfold macro_concatenation.
  rewrite (operand_left _ _ _ _ _ O1 E1 R1), (operand_right _ _ _ _ _ O2 E2 R2), (glued_concat _ _ _ G). cbn [option_map].
  rewrite <- !app_assoc. simpl app. rewrite H by lia. reflexivity.
Qed.

Lemma replace_chain : forall x l r rest us, chain as_ x l r rest us -> Forall (covered as_) us -> forall out, reaches rest out ->
  (inert as_ x -> is_ws x = false -> reaches (x :: l) (r ++ out)) /\
  (joined l -> forall t raw full p, is_ws t = false -> operand as_ t raw full -> raw = full -> raw = p ++ [x] -> 
     Forall (inert as_) p -> reaches (t :: l) (p ++ r ++ out)).
Proof.
  induction 1 as [x l NJ|x s1 s2 u raw full y after v l q x' r rest us S1 S2 Wu O R G V Wx C IH]; intros CO out Hout.
  - split; [|intro J; contradiction]. intros I W. destruct Hout as [f0 H0]. exists (S f0). intros f Hf. destruct f as [|f]; [lia|].
    rewrite replace_keep; [rewrite H0 by lia; reflexivity|apply no_paste_match; exact NJ|apply inert_param; exact I|apply I].
  - inversion CO as [|? ? E' CO1]; subst. destruct E' as [E F]. inversion CO1 as [|? ? E' CO2]; subst. destruct E' as [_ Fv].
    assert (Iq : Forall (inert as_) (q ++ [x'])).
    { rewrite <- V. constructor; [inversion Fv; assumption|inversion F; assumption]. }
    apply Forall_app in Iq. destruct Iq as [Iq Ix]. inversion Ix as [|? ? Ix' _]; subst.
    destruct (proj1 (IH CO2 out Hout) Ix' Wx) as [f1 H1].
    assert (K : reaches (v :: after ++ l) (q ++ r ++ out)).
    { change (v :: after ++ l) with ((v :: after) ++ l). rewrite V, <- app_assoc. simpl app.
      apply replace_prefix; [exact Iq|exact Wx|apply Ix'|exists f1; exact H1]. }
    assert (J : forall t raw0 full0 p, is_ws t = false -> operand as_ t raw0 full0 -> raw0 = full0 -> raw0 = p ++ [x] ->
       Forall (inert as_) p -> reaches (t :: s1 ++ TPunct P_DOUBLE_HASH :: s2 ++ u :: l) (p ++ (q ++ r) ++ out)).
    { intros t raw0 full0 p Wt Ot Et Rt Ip. apply (replace_join t raw0 full0 p x s1 s2 u (y :: after) (y :: after) y after v l); auto.
      change (v :: after ++ l) with ((v :: after) ++ l). rewrite V, <- !app_assoc. simpl app. rewrite (app_assoc p q (x' :: l)), (app_assoc p q (r ++ out)).
      apply replace_prefix; [apply Forall_app; split; assumption|exact Wx|apply Ix'|exists f1; exact H1]. }
    split; [|intros _; exact J]. intros I W. apply (J x [x] [x] []); auto. constructor. apply I.
Qed.

Lemma replace_substituted : forall l m us, substituted fmt as_ l m us -> Forall (covered as_) us -> 
  exists m0, filter not_place m0 = filter not_place m /\ reaches l m0.
Proof.
  induction 1 as [|t l l' us N1 N2 NJ NP S IH|s b raw full l l' us F NJ S IH|s b sp raw full l l' us Sp F NJ S IH
    |t raw full p x l r rest l' us us' Wt J O R Wx C S IH]; intros CO.
  - exists []. split; [reflexivity|]. exists 1. intros f Hf. destruct f; [lia|]. reflexivity.
  - destruct (IH CO) as (m0 & E & f0 & H0). exists (t :: m0). split; [simpl; rewrite E; reflexivity|].
    exists (Datatypes.S f0). intros f Hf. destruct f as [|f]; [lia|]. rewrite replace_keep; [rewrite H0 by lia; reflexivity| | |exact N1].
    + destruct (is_ws t) eqn:W; [apply ws_match; exact W|apply no_paste_match; auto].
    + destruct t; try reflexivity. simpl. rewrite HL, (NP _ _ eq_refl). reflexivity.
  - destruct (IH CO) as (m0 & E & f0 & H0). exists (full ++ m0). split; [rewrite !filter_app, E; reflexivity|].
    exists (Datatypes.S f0). intros f Hf. destruct f as [|f]; [lia|]. cbn [replace]. rewrite (no_paste_match _ _ _ NJ).
    unfold param. rewrite HL, F. cbn [option_map snd]. rewrite H0 by lia. reflexivity.
  - inversion CO as [|? ? E CO']; subst. simpl in E. subst full. destruct (IH CO') as (m0 & E & f0 & H0). exists (TStr (fmt raw) :: m0).
    split; [simpl; rewrite E; reflexivity|]. exists (Datatypes.S f0). intros f Hf. destruct f as [|f]; [lia|].
    cbn [replace]. rewrite no_paste_match; cycle 1.
    + intros (s' & r' & S' & E'). pose proof (f_equal skip_ws E') as K. rewrite !skip_ws_spaces in K by assumption. discriminate.
    + cbn [param]. rewrite (skip_ws_spaces _ _ Sp). cbn [skip_ws is_ws]. rewrite HL, F. cbn [option_map snd]. rewrite H0 by lia. reflexivity.
  - inversion CO as [|? ? E' CO']; subst. destruct E' as [E' F]. apply Forall_app in CO'. destruct CO' as [C1 C2].
    destruct (IH C2) as (m0 & E & H0). apply Forall_app in F. destruct F as [Fp _].
    exists (p ++ r ++ m0). split.
    + assert (D : forall l, filter not_place (filter not_place l) = filter not_place l).
      { clear. induction l as [|t l IH]; [reflexivity|]. simpl. destruct (not_place t) eqn:N; [simpl; rewrite N; congruence|exact IH]. }
      rewrite !filter_app, E, !D, <- app_assoc. reflexivity.
    + eapply (proj2 (replace_chain _ _ _ _ _ C C1 m0 H0) J); try eassumption; reflexivity.
Qed.
End Tree.

(** ** Expansion *)

(** In clean text there is no mark, no placemaker and no name of a macro being replaced. *)
Definition fresh_text (h : list string) (l : list tok) : Prop :=
  forall t, In t l -> t <> TPlace /\ forall s b, t = TId s b -> b = false /\ ~ In s h.
Lemma fresh_app : forall h a b, fresh_text h a -> fresh_text h b -> fresh_text h (a ++ b).
Proof. intros h a b A B t I. apply in_app_iff in I. destruct I; auto. Qed.
Lemma fresh_cons : forall h t l, t <> TPlace -> (forall s b, t = TId s b -> b = false /\ ~ In s h) -> fresh_text h l -> fresh_text h (t :: l).
Proof. intros h t l A B C u [<-|I]; auto. Qed.
Lemma fresh_spaces : forall h s, spaces s -> fresh_text h s.
Proof. intros h s S t I. specialize (S t I). destruct t; try discriminate. split; [discriminate|intros ? ? E; discriminate]. Qed.
Lemma fresh_arguments : forall h n v t l, arguments n v t l -> (forall a, In a l -> fresh_text h a) -> fresh_text h t.
Proof.
  intros h n v t l G. induction G as [s S|s a S L A|s a S L B|n v s a t l S L A N G IH]; intro H.
  - apply fresh_spaces; exact S.
  - apply fresh_app; [apply fresh_spaces; exact S|apply H; left; reflexivity].
  - apply fresh_app; [apply fresh_spaces; exact S|apply H; left; reflexivity].
  - apply fresh_app; [apply fresh_spaces; exact S|]. apply fresh_app; [apply H; left; reflexivity|].
    apply fresh_cons; [discriminate|intros; discriminate|]. apply IH. intros x I. apply H. right. exact I.
Qed.

Lemma clean_fresh : (forall h l e, clean fmt defs h l e -> fresh_text h l) /\
  (forall h ls es, clean_all fmt defs h ls es -> forall a, In a ls -> fresh_text h a).
Proof.
  apply clean_both.
  - intros h t [].
  - intros h t l l' A B C IH. apply fresh_cons; [exact A| |exact IH]. intros s b E. destruct (B s b E) as (X & _ & _ & Y). auto.
  - intros h s body body' m l l' L N S P C1 IH1 C2 IH2. apply fresh_cons; [discriminate| |exact IH2].
    intros s' b E. injection E as <- <-. auto.
  - intros h s ps vararg body sp text raws raws' fulls fulls' as_ m us m' l l' L N ND Sp G T1 CA IHA T2 E S C1 IH1 C2 IH2 ST.
    apply fresh_cons; [discriminate|intros s' b E'; injection E' as <- <-; auto|].
    apply fresh_app; [apply fresh_spaces; exact Sp|]. apply fresh_cons; [discriminate|intros; discriminate|].
    apply fresh_app; [eapply fresh_arguments; eassumption|]. apply fresh_cons; [discriminate|intros; discriminate|exact IH2].
  - intros h a [].
  - intros h a a' l l' C IH CA IHA x [<-|I]; auto.
Qed.
Lemma fresh_finish : forall s h m, fresh_text (s :: h) m -> finish s m = m.
Proof.
  intros s h m. unfold finish. induction m as [|t m IH]; intro F; [reflexivity|].
  destruct (F t (or_introl eq_refl)) as [P I]. simpl.
  assert (E : mark s t = t).
  { destruct t as [x b| | | | | | |]; try reflexivity. destruct (I x b eq_refl) as [-> N]. simpl.
    destruct (String.eqb x s) eqn:Q; [|reflexivity]. apply String.eqb_eq in Q. subst. exfalso. apply N. left. reflexivity. }
  rewrite E. destruct t; simpl; try (f_equal; apply IH; intros u J; apply F; right; exact J). congruence.
Qed.

Lemma finish_filter : forall s l, finish s l = map (mark s) (filter not_place l).
Proof.
  intros s l. unfold finish. induction l as [|t l IH]; [reflexivity|]. simpl. rewrite IH. destruct t; reflexivity.
Qed.
Lemma finish_same : forall s a b, filter not_place a = filter not_place b -> finish s a = finish s b.
Proof. intros s a b E. rewrite !finish_filter, E. reflexivity. Qed.

Definition no_pragma (l : list tok) : Prop := forall b, ~ In (TId "_Pragma" b) l.
Lemma pragmas_none : forall l n, no_pragma l -> len l <= n -> pragmas n l = Ok l.
Proof.
  induction l as [|t l IH]; intros n N H; [destruct n; reflexivity|]. destruct n as [|n]; [simpl in H; lia|]. simpl.
  rewrite IH.
  - destruct t as [s b| | | | | | |]; try reflexivity. destruct (String.eqb s "_Pragma") eqn:E; [|reflexivity].
    apply String.eqb_eq in E. subst. exfalso. eapply N. left. reflexivity.
  - intros b I. eapply N. right. exact I.
  - simpl in H. lia.
Qed.
Lemma clean_no_pragma : (forall h l e, clean fmt defs h l e -> no_pragma e) /\
  (forall h ls es, clean_all fmt defs h ls es -> forall a, In a es -> no_pragma a).
Proof.
  apply clean_both.
  - intros h b [].
  - intros h t l l' A B C IH b [->|I]; [|eapply IH; exact I]. destruct (B _ _ eq_refl) as (_ & X & _). congruence.
  - intros h s body body' m l l' L N S P C1 IH1 C2 IH2 b I. apply in_app_iff in I. destruct I as [I|I]; [eapply IH1|eapply IH2]; exact I.
  - intros h s ps vararg body sp text raws raws' fulls fulls' as_ m us m' l l' L N ND Sp G T1 CA IHA T2 E S C1 IH1 C2 IH2 ST b I.
    apply in_app_iff in I. destruct I as [I|I]; [eapply IH1|eapply IH2]; exact I.
  - intros h a [].
  - intros h a a' l l' C IH CA IHA x [<-|I]; auto.
Qed.

Lemma Forall2_len : forall A B (R : A -> B -> Prop) l l', Forall2 R l l' -> len l = len l'.
Proof. induction 1; simpl; congruence. Qed.
Lemma clean_all_len : forall h l l', clean_all fmt defs h l l' -> len l = len l'.
Proof. induction 1; simpl; congruence. Qed.

Lemma clean_run : (forall h l e, clean fmt defs h l e -> forall r rest f0, (forall f, f0 <= f -> run fmt defs f false r = Ok rest) ->
    exists f1, forall f, f1 <= f -> run fmt defs f false (l ++ r) = Ok (e ++ rest)) /\
  (forall h ls es, clean_all fmt defs h ls es -> exists f1, forall f, f1 <= f ->
    mapM (fun a => bind (run fmt defs f false a) (fun l => pragmas (List.length l) l)) ls = Ok es).
Proof.
  apply clean_both.
  - intros h r rest f0 H. exists f0. exact H.
  - intros h t l l' A B C IH r rest f0 H. destruct (IH _ _ _ H) as [f1 H1]. exists (S f1). intros f Hf.
    destruct f as [|f]; [lia|]. simpl app. destruct t as [s b| | | | | | |];
      try (rewrite run_tok by discriminate; rewrite H1 by lia; reflexivity).
    destruct (B s b eq_refl) as (-> & _ & L & _). rewrite run_id. cbn [negb orb]. rewrite andb_false_r, L, H1 by lia. reflexivity.
  - intros h s body body' m l l' L N S P C1 IH1 C2 IH2 r rest f0 H.
    destruct (IH2 _ _ _ H) as [f2 H2]. destruct (IH1 _ _ _ H2) as [f1 H1].
    exists (Datatypes.S (max f1 (Datatypes.S (len body)))). intros f Hf. destruct f as [|f]; [lia|]. simpl app.
    rewrite run_id. cbn [negb orb]. rewrite andb_false_r, L. unfold apply_object.
    rewrite (pastes_replace fmt _ _ P S f) by lia. cbn [bind].
    rewrite (fresh_finish s h body') by (eapply (proj1 clean_fresh); exact C1).
    rewrite H1 by lia. rewrite app_assoc. reflexivity.
  - intros h s ps vararg body sp text raws raws' fulls fulls' as_ m us m' l l' L N ND Sp G T1 CA IHA T2 E S C1 IH1 C2 IH2 ST r rest f0 H.
    destruct (IH2 _ _ _ H) as [f2 H2]. destruct (IH1 _ _ _ H2) as [f1 H1]. destruct IHA as [f3 H3].
    pose proof (arguments_length _ _ _ _ G) as LG. pose proof (Forall2_len _ _ _ _ _ T1) as LT1.
    pose proof (Forall2_len _ _ _ _ _ T2) as LT2. pose proof (clean_all_len _ _ _ CA) as LCA.
    assert (HL : forall x, look (combine (parameters ps vararg) fulls') x = option_map snd (find_actual as_ x)).
    { intro x. subst as_. apply look_actual. congruence. }
    destruct (replace_substituted _ _ HL _ _ _ S ST) as (m0 & EF & f4 & H4).
    exists (Datatypes.S (max (max f1 f3) f4)). intros f Hf. destruct f as [|f]; [lia|].
    replace ((TId s false :: sp ++ TPunct P_LEFT_PARENTHESE :: text ++ TPunct P_RIGHT_PARENTHESE :: l) ++ r)
      with (TId s false :: sp ++ TPunct P_LEFT_PARENTHESE :: text ++ TPunct P_RIGHT_PARENTHESE :: (l ++ r)).
    2: { simpl. f_equal. rewrite <- app_assoc. f_equal. simpl. f_equal. rewrite <- app_assoc. reflexivity. }
    rewrite run_id. cbn [negb orb]. rewrite andb_false_r, L.
    rewrite skip_ws_spaces by exact Sp. cbn [skip_ws is_ws]. rewrite (c46_arguments _ _ _ _ _ G).
    rewrite H3 by lia. cbn [bind]. rewrite (strip_all _ _ T2). unfold apply_function.
    rewrite build_tree_combine.
    2: { unfold parameters. rewrite app_length, <- LT2, <- LCA, LG. destruct vararg; reflexivity. }
    rewrite distinct_combine by exact ND.
    rewrite H4 by lia. cbn [bind]. rewrite (finish_same _ _ _ EF), (fresh_finish s h m) by (eapply (proj1 clean_fresh); exact C1).
    rewrite H1 by lia. rewrite app_assoc. reflexivity.
  - intros h. exists 0. reflexivity.
  - intros h a a' l l' C IH CA [f2 H2]. destruct (IH [] [] 1) as [f1 H1].
    { intros f Hf. destruct f; [lia|]. reflexivity. }
    exists (max f1 f2). intros f Hf. simpl. specialize (H1 f ltac:(lia)). rewrite !app_nil_r in H1. rewrite H1. cbn [bind].
    rewrite pragmas_none; [|eapply (proj1 clean_no_pragma); exact C|lia]. cbn [bind]. rewrite H2 by lia. reflexivity.
Qed.

End Fun.

(** ** C46 *)

(** Text in which every macro name can be replaced expands as the standard says. *)
Theorem c46_expansion_partial : forall fmt defs ts e, clean fmt defs [] ts e ->
  exists f0, forall fuel, f0 <= fuel -> run_substitutions fmt defs fuel false ts = Ok e.
Proof.
  intros fmt defs ts e C. destruct (proj1 (clean_run fmt defs) _ _ _ C [] [] 1) as [f0 H].
  { intros f Hf. destruct f; [lia|]. reflexivity. }
  exists f0. intros fuel Hf. unfold run_substitutions. specialize (H fuel Hf). rewrite !app_nil_r in H. rewrite H. cbn [bind].
  apply pragmas_none; [eapply (proj1 (clean_no_pragma fmt defs)); exact C|lia].
Qed.

(** ** Where it differs from the standard *)

Lemma joined_nil : ~ joined [].
Proof. intros (s & r & _ & E). destruct s; discriminate. Qed.
Lemma joined_no : forall t l, is_ws t = false -> t <> TPunct P_DOUBLE_HASH -> ~ joined (t :: l).
Proof.
  intros t l W N (s & r & S & E). destruct s as [|x s]; injection E as -> E; [congruence|].
  rewrite (S x (or_introl eq_refl)) in W. discriminate.
Qed.
Lemma joined_yes : forall l, joined (TPunct P_DOUBLE_HASH :: l).
Proof. intro l. exists [], l. split; [intros t []|reflexivity]. Qed.
Lemma pastes_tok : forall t, pastes [t] [t].
Proof. intro t. constructor; [|constructor]. intros _ x r _. destruct x; discriminate. Qed.

(** 6.10.3.2p2: [#] takes the spelling of the argument as written.  [#define S(x) #x],
    [#define A 1]: [S(A)] gives the spelling of [1]. *)
Definition stringize : list (string * macro) :=
  [("S", MFun ["x"] false [TPunct P_HASH; id "x"]); ("A", MObj [TNum "1"])].
Theorem c46_hash_refuted : forall fmt,
  (forall fuel, 9 <= fuel -> run_substitutions fmt stringize fuel false
     [id "S"; TPunct P_LEFT_PARENTHESE; id "A"; TPunct P_RIGHT_PARENTHESE] = Ok [TStr (fmt [TNum "1"])]) /\
  arguments 1 false [id "A"] [[id "A"]] /\ clean fmt stringize [] [id "A"] [TNum "1"] /\
  substituted fmt [("x", ([id "A"], [TNum "1"]))] [TPunct P_HASH; id "x"] [TStr (fmt [id "A"])] [U_hash [id "A"] [TNum "1"]].
Proof.
  intro fmt. split; [|split; [|split]].
  - intros fuel H. do 9 (destruct fuel as [|fuel]; [lia|]). reflexivity.
  - apply (G_last []); [intros t []|reflexivity|]. apply A_tok; [|discriminate|constructor].
    repeat split; discriminate.
  - change [TNum "1"] with ([TNum "1"] ++ []). eapply C_object; [reflexivity|intros []|repeat constructor|apply pastes_tok| |constructor].
    constructor; [discriminate|intros s b E; discriminate|constructor].
  - apply (S_hash _ _ "x" false [] [id "A"] [TNum "1"] [] []); [intros t []|reflexivity|apply joined_nil|constructor].
Qed.

(** 6.10.3.3p3: a [##] that comes from an argument is not the operator.  With
    [#define f(x) a ## x] the call [f(b ## x)] is [ab ## x]; kefir joins again and again. *)
Definition pasting : list (string * macro) := [("f", MFun ["x"] false [id "a"; TPunct P_DOUBLE_HASH; id "x"])].
Theorem c46_paste_argument_refuted : forall fmt fuel, run_substitutions fmt pasting fuel false
  [id "f"; TPunct P_LEFT_PARENTHESE; id "b"; TPunct P_DOUBLE_HASH; id "x"; TPunct P_RIGHT_PARENTHESE] = Fuel.
Proof.
  assert (G : forall fmt f s, replace fmt f (Some [("x", [id "b"; TPunct P_DOUBLE_HASH; id "x"])]) 
    [TId s false; TPunct P_DOUBLE_HASH; id "x"] = Fuel \/ s = "x").
  { intro fmt. induction f as [|f IH]; intro s; [left; reflexivity|].
    destruct (String.eqb "x" s) eqn:E; [right; apply String.eqb_eq in E; congruence|].
    left. cbn [replace]. unfold match_concatenation. cbn [is_ws skip_ws]. unfold macro_concatenation, resolve_left, param.
    cbn [look]. rewrite E. cbn. destruct (IH (s ++ "b")%string) as [H|H]; [exact H|].
    destruct s as [|c [|d s]]; simpl in H; try discriminate. }
  intros fmt fuel. unfold run_substitutions. destruct fuel as [|f]; [reflexivity|].
  unfold id at 1. rewrite run_id. cbn [negb orb andb locate locate_in pasting String.eqb Ascii.eqb Bool.eqb]. 
  cbn -[run apply_function]. destruct f as [|[|[|[|f]]]]; try reflexivity.
  set (n := S (S (S (S f)))). assert (R : run fmt pasting n false [id "b"; TPunct P_DOUBLE_HASH; id "x"] = Ok [id "b"; TPunct P_DOUBLE_HASH; id "x"]) by reflexivity.
  rewrite R. cbn -[run replace]. destruct (G fmt n "a") as [H|H]; [|discriminate].
  match goal with |- bind (bind (bind ?x _) _) _ = _ => assert (Q : x = Fuel) by exact H; rewrite Q end. reflexivity.
Qed.

(** One [##] between two tokens, as the standard has it. *)
Lemma substituted_pair : forall fmt as_ t u raw full raw' full' p x y after v m, is_ws t = false -> is_ws u = false ->
  operand as_ t raw full -> operand as_ u raw' full' -> raw = p ++ [x] -> is_ws x = false -> raw' = y :: after -> glued x y v ->
  (forall q x', v :: after = q ++ [x'] -> is_ws x' = false) -> m = filter not_place (p ++ v :: after) ->
  substituted fmt as_ [t; TPunct P_DOUBLE_HASH; u] m [U_paste raw full; U_paste raw' full'; U_paste [v] [v]].
Proof.
  intros fmt as_ t u raw full raw' full' p x y after v m Wt Wu Ot Ou R Wx R' G W ->.
  assert (NE : v :: after <> []) by discriminate. destruct (exists_last NE) as (q & x' & E).
  assert (Q : filter not_place (p ++ v :: after) = filter not_place (p ++ q ++ [x']) ++ []) by (rewrite app_nil_r; congruence).
  rewrite Q. apply (S_paste fmt as_ t raw full p x [TPunct P_DOUBLE_HASH; u] (q ++ [x']) [] [] [U_paste raw' full'; U_paste [v] [v]] []); auto.
  - apply joined_yes.
  - apply (H_more as_ x [] [] u raw' full' y after v [] q x' [x'] [] []); auto; try (intros ? []; fail).
    + apply (W q). exact E.
    + constructor. apply joined_nil.
  - constructor.
Qed.

(** 6.10.3.1p1: an argument next to [##] is not expanded.  [#define CAT(a, b) a ## b],
    [#define A 1]: [CAT(A, B)] is [AB]; kefir gives [1B]. *)
Definition concat : list (string * macro) :=
  [("CAT", MFun ["a"; "b"] false [id "a"; TPunct P_DOUBLE_HASH; id "b"]); ("A", MObj [TNum "1"])].
Theorem c46_paste_expanded_refuted : forall fmt,
  (forall fuel, 9 <= fuel -> run_substitutions fmt concat fuel false
     [id "CAT"; TPunct P_LEFT_PARENTHESE; id "A"; TPunct P_COMMA; id "B"; TPunct P_RIGHT_PARENTHESE] = Ok [TNum "1B"]) /\
  substituted fmt [("a", ([id "A"], [TNum "1"])); ("b", ([id "B"], [id "B"]))]
    [id "a"; TPunct P_DOUBLE_HASH; id "b"] [id "AB"] [U_paste [id "A"] [TNum "1"]; U_paste [id "B"] [id "B"]; U_paste [id "AB"] [id "AB"]].
Proof.
  intro fmt. split.
  - intros fuel H. do 9 (destruct fuel as [|fuel]; [lia|]). reflexivity.
  - eapply (substituted_pair _ _ _ _ _ _ _ _ [] (id "A")); try reflexivity.
    + apply (O_param _ "a" false [id "A"] [TNum "1"]). reflexivity.
    + apply (O_param _ "b" false [id "B"] [id "B"]). reflexivity.
    + apply G_both. apply (J_ii "A" false "B" false).
    + intros q x' E. destruct q as [|? [|? ?]]; try discriminate. injection E as <-. reflexivity.
Qed.

(** 6.10.3.3p3: the joined token is not a parameter.  With [#define f(a, aa) a ## a] the
    call [f(a, 2)] is [aa]; kefir gives [2]. *)
Definition joined_parameter : list (string * macro) := [("f", MFun ["a"; "aa"] false [id "a"; TPunct P_DOUBLE_HASH; id "a"])].
Theorem c46_joined_parameter_refuted : forall fmt,
  (forall fuel, 9 <= fuel -> run_substitutions fmt joined_parameter fuel false
     [id "f"; TPunct P_LEFT_PARENTHESE; id "a"; TPunct P_COMMA; TNum "2"; TPunct P_RIGHT_PARENTHESE] = Ok [TNum "2"]) /\
  substituted fmt [("a", ([id "a"], [id "a"])); ("aa", ([TNum "2"], [TNum "2"]))]
    [id "a"; TPunct P_DOUBLE_HASH; id "a"] [id "aa"] [U_paste [id "a"] [id "a"]; U_paste [id "a"] [id "a"]; U_paste [id "aa"] [id "aa"]].
Proof.
  intro fmt. split.
  - intros fuel H. do 9 (destruct fuel as [|fuel]; [lia|]). reflexivity.
  - eapply (substituted_pair _ _ _ _ _ _ _ _ [] (id "a")); try reflexivity.
    + apply (O_param _ "a" false [id "a"] [id "a"]). reflexivity.
    + apply (O_param _ "a" false [id "a"] [id "a"]). reflexivity.
    + apply G_both. apply (J_ii "a" false "a" false).
    + intros q x' E. destruct q as [|? [|? ?]]; try discriminate. injection E as <-. reflexivity.
Qed.

(** 6.10.3.4p2: a name met while its macro is being replaced is never replaced.  With
    [#define T(x) B], [#define B T] the call [T(1)(2)] is [T(2)]; kefir replaces the [T] that
    [B] gives once more and leaves [T]. *)
Definition nested_call : list (string * macro) := [("T", MFun ["x"] false [id "B"]); ("B", MObj [id "T"])].
Theorem c46_nested_call_refuted : forall fmt fuel, 9 <= fuel -> run_substitutions fmt nested_call fuel false
  [id "T"; TPunct P_LEFT_PARENTHESE; TNum "1"; TPunct P_RIGHT_PARENTHESE; TPunct P_LEFT_PARENTHESE; TNum "2"; TPunct P_RIGHT_PARENTHESE]
  = Ok [id "T"].
Proof. intros fmt fuel H. do 9 (destruct fuel as [|fuel]; [lia|]). reflexivity. Qed.

(** ** A case that meets the hypotheses *)

(** [#define F(x, ...) x # __VA_ARGS__ + N], [#define N 1]: [F (2 , (3,4),5)]. *)
Definition calls : list (string * macro) :=
  [("F", MFun ["x"] true [id "x"; TPunct P_HASH; TWs false; id "__VA_ARGS__"; TPunct P_PLUS; id "N"]); ("N", MObj [TNum "1"])].
Definition call : list tok :=
  [id "F"; TWs false; TPunct P_LEFT_PARENTHESE; TNum "2"; TWs false; TPunct P_COMMA; TWs false;
   TPunct P_LEFT_PARENTHESE; TNum "3"; TPunct P_COMMA; TNum "4"; TPunct P_RIGHT_PARENTHESE; TPunct P_COMMA; TNum "5"; TPunct P_RIGHT_PARENTHESE].
Definition rest_argument : list tok :=
  [TPunct P_LEFT_PARENTHESE; TNum "3"; TPunct P_COMMA; TNum "4"; TPunct P_RIGHT_PARENTHESE; TPunct P_COMMA; TNum "5"].
Ltac plain_token := apply C_keep; [discriminate|intros ? ? E; discriminate|].
Ltac usual := repeat split; discriminate.
Example c46_example : forall fmt, clean fmt calls [] call [TNum "2"; TStr (fmt rest_argument); TPunct P_PLUS; TNum "1"].
Proof.
  intro fmt. change [TNum "2"; TStr (fmt rest_argument); TPunct P_PLUS; TNum "1"]
    with ([TNum "2"; TStr (fmt rest_argument); TPunct P_PLUS; TNum "1"] ++ []).
  apply (C_call fmt calls [] "F" ["x"] true [id "x"; TPunct P_HASH; TWs false; id "__VA_ARGS__"; TPunct P_PLUS; id "N"]
    [TWs false] ([TNum "2"; TWs false; TPunct P_COMMA; TWs false] ++ rest_argument)
    [[TNum "2"; TWs false]; rest_argument] [[TNum "2"]; rest_argument] [[TNum "2"; TWs false]; rest_argument]
    [[TNum "2"]; rest_argument] [("x", ([TNum "2"], [TNum "2"])); ("__VA_ARGS__", (rest_argument, rest_argument))]
    [TNum "2"; TStr (fmt rest_argument); TPunct P_PLUS; id "N"] [U_hash rest_argument rest_argument]).
  - reflexivity.
  - intros [].
  - repeat constructor; simpl; intuition discriminate.
  - intros t [<-|[]]; reflexivity.
  - apply (G_more 0 true [] [TNum "2"; TWs false] (TWs false :: rest_argument)).
    + intros t [].
    + reflexivity.
    + apply A_tok; [usual|discriminate|]. apply A_tok; [usual|discriminate|]. constructor.
    + right. reflexivity.
    + apply (G_rest [TWs false] rest_argument); [intros t [<-|[]]; reflexivity|reflexivity|].
      apply (B_par [TNum "3"; TPunct P_COMMA; TNum "4"] [TPunct P_COMMA; TNum "5"]); repeat (apply B_tok; [usual|]); constructor.
  - assert (T : trimmed [TNum "2"; TWs false] [TNum "2"]).
    { exists [TWs false]. split; [intros t [<-|[]]; reflexivity|]. split; [reflexivity|]. intros x t E.
      destruct x as [|y [|z x]]; try discriminate. injection E as <-. reflexivity. }
    assert (T' : trimmed rest_argument rest_argument).
    { exists []. split; [intros t []|]. split; [reflexivity|]. intros x t E. apply (f_equal (fun l => last l (TWs false))) in E.
      rewrite last_last in E. simpl in E. subst t. reflexivity. }
    constructor; [exact T|]. constructor; [exact T'|constructor].
  - constructor; [repeat plain_token; constructor|]. constructor; [repeat plain_token; constructor|]. constructor.
  - assert (T : trimmed [TNum "2"; TWs false] [TNum "2"]).
    { exists [TWs false]. split; [intros t [<-|[]]; reflexivity|]. split; [reflexivity|]. intros x t E.
      destruct x as [|y [|z x]]; try discriminate. injection E as <-. reflexivity. }
    assert (T' : trimmed rest_argument rest_argument).
    { exists []. split; [intros t []|]. split; [reflexivity|]. intros x t E. apply (f_equal (fun l => last l (TWs false))) in E.
      rewrite last_last in E. simpl in E. subst t. reflexivity. }
    constructor; [exact T|]. constructor; [exact T'|constructor].
  - reflexivity.
  - apply (S_param _ _ "x" false [TNum "2"] [TNum "2"]); [reflexivity|apply joined_no; [reflexivity|discriminate]|].
    apply (S_hash _ _ "__VA_ARGS__" false [TWs false] rest_argument rest_argument);
      [intros t [<-|[]]; reflexivity|reflexivity|apply joined_no; [reflexivity|discriminate]|].
    apply S_keep; [discriminate|discriminate|intro; apply joined_no; [reflexivity|discriminate]|intros s b E; discriminate|].
    apply S_keep; [discriminate|discriminate|intro; apply joined_nil|intros s b E; injection E as <- <-; reflexivity|]. constructor.
  - do 3 plain_token. change [TNum "1"] with ([TNum "1"] ++ []).
    eapply C_object; [reflexivity|intros [E|[]]; discriminate|repeat constructor|apply pastes_tok| |constructor].
    plain_token. constructor.
  - constructor.
  - repeat constructor.
Qed.

(** [#define J(x, y) x ## y ## 1 + y]: [J(p q, )] is [p q1 +]. *)
Definition pastings : list (string * macro) :=
  [("J", MFun ["x"; "y"] false [id "x"; TWs false; TPunct P_DOUBLE_HASH; id "y"; TPunct P_DOUBLE_HASH; TWs false; TNum "1"; TPunct P_PLUS; id "y"])].
Example c46_paste_example : forall fmt, clean fmt pastings []
  [id "J"; TPunct P_LEFT_PARENTHESE; id "p"; TWs false; id "q"; TPunct P_COMMA; TWs false; TPunct P_RIGHT_PARENTHESE]
  [id "p"; TWs false; id "q1"; TPunct P_PLUS].
Proof.
  intro fmt. change [id "p"; TWs false; id "q1"; TPunct P_PLUS] with ([id "p"; TWs false; id "q1"; TPunct P_PLUS] ++ []).
  set (pq := [id "p"; TWs false; id "q"]). set (as_ := [("x", (pq, pq)); ("y", ([], []))] : actual).
  assert (T : trimmed pq pq).
  { exists []. split; [intros t []|]. split; [reflexivity|]. intros x t E. apply (f_equal (fun l => last l (TWs false))) in E.
    rewrite last_last in E. simpl in E. subst t. reflexivity. }
  assert (T' : trimmed [] []).
  { exists []. split; [intros t []|]. split; [reflexivity|]. intros x t E. destruct x; discriminate. }
  apply (C_call fmt pastings [] "J" ["x"; "y"] false
    [id "x"; TWs false; TPunct P_DOUBLE_HASH; id "y"; TPunct P_DOUBLE_HASH; TWs false; TNum "1"; TPunct P_PLUS; id "y"]
    [] (pq ++ [TPunct P_COMMA; TWs false]) [pq; []] [pq; []] [pq; []] [pq; []] as_
    [id "p"; TWs false; id "q1"; TPunct P_PLUS]
    [U_paste pq pq; U_paste [TPlace] [TPlace]; U_paste [id "q"] [id "q"]; U_paste [TNum "1"] [TNum "1"]; U_paste [id "q1"] [id "q1"]]).
  - reflexivity.
  - intros [].
  - repeat constructor; simpl; intuition discriminate.
  - intros t [].
  - apply (G_more 1 false [] pq [TWs false] [[]]).
    + intros t [].
    + reflexivity.
    + repeat (apply A_tok; [usual|discriminate|]). constructor.
    + left. discriminate.
    + apply (G_last [TWs false] []); [intros t [<-|[]]; reflexivity|exact I|constructor].
  - constructor; [exact T|]. constructor; [exact T'|constructor].
  - assert (P : clean fmt pastings [] pq pq).
    { repeat (apply C_keep; [discriminate|intros s b E; try discriminate; injection E as <- <-; repeat split; try discriminate; try reflexivity; intros []|]). constructor. }
    constructor; [exact P|]. constructor; constructor.
  - constructor; [exact T|]. constructor; [exact T'|constructor].
  - reflexivity.
  - apply (S_paste fmt as_ (id "x") pq pq [id "p"; TWs false] (id "q") 
      [TWs false; TPunct P_DOUBLE_HASH; id "y"; TPunct P_DOUBLE_HASH; TWs false; TNum "1"; TPunct P_PLUS; id "y"] [id "q1"] [TPunct P_PLUS; id "y"] [TPunct P_PLUS]
      [U_paste [TPlace] [TPlace]; U_paste [id "q"] [id "q"]; U_paste [TNum "1"] [TNum "1"]; U_paste [id "q1"] [id "q1"]] []); try reflexivity.
    + exists [TWs false], [id "y"; TPunct P_DOUBLE_HASH; TWs false; TNum "1"; TPunct P_PLUS; id "y"]. split; [intros t [<-|[]]; reflexivity|reflexivity].
    + apply (O_param as_ "x" false pq pq). reflexivity.
    + apply (H_more as_ (id "q") [TWs false] [] (id "y") [TPlace] [TPlace] TPlace [] (id "q") [TPunct P_DOUBLE_HASH; TWs false; TNum "1"; TPunct P_PLUS; id "y"]
        [] (id "q") [id "q1"] [TPunct P_PLUS; id "y"]); try reflexivity.
      * intros t [<-|[]]; reflexivity.
      * intros t [].
      * apply (O_param as_ "y" false [] []). reflexivity.
      * apply G_right.
      * apply (H_more as_ (id "q") [] [TWs false] (TNum "1") [TNum "1"] [TNum "1"] (TNum "1") [] (id "q1") [TPunct P_PLUS; id "y"]
          [] (id "q1") [id "q1"] [TPunct P_PLUS; id "y"]); try reflexivity.
        -- intros t [].
        -- intros t [<-|[]]; reflexivity.
        -- apply O_token. intros s b E. discriminate.
        -- apply G_both. apply (J_in "q" false "1").
        -- apply H_end. apply joined_no; [reflexivity|discriminate].
    + apply S_keep; [discriminate|discriminate|intro; apply joined_no; [reflexivity|discriminate]|intros s b E; discriminate|].
      apply (S_param _ _ "y" false [] [] [] []); [reflexivity|apply joined_nil|constructor].
  - repeat (apply C_keep; [discriminate|intros s b E; try discriminate; injection E as <- <-;
      repeat split; try discriminate; try reflexivity; simpl; intuition discriminate|]). constructor.
  - constructor.
  - repeat (apply Forall_cons; [split; [reflexivity|repeat (apply Forall_cons; [repeat split; try discriminate; 
      intros s b E; try discriminate; injection E as <- <-; reflexivity|]); constructor]|]). constructor.
Qed.

Print Assumptions c46_arguments.
Print Assumptions c46_expansion_partial.
Print Assumptions c46_hash_refuted.
Print Assumptions c46_paste_argument_refuted.
Print Assumptions c46_paste_expanded_refuted.
Print Assumptions c46_joined_parameter_refuted.
Print Assumptions c46_nested_call_refuted.
