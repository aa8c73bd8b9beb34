(** The writer run on the calls of values, and the reader on what it prints. *)

From Coq Require Import ZArith Lia Bool List String.
From Verif Require Import LexModel AsmModel JsonModel JsonSpec JsonProofs.
Import ListNotations.
Open Scope Z_scope.
Local Notation length := List.length.

(** ** The text of a value *)
Definition pad (ind k : nat) : list Z := if (0 <? ind)%nat then 10 :: repeat 32 (ind * k) else [].
Definition colon (ind : nat) : list Z := 58 :: if (0 <? ind)%nat then [32] else [].
Fixpoint body (ind k : nat) (d : doc) : list Z :=
  match d with
  | DScalar c => scalar_text 46 c
  | DArray l =>
    91 :: match l with
          | [] => []
          | d :: l => pad ind (S k) ++ body ind (S k) d ++ flat_map (fun d => 44 :: pad ind (S k) ++ body ind (S k) d) l ++ pad ind k
          end ++ [93]
  | DObject l =>
    123 :: match l with
           | [] => []
           | m :: l =>
             (pad ind (S k) ++ format_string (fst m) ++ colon ind ++ body ind (S k) (snd m)) ++
             flat_map (fun m => 44 :: pad ind (S k) ++ format_string (fst m) ++ colon ind ++ body ind (S k) (snd m)) l ++ pad ind k
           end ++ [125]
  end.

(** ** Running the writer *)
Definition is_scalar (c : jcall) : Prop :=
  match c with ObjectBegin | ObjectEnd | ArrayBegin | ArrayEnd | Key _ => False | _ => True end.
Fixpoint well (d : doc) : Prop :=
  match d with
  | DScalar c => is_scalar c
  | DArray l => fold_right (fun d p => well d /\ p) True l
  | DObject l => fold_right (fun m p => well (snd m) /\ p) True l
  end.

Definition allows (s : jstate) : Prop := s <> JObjectEmpty /\ s <> JObject_.
Definition valued (s : jstate) : jstate := match s with JObjectField => JObject_ | JArrayEmpty => JArray_ | s => s end.
Definition separator (s : jstate) (ind k : nat) : list Z :=
  match s with
  | JObjectEmpty | JArrayEmpty => pad ind k
  | JInit => []
  | JObjectField => colon ind
  | JObject_ | JArray_ => 44 :: pad ind k
  end.
(** From one writer to another: some text is printed and the state of the level changes *)
Record goes (w w' : writer) (s : jstate) (x : list Z) : Prop := {
  g_indent : w_indent w' = w_indent w;
  g_level : w_level w' = w_level w;
  g_state : here w' = s;
  g_below : forall k, (k < w_level w)%nat -> w_state w' k = w_state w k;
  g_out : w_out w' = w_out w ++ x }.
Lemma goes_trans : forall w w' w'' s s' x y, goes w w' s x -> goes w' w'' s' y -> goes w w'' s' (x ++ y).
Proof.
  intros w w' w'' s s' x y [] []. constructor; try congruence.
  - intros k K. rewrite g_below1 by congruence. apply g_below0. exact K.
  - rewrite g_out1, g_out0, app_assoc. reflexivity.
Qed.
Lemma jrun_app : forall p a b w, jrun p (a ++ b) w = match jrun p a w with Some w' => jrun p b w' | None => None end.
Proof. intros p a. induction a as [|c a IH]; intros b w; [reflexivity|]. cbn [app jrun]. destruct (jstep p c w) as [[] w']; [apply IH | reflexivity]. Qed.

Lemma separator_goes : forall w, goes w (write_separator w) (here w) (separator (here w) (w_indent w) (w_level w)).
Proof.
  intros w. unfold write_separator, separator, write_indent, indent_text, print, pad, colon. destruct (here w) eqn:E; constructor; cbn; try reflexivity; try exact E;
    try (rewrite app_nil_r; reflexivity). all: rewrite <- app_assoc; reflexivity.
Qed.
Lemma here_become : forall s w, here (become s w) = s.
Proof. intros s w. unfold here, become. cbn. rewrite Nat.eqb_refl. reflexivity. Qed.
Lemma become_goes : forall w s, goes w (become s w) s [].
Proof.
  intros w s. constructor; cbn; try reflexivity; [apply here_become | | rewrite app_nil_r; reflexivity].
  intros k K. rewrite (proj2 (Nat.eqb_neq k (w_level w))) by lia. reflexivity.
Qed.
Lemma validate_goes : forall w, allows (here w) -> exists w', validate_value w = Some w' /\ goes w w' (valued (here w)) [].
Proof.
  intros w [A B]. unfold validate_value, valued. destruct (here w) eqn:E; try congruence; eexists; (split; [reflexivity|]).
  1, 4: constructor; try reflexivity; [exact E | rewrite app_nil_r; reflexivity]. all: apply become_goes.
Qed.
Lemma print_goes : forall w t, goes w (print t w) (here w) t.
Proof. intros w t. constructor; reflexivity. Qed.

(** What the calls of a value do; they fail only when the value is too deep *)
Definition runs (d : doc) : Prop := forall w, allows (here w) -> (w_level w < MAX_DEPTH)%nat ->
  match jrun 46 (calls_of d) w with
  | Some w' => (w_level w + depth d < MAX_DEPTH)%nat /\
               goes w w' (valued (here w)) (separator (here w) (w_indent w) (w_level w) ++ body (w_indent w) (w_level w) d)
  | None => (MAX_DEPTH <= w_level w + depth d)%nat
  end.

Lemma scalar_runs : forall c, is_scalar c -> runs (DScalar c).
Proof.
  intros c C w A L. cbn [calls_of jrun depth body].
  assert (E : jstep 46 c w = let w := write_separator w in
    match validate_value w with Some w => (true, print (scalar_text 46 c) w) | None => (false, w) end) by (destruct c; try contradiction; reflexivity).
  rewrite E. clear E. cbv zeta. assert (G := separator_goes w).
  destruct (validate_goes (write_separator w)) as (w' & V & G'); [rewrite (g_state _ _ _ _ G); exact A|].
  rewrite V. split; [lia|]. rewrite (g_state _ _ _ _ G) in G'. assert (P := goes_trans _ _ _ _ _ _ _ (goes_trans _ _ _ _ _ _ _ G G') (print_goes w' (scalar_text 46 c))).
  rewrite app_nil_r in P. rewrite (g_state _ _ _ _ G') in P. exact P.
Qed.

Definition entries (l : list doc) : list jcall := flat_map calls_of l.
Lemma array_rest : forall l, Forall runs l -> forall w, here w = JArray_ -> (w_level w < MAX_DEPTH)%nat ->
  match jrun 46 (flat_map calls_of l) w with
  | Some w' => (w_level w + list_max (map depth l) < MAX_DEPTH)%nat /\
               goes w w' JArray_ (flat_map (fun d => 44 :: pad (w_indent w) (w_level w) ++ body (w_indent w) (w_level w) d) l)
  | None => (MAX_DEPTH <= w_level w + list_max (map depth l))%nat
  end.
Proof.
  intros l H. induction H as [|d l D H IH]; intros w S L.
  - cbn [flat_map jrun map list_max fold_right]. split; [lia|]. constructor; try reflexivity; [exact S | rewrite app_nil_r; reflexivity].
  - cbn [flat_map map]. rewrite jrun_app. assert (X : list_max (depth d :: map depth l) = Nat.max (depth d) (list_max (map depth l))) by reflexivity.
    rewrite X. clear X. specialize (D w). rewrite S in D. specialize (D ltac:(split; discriminate) L).
    destruct (jrun 46 (calls_of d) w) as [w'|]; [|lia]. destruct D as [D G]. cbn [valued separator] in G.
    specialize (IH w' (g_state _ _ _ _ G)). rewrite (g_level _ _ _ _ G), (g_indent _ _ _ _ G) in IH. specialize (IH L).
    destruct (jrun 46 (flat_map calls_of l) w') as [w''|]; [|lia]. destruct IH as [IH G']. split; [lia|].
    exact (goes_trans _ _ _ _ _ _ _ G G').
Qed.

Definition member_calls (m : list (Z * list Z) * doc) : list jcall := Key (fst m) :: calls_of (snd m).
Definition member_text (ind k : nat) (m : list (Z * list Z) * doc) : list Z :=
  pad ind k ++ format_string (fst m) ++ colon ind ++ body ind k (snd m).
Lemma member_runs : forall m, runs (snd m) -> forall w, here w = JObjectEmpty \/ here w = JObject_ -> (w_level w < MAX_DEPTH)%nat ->
  match jrun 46 (member_calls m) w with
  | Some w' => (w_level w + depth (snd m) < MAX_DEPTH)%nat /\
               goes w w' JObject_ ((match here w with JObject_ => [44] | _ => [] end) ++ member_text (w_indent w) (w_level w) m)
  | None => (MAX_DEPTH <= w_level w + depth (snd m))%nat
  end.
Proof.
  intros [key d] D w S L. cbn [fst snd] in *. unfold member_calls, member_text. cbn [fst snd jrun jstep]. assert (G := separator_goes w).
  assert (E : (let w := write_separator w in match here w with JObjectEmpty | JObject_ => (true, print (format_string key) (become JObjectField w)) | _ => (false, w) end) =
    (true, print (format_string key) (become JObjectField (write_separator w)))).
  { cbv zeta. rewrite (g_state _ _ _ _ G). destruct S as [->| ->]; reflexivity. }
  cbv zeta in E. rewrite E. clear E.
  assert (P := goes_trans _ _ _ _ _ _ _ (goes_trans _ _ _ _ _ _ _ G (become_goes (write_separator w) JObjectField))
                 (print_goes (become JObjectField (write_separator w)) (format_string key))).
  rewrite here_become, app_nil_r in P. set (v := print (format_string key) (become JObjectField (write_separator w))) in *.
  specialize (D v). rewrite (g_state _ _ _ _ P), (g_level _ _ _ _ P), (g_indent _ _ _ _ P) in D. specialize (D ltac:(split; discriminate) L).
  destruct (jrun 46 (calls_of d) v) as [w'|]; [|exact D]. destruct D as [D Q]. split; [exact D|].
  assert (R := goes_trans _ _ _ _ _ _ _ P Q). cbn [valued separator] in R. rewrite <- !app_assoc in R.
  destruct S as [S|S]; rewrite S in *; exact R.
Qed.
Lemma object_rest : forall l, Forall (fun m => runs (snd m)) l -> forall w, here w = JObject_ -> (w_level w < MAX_DEPTH)%nat ->
  match jrun 46 (flat_map member_calls l) w with
  | Some w' => (w_level w + list_max (map (fun m => depth (snd m)) l) < MAX_DEPTH)%nat /\
               goes w w' JObject_ (flat_map (fun m => 44 :: member_text (w_indent w) (w_level w) m) l)
  | None => (MAX_DEPTH <= w_level w + list_max (map (fun m => depth (snd m)) l))%nat
  end.
Proof.
  intros l H. induction H as [|m l D H IH]; intros w S L.
  - cbn [flat_map jrun map list_max fold_right]. split; [lia|]. constructor; try reflexivity; [exact S | rewrite app_nil_r; reflexivity].
  - cbn [flat_map map]. rewrite jrun_app.
    assert (X : list_max (depth (snd m) :: map (fun m => depth (snd m)) l) = Nat.max (depth (snd m)) (list_max (map (fun m => depth (snd m)) l))) by reflexivity.
    rewrite X. clear X. assert (M := member_runs m D w (or_intror S) L). rewrite S in M.
    destruct (jrun 46 (member_calls m) w) as [w'|]; [|lia]. destruct M as [M G].
    specialize (IH w' (g_state _ _ _ _ G)). rewrite (g_level _ _ _ _ G), (g_indent _ _ _ _ G) in IH. specialize (IH L).
    destruct (jrun 46 (flat_map member_calls l) w') as [w''|]; [|lia]. destruct IH as [IH G']. split; [lia|].
    exact (goes_trans _ _ _ _ _ _ _ G G').
Qed.

(** Opening and closing *)
Lemma open_step : forall c w, c = ArrayBegin \/ c = ObjectBegin -> allows (here w) -> (S (w_level w) < MAX_DEPTH)%nat ->
  exists w', jstep 46 c w = (true, w') /\ w_indent w' = w_indent w /\ w_level w' = S (w_level w) /\
    here w' = (match c with ArrayBegin => JArrayEmpty | _ => JObjectEmpty end) /\
    w_state w' (w_level w) = valued (here w) /\ (forall k, (k < w_level w)%nat -> w_state w' k = w_state w k) /\
    w_out w' = w_out w ++ separator (here w) (w_indent w) (w_level w) ++ [match c with ArrayBegin => 91 | _ => 123 end].
Proof.
  intros c w C A L. assert (G := separator_goes w).
  destruct (validate_goes (write_separator w)) as (v & V & G'); [rewrite (g_state _ _ _ _ G); exact A|].
  rewrite (g_state _ _ _ _ G) in G'. assert (P := goes_trans _ _ _ _ _ _ _ G G'). clear G G'. rewrite app_nil_r in P. destruct P as [P1 P2 P3 P4 P5].
  assert (LV : (w_level w + 1 <? MAX_DEPTH)%nat = true) by (apply Nat.ltb_lt; lia).
  set (b := match c with ArrayBegin => 91 | _ => 123 end). set (s := match c with ArrayBegin => JArrayEmpty | _ => JObjectEmpty end).
  exists (print [b] (become s (at_level (S (w_level v)) v))).
  assert (E : jstep 46 c w = (true, print [b] (become s (at_level (S (w_level v)) v)))).
  { destruct C as [->| ->]; unfold jstep; rewrite LV, V; reflexivity. }
  split; [exact E|]. clear E. cbn [print become at_level w_indent w_level w_state w_out]. split; [exact P1|]. split; [rewrite P2; reflexivity|].
  split; [unfold here; cbn; rewrite Nat.eqb_refl; reflexivity|].
  split; [rewrite (proj2 (Nat.eqb_neq (w_level w) (S (w_level v)))) by lia; unfold here in P3; rewrite P2 in P3; exact P3|].
  split; [intros k K; rewrite (proj2 (Nat.eqb_neq k (S (w_level v)))) by lia; apply P4; exact K|].
  rewrite P5, <- app_assoc. reflexivity.
Qed.
Lemma open_deep : forall c w, c = ArrayBegin \/ c = ObjectBegin -> (MAX_DEPTH <= S (w_level w))%nat -> exists w', jstep 46 c w = (false, w').
Proof.
  intros c w C L. exists w. assert (LV : (w_level w + 1 <? MAX_DEPTH)%nat = false) by (apply Nat.ltb_ge; lia).
  destruct C as [->| ->]; unfold jstep; rewrite LV; reflexivity.
Qed.
Lemma doc_runs : forall d, well d -> runs d.
Proof.
  induction d using doc_rec'; intros W.
  - apply scalar_runs. exact W.
  - assert (R : Forall runs l).
    { clear -H W. induction H as [|d l D H IH]; [constructor|]. destruct W as [W1 W2]. constructor; [apply D; exact W1 | apply IH; exact W2]. }
    clear H W. intros w A L. cbn [calls_of jrun depth].
    destruct (Nat.le_gt_cases MAX_DEPTH (S (w_level w))) as [T|T].
    { destruct (open_deep ArrayBegin w (or_introl eq_refl) T) as (w' & ->). lia. }
    destruct (open_step ArrayBegin w (or_introl eq_refl) A T) as (w1 & -> & I1 & L1 & H1 & S1 & B1 & O1).
    rewrite jrun_app. destruct R as [|d l D R].
    + cbn [flat_map jrun jstep map]. rewrite L1, H1. cbn [Nat.ltb Nat.leb Nat.pred]. change (list_max []) with 0%nat. split; [lia|].
      constructor; cbn [print at_level w_indent w_level w_state w_out]; try assumption; try reflexivity.
      rewrite O1, <- !app_assoc. reflexivity.
    + cbn [flat_map map]. rewrite jrun_app. assert (X : list_max (depth d :: map depth l) = Nat.max (depth d) (list_max (map depth l))) by reflexivity.
      rewrite X. clear X. specialize (D w1). rewrite H1, L1, I1 in D. specialize (D ltac:(split; discriminate) T).
      destruct (jrun 46 (calls_of d) w1) as [w2|]; [|lia]. destruct D as [D G]. cbn [valued separator] in G.
      assert (AR := array_rest l R w2 (g_state _ _ _ _ G)). rewrite (g_level _ _ _ _ G), (g_indent _ _ _ _ G), L1, I1 in AR. specialize (AR T).
      destruct (jrun 46 (flat_map calls_of l) w2) as [w3|]; [|lia]. destruct AR as [AR G'].
      assert (P := goes_trans _ _ _ _ _ _ _ G G'). clear G G'. destruct P as [P1 P2 P3 P4 P5].
      cbn [jrun jstep]. rewrite P2, L1, P3. cbn [Nat.ltb Nat.leb Nat.pred]. split; [lia|].
      constructor; cbn [print write_indent indent_text at_level w_indent w_level w_state w_out]; [congruence | reflexivity | | |].
      * unfold here. cbn [print write_indent at_level w_level w_state]. rewrite P4, S1 by lia. reflexivity.
      * intros k K. rewrite P4 by lia. apply B1. exact K.
      * rewrite P5, O1. unfold indent_text. cbn [at_level w_indent w_level]. rewrite P1, I1. cbn [body].
        change (if (0 <? w_indent w)%nat then 10 :: repeat 32 (w_indent w * w_level w) else []) with (pad (w_indent w) (w_level w)).
        cbn [app]. rewrite <- !app_assoc. cbn [app]. rewrite <- ?app_assoc. reflexivity.
  - assert (R : Forall (fun m => runs (snd m)) l).
    { clear -H W. induction H as [|m l D H IH]; [constructor|]. destruct W as [W1 W2]. constructor; [apply D; exact W1 | apply IH; exact W2]. }
    clear H W. intros w A L. cbn [calls_of jrun depth]. change (fun m => Key (fst m) :: calls_of (snd m)) with member_calls.
    destruct (Nat.le_gt_cases MAX_DEPTH (S (w_level w))) as [T|T].
    { destruct (open_deep ObjectBegin w (or_intror eq_refl) T) as (w' & ->). lia. }
    destruct (open_step ObjectBegin w (or_intror eq_refl) A T) as (w1 & -> & I1 & L1 & H1 & S1 & B1 & O1).
    rewrite jrun_app. destruct R as [|m l D R].
    + cbn [flat_map jrun jstep map]. rewrite L1, H1. cbn [Nat.ltb Nat.leb Nat.pred]. change (list_max []) with 0%nat. split; [lia|].
      constructor; cbn [print at_level w_indent w_level w_state w_out]; try assumption; try reflexivity.
      rewrite O1, <- !app_assoc. reflexivity.
    + cbn [flat_map map]. rewrite jrun_app.
      assert (X : list_max (depth (snd m) :: map (fun m => depth (snd m)) l) = Nat.max (depth (snd m)) (list_max (map (fun m => depth (snd m)) l))) by reflexivity.
      rewrite X. clear X. assert (M := member_runs m D w1 (or_introl H1)). rewrite H1, L1, I1 in M. specialize (M T).
      destruct (jrun 46 (member_calls m) w1) as [w2|]; [|lia]. destruct M as [M G]. cbn [app] in G.
      assert (AR := object_rest l R w2 (g_state _ _ _ _ G)). rewrite (g_level _ _ _ _ G), (g_indent _ _ _ _ G), L1, I1 in AR. specialize (AR T).
      destruct (jrun 46 (flat_map member_calls l) w2) as [w3|]; [|lia]. destruct AR as [AR G'].
      assert (P := goes_trans _ _ _ _ _ _ _ G G'). clear G G'. destruct P as [P1 P2 P3 P4 P5].
      cbn [jrun jstep]. rewrite P2, L1, P3. cbn [Nat.ltb Nat.leb Nat.pred]. split; [lia|].
      constructor; cbn [print write_indent indent_text at_level w_indent w_level w_state w_out]; [congruence | reflexivity | | |].
      * unfold here. cbn [print write_indent at_level w_level w_state]. rewrite P4, S1 by lia. reflexivity.
      * intros k K. rewrite P4 by lia. apply B1. exact K.
      * rewrite P5, O1. unfold indent_text. cbn [at_level w_indent w_level]. rewrite P1, I1. cbn [body].
        change (if (0 <? w_indent w)%nat then 10 :: repeat 32 (w_indent w * w_level w) else []) with (pad (w_indent w) (w_level w)).
        cbn [app]. unfold member_text at 1. rewrite <- !app_assoc. cbn [app]. rewrite <- ?app_assoc. reflexivity.
Qed.

(** ** Reading *)
Fixpoint tok_of (d : doc) : list token :=
  match d with
  | DScalar c => [scalar_token c]
  | DArray l => Mark 91 :: match l with [] => [] | d :: l => tok_of d ++ flat_map (fun d => Mark 44 :: tok_of d) l end ++ [Mark 93]
  | DObject l =>
    Mark 123 :: match l with
                | [] => []
                | m :: l => (TString (map fst (fst m)) :: Mark 58 :: tok_of (snd m)) ++
                            flat_map (fun m => Mark 44 :: TString (map fst (fst m)) :: Mark 58 :: tok_of (snd m)) l
                end ++ [Mark 125]
  end.

Definition always (x : list Z) (ts : list token) : Prop := forall rest, tokens Between (x ++ rest) = option_map (app ts) (tokens Between rest).
Lemma always_lexes : forall x ts, always x ts -> lexes x ts.
Proof. intros x ts H rest _. apply H. Qed.
Lemma join_map : forall (a b : list token) o, option_map (app a) (option_map (app b) o) = option_map (app (a ++ b)) o.
Proof. intros a b [o|]; cbn; [rewrite app_assoc|]; reflexivity. Qed.
Lemma always_app : forall x y ts us, always x ts -> always y us -> always (x ++ y) (ts ++ us).
Proof. intros x y ts us H K rest. rewrite <- app_assoc, H, K. apply join_map. Qed.
Lemma always_then : forall x y ts us, always x ts -> lexes y us -> lexes (x ++ y) (ts ++ us).
Proof. intros x y ts us H K rest R. rewrite <- app_assoc, H, K by exact R. apply join_map. Qed.
Definition begins (y : list Z) : Prop := match y with [] => False | c :: _ => number_char c = false /\ letter c = false end.
Lemma lexes_always : forall x y ts us, lexes x ts -> always y us -> begins y -> always (x ++ y) (ts ++ us).
Proof.
  intros x y ts us H K B rest. rewrite <- app_assoc, H, K; [apply join_map|]. destruct y; [contradiction | exact B].
Qed.
Lemma mark_always : forall c, In c [44; 58; 91; 93; 123; 125] -> always [c] [Mark c].
Proof. intros c H rest. cbn [In] in H. decompose [or] H; subst; try contradiction; reflexivity. Qed.
Lemma pad_always : forall ind k, always (pad ind k) [].
Proof.
  intros ind k rest. unfold pad. destruct (0 <? ind)%nat; [|cbn [app]; rewrite map_nil; reflexivity].
  cbn [app tokens next]. change (opens 10) with (Some ([] : list token, Between)). cbn iota beta. rewrite !map_nil.
  induction (ind * k)%nat as [|n IH]; [reflexivity|]. cbn [repeat app tokens next]. change (opens 32) with (Some ([] : list token, Between)). cbn iota beta. rewrite map_nil. exact IH.
Qed.
Lemma colon_always : forall ind, always (colon ind) [Mark 58].
Proof. intros ind rest. unfold colon. destruct (0 <? ind)%nat; cbn [app]; [|reflexivity]. cbn. rewrite map_nil. reflexivity. Qed.
Lemma begins_pad : forall ind k c, number_char c = false -> letter c = false -> begins (pad ind k ++ [c]).
Proof. intros ind k c A B. unfold pad. destruct (0 <? ind)%nat; cbn; auto. Qed.

Definition readable (d : doc) : Prop := forall ind k, lexes (body ind k d) (tok_of d).
(** Units after commas, up to a closing mark *)
Lemma rest_always : forall (A : Type) (f : A -> list Z) (g : A -> list token) l tail us, (forall a, In a l -> lexes (f a) (g a)) ->
  always tail us -> begins tail ->
  always (flat_map (fun a => 44 :: f a) l ++ tail) (flat_map (fun a => Mark 44 :: g a) l ++ us) /\ begins (flat_map (fun a => 44 :: f a) l ++ tail).
Proof.
  intros A f g l tail us H T B. induction l as [|a l IH]; [split; assumption|]. destruct IH as [IH1 IH2]; [intros b K; apply H; right; exact K|].
  cbn [flat_map]. rewrite <- !app_assoc. split; [|split; reflexivity].
  apply (always_app [44] (f a ++ flat_map (fun a => 44 :: f a) l ++ tail) [Mark 44]); [apply mark_always; cbn; auto|].
  apply lexes_always; [apply H; left; reflexivity | exact IH1 | exact IH2].
Qed.
Lemma string_always : forall s, string_ok s -> always (format_string s) [TString (map fst s)].
Proof.
  intros s H rest. unfold format_string. rewrite flat_map_concat_map. assert (F : Forall2 appends (map string_char s) (map fst s)).
  { induction H as [|p s (A & B & C) H IH]; [constructor|]. cbn [map]. constructor; [apply string_char_appends; assumption | exact IH]. }
  assert (G : forall parts cs acc, Forall2 appends parts cs -> tokens (InString acc) ((List.concat parts ++ [34]) ++ rest) = option_map (app [TString (acc ++ cs)]) (tokens Between rest)).
  { intros parts cs acc K. revert acc. induction K as [|x c parts cs A K IH]; intros acc.
    - cbn [List.concat app tokens next Z.eqb Pos.eqb]. rewrite app_nil_r. reflexivity.
    - cbn [List.concat]. rewrite <- !app_assoc, A. rewrite app_assoc, IH, <- app_assoc. reflexivity. }
  cbn [app tokens next]. change (opens 34) with (Some ([] : list token, InString [])). cbn iota beta. rewrite map_nil. exact (G _ _ [] F).
Qed.
Lemma doc_readable : forall d, doc_ok d -> readable d.
Proof.
  induction d using doc_rec'; intros W ind k.
  - apply scalar_lexes. exact W.
  - assert (R : forall d, In d l -> readable d).
    { clear -H W. induction H as [|d l D H IH]; [intros d []|]. destruct W as [W1 W2]. intros e [<-|E]; [apply D; exact W1 | apply IH; assumption]. }
    clear H W. apply always_lexes. cbn [body tok_of].
    destruct l as [|d l]; [apply (always_app [91] [93] [Mark 91] [Mark 93]); apply mark_always; cbn; auto|].
    apply (always_app [91] _ [Mark 91]); [apply mark_always; cbn; auto|]. rewrite <- !app_assoc.
    apply (always_app (pad ind (S k)) _ []); [apply pad_always|].
    destruct (rest_always doc (fun d => pad ind (S k) ++ body ind (S k) d) tok_of l (pad ind k ++ [93]) [Mark 93]) as [X Y].
    + intros e E. apply (always_then (pad ind (S k)) _ []); [apply pad_always | apply R; right; exact E].
    + apply (always_app (pad ind k) [93] [] [Mark 93]); [apply pad_always | apply mark_always; cbn; auto].
    + apply begins_pad; reflexivity.
    + apply lexes_always; [apply R; left; reflexivity | exact X | exact Y].
  - assert (R : forall m, In m l -> string_ok (fst m) /\ readable (snd m)).
    { clear -H W. induction H as [|d l D H IH]; [intros d []|]. destruct W as (W0 & W1 & W2). intros e [<-|E]; [split; [exact W0 | apply D; exact W1] | apply IH; assumption]. }
    clear H W. apply always_lexes. cbn [body tok_of].
    destruct l as [|m l]; [apply (always_app [123] [125] [Mark 123] [Mark 125]); apply mark_always; cbn; auto 10|].
    apply (always_app [123] _ [Mark 123]); [apply mark_always; cbn; auto 10|]. rewrite <- !app_assoc.
    apply (always_app (pad ind (S k)) _ []); [apply pad_always|].
    assert (M : forall m' : list (Z * list Z) * doc, string_ok (fst m') -> readable (snd m') ->
      lexes (pad ind (S k) ++ format_string (fst m') ++ colon ind ++ body ind (S k) (snd m')) (TString (map fst (fst m')) :: Mark 58 :: tok_of (snd m'))).
    { intros m' A B. apply (always_then (pad ind (S k)) _ []); [apply pad_always|].
      apply (always_then (format_string (fst m')) _ [_]); [apply string_always; exact A|].
      apply (always_then (colon ind) _ [_]); [apply colon_always | apply B]. }
    destruct (rest_always _ (fun m => pad ind (S k) ++ format_string (fst m) ++ colon ind ++ body ind (S k) (snd m))
                (fun m => TString (map fst (fst m)) :: Mark 58 :: tok_of (snd m)) l (pad ind k ++ [125]) [Mark 125]) as [X Y].
    + intros e E. destruct (R e (or_intror E)). apply M; assumption.
    + apply (always_app (pad ind k) [125] [] [Mark 125]); [apply pad_always | apply mark_always; cbn; auto 10].
    + apply begins_pad; reflexivity.
    + destruct (R m (or_introl eq_refl)) as [A B].
      apply (always_app (format_string (fst m)) _ [_]); [apply string_always; exact A|].
      apply (always_app (colon ind) _ [_]); [apply colon_always|].
      apply lexes_always; [apply B | exact X | exact Y].
Qed.

(** The tokens of a value are read as it *)
Definition starts (ts : list token) : Prop :=
  match ts with
  | TWord _ :: _ | TNumber _ _ :: _ | TString _ :: _ => True
  | Mark c :: _ => c = 91 \/ c = 123
  | [] => False
  end.
Lemma tok_starts : forall d r, starts (tok_of d ++ r).
Proof.
  intros [c|l|l] r; cbn; [unfold scalar_token; destruct (scalar_json c); exact I | left; reflexivity | right; reflexivity].
Qed.
Lemma value_array : forall fuel l, starts l ->
  value (S fuel) (Mark 91 :: l) = match elements fuel l with Some (vs, l) => Some (JArray vs, l) | None => None end.
Proof. intros fuel [|[c|s|m e|j] l] H; try contradiction; try reflexivity. destruct H as [->| ->]; reflexivity. Qed.
Lemma parsed : forall d, doc_ok d -> forall fuel rest, (2 * length (tok_of d) <= fuel)%nat -> value fuel (tok_of d ++ rest) = Some (json_of d, rest).
Proof.
  induction d using doc_rec'; intros W fuel rest F.
  - cbn [tok_of json_of doc_ok length app] in *. destruct fuel as [|fuel]; [lia|].
    destruct c; cbn [scalar_ok] in W; try contradiction; try reflexivity. destruct d; [reflexivity | contradiction | contradiction].
  - cbn [tok_of json_of] in *. destruct fuel as [|fuel]; [cbn in F; lia|]. destruct l as [|d l]; [reflexivity|].
    inversion H as [|? ? D H']; subst. destruct W as [W1 W2]. cbn [app length] in *. rewrite <- !app_assoc, value_array by apply tok_starts.
    assert (X : forall l' fuel' d', (forall f r, (2 * length (tok_of d') <= f)%nat -> value f (tok_of d' ++ r) = Some (json_of d', r)) ->
      Forall (fun d => doc_ok d -> forall f r, (2 * length (tok_of d) <= f)%nat -> value f (tok_of d ++ r) = Some (json_of d, r)) l' ->
      fold_right (fun d p => doc_ok d /\ p) True l' ->
      (2 * length (tok_of d' ++ flat_map (fun d => Mark 44 :: tok_of d) l' ++ [Mark 93]) + 1 <= fuel')%nat ->
      elements fuel' (tok_of d' ++ flat_map (fun d => Mark 44 :: tok_of d) l' ++ [Mark 93] ++ rest) = Some (map json_of (d' :: l'), rest)).
    { clear. induction l' as [|e l' IH]; intros fuel' d' P Q R L; (destruct fuel' as [|fuel']; [lia|]); cbn [elements].
      - cbn [flat_map app] in *. rewrite P; [reflexivity|]. rewrite app_length in L. lia.
      - cbn [flat_map app] in *. rewrite P; [|rewrite app_length in L; cbn [length] in L; lia]. cbn [map].
        inversion Q as [|? ? Q1 Q2]; subst. destruct R as [R1 R2]. rewrite <- app_assoc.
        rewrite IH; [reflexivity | intros f r; apply Q1; exact R1 | exact Q2 | exact R2 |].
        rewrite app_length in L. cbn [length] in L. rewrite <- app_assoc in L. lia. }
    rewrite X; [reflexivity | intros f r; apply D; exact W1 | exact H' | exact W2 |]. rewrite <- app_assoc in F. lia.
  - cbn [tok_of json_of] in *. destruct fuel as [|fuel]; [cbn in F; lia|]. destruct l as [|m l]; [reflexivity|].
    inversion H as [|? ? D H']; subst. destruct W as (W0 & W1 & W2). cbn [app length] in *.
    assert (X : forall l' fuel' (m' : list (Z * list Z) * doc),
      (forall f r, (2 * length (tok_of (snd m')) <= f)%nat -> value f (tok_of (snd m') ++ r) = Some (json_of (snd m'), r)) ->
      Forall (fun m => doc_ok (snd m) -> forall f r, (2 * length (tok_of (snd m)) <= f)%nat -> value f (tok_of (snd m) ++ r) = Some (json_of (snd m), r)) l' ->
      fold_right (fun (m : list (Z * list Z) * doc) p => string_ok (fst m) /\ doc_ok (snd m) /\ p) True l' ->
      (2 * length (tok_of (snd m') ++ flat_map (fun m => Mark 44 :: TString (map fst (fst m)) :: Mark 58 :: tok_of (snd m)) l' ++ [Mark 125]) + 1 <= fuel')%nat ->
      members fuel' (TString (map fst (fst m')) :: Mark 58 :: tok_of (snd m') ++
        flat_map (fun m => Mark 44 :: TString (map fst (fst m)) :: Mark 58 :: tok_of (snd m)) l' ++ [Mark 125] ++ rest) =
      Some (map (fun m => (map fst (fst m), json_of (snd m))) (m' :: l'), rest)).
    { clear. induction l' as [|e l' IH]; intros fuel' m' P Q R L; (destruct fuel' as [|fuel']; [lia|]); cbn [members].
      - cbn [flat_map app] in *. rewrite P; [reflexivity|]. rewrite app_length in L. lia.
      - cbn [flat_map app] in *. rewrite P; [|rewrite app_length in L; cbn [length] in L; lia]. cbn [map].
        inversion Q as [|? ? Q1 Q2]; subst. destruct R as (R0 & R1 & R2). rewrite <- app_assoc.
        rewrite IH; [reflexivity | intros f r; apply Q1; exact R1 | exact Q2 | exact R2 |].
        rewrite app_length in L. cbn [length] in L. rewrite <- app_assoc in L. lia. }
    rewrite <- !app_assoc. cbn [value]. rewrite X; [reflexivity | intros f r; apply D; exact W1 | exact H' | exact W2 |]. rewrite <- app_assoc in F. lia.
Qed.

Lemma doc_read : forall d ind k, doc_ok d -> read (body ind k d) = Some (json_of d).
Proof.
  intros d ind k H. unfold read. assert (X := doc_readable d H ind k [] I). rewrite app_nil_r in X. rewrite X. cbn [tokens ends option_map].
  rewrite (parsed d H) by (rewrite app_nil_r; lia). reflexivity.
Qed.
Lemma ok_well : forall d, doc_ok d -> well d.
Proof.
  induction d using doc_rec'; intros W; cbn [doc_ok well] in *.
  - destruct c; cbn in *; auto.
  - induction H as [|d l D H IH]; [exact I|]. destruct W as [W1 W2]. split; [apply D; exact W1 | apply IH; exact W2].
  - induction H as [|d l D H IH]; [exact I|]. destruct W as (W0 & W1 & W2). split; [apply D; exact W1 | apply IH; exact W2].
Qed.
