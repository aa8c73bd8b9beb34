(** C61.  The JSON writer accepts only calls that write whole values, and the text it prints
    for a value is read by a JSON reader as that value. *)

From Coq Require Import ZArith Lia Bool List String.
From Verif Require Import LexModel AsmModel JsonModel JsonSpec JsonProofs JsonMain.
Import ListNotations.
Open Scope Z_scope.
Local Notation length := List.length.

(** ** Accepted calls write values *)

(** An array or object that is open, with what has been written of it *)
Inductive frame := FArray (l : list doc) | FObject (l : list (list (Z * list Z) * doc)) | FKey (l : list (list (Z * list Z) * doc)) (key : list (Z * list Z)).
Definition frame_calls (f : frame) : list jcall :=
  match f with
  | FArray l => ArrayBegin :: flat_map calls_of l
  | FObject l => ObjectBegin :: flat_map member_calls l
  | FKey l key => (ObjectBegin :: flat_map member_calls l) ++ [Key key]
  end.
(** Values written, open frames with the innermost first *)
Definition so_far (done : list doc) (fs : list frame) : list jcall := flat_map calls_of done ++ flat_map frame_calls (rev fs).
Definition shape (f : frame) : jstate :=
  match f with
  | FArray [] => JArrayEmpty | FArray _ => JArray_ | FObject [] => JObjectEmpty | FObject _ => JObject_ | FKey _ _ => JObjectField
  end.
Definition shape_under (f : frame) : jstate := match f with FArray _ => JArray_ | _ => JObject_ end.
Definition waits (f : frame) : Prop := match f with FObject _ => False | _ => True end.
Fixpoint under (st : nat -> jstate) (fs : list frame) : Prop :=
  match fs with
  | [] => st 0%nat = JInit
  | f :: fs => st (S (length fs)) = shape_under f /\ waits f /\ under st fs
  end.
Definition matches (w : writer) (fs : list frame) : Prop :=
  w_level w = length fs /\
  match fs with
  | [] => w_state w 0%nat = JInit
  | f :: fs => here w = shape f /\ under (w_state w) fs
  end.
Lemma under_same : forall fs st st', (forall k, (k <= length fs)%nat -> st' k = st k) -> under st fs -> under st' fs.
Proof.
  induction fs as [|f fs IH]; intros st st' H U; cbn [under length] in *; [rewrite H by lia; exact U|].
  destruct U as (A & B & C). split; [rewrite H by lia; exact A|]. split; [exact B|]. apply (IH st); [intros k K; apply H; lia | exact C].
Qed.

(** A value that is complete goes into the frame that waits for it *)
Definition put (d : doc) (done : list doc) (fs : list frame) : list doc * list frame :=
  match fs with
  | [] => (done ++ [d], [])
  | FArray l :: fs => (done, FArray (l ++ [d]) :: fs)
  | FKey l key :: fs => (done, FObject (l ++ [(key, d)]) :: fs)
  | FObject l :: fs => (done, FObject l :: fs)
  end.
Lemma frames_snoc : forall fs f, flat_map frame_calls (rev (f :: fs)) = flat_map frame_calls (rev fs) ++ frame_calls f.
Proof. intros fs f. cbn [rev]. rewrite flat_map_app. cbn [flat_map]. rewrite app_nil_r. reflexivity. Qed.
Lemma put_calls : forall d done fs, match fs with f :: _ => waits f | [] => True end ->
  so_far (fst (put d done fs)) (snd (put d done fs)) = so_far done fs ++ calls_of d.
Proof.
  intros d done [|[l|l|l key] fs] H; cbn [put fst snd]; unfold so_far; try contradiction.
  - cbn [rev flat_map]. rewrite flat_map_app. cbn [flat_map]. rewrite !app_nil_r. reflexivity.
  - rewrite !frames_snoc. cbn [frame_calls]. rewrite flat_map_app. cbn [flat_map]. rewrite app_nil_r, <- !app_assoc. reflexivity.
  - rewrite !frames_snoc. cbn [frame_calls]. rewrite flat_map_app. cbn [flat_map]. unfold member_calls at 2. cbn [fst snd].
    rewrite app_nil_r, <- !app_assoc. cbn [app]. rewrite <- ?app_assoc. reflexivity.
Qed.
(** The writer whose state allows a value, and whose states match the frames when it is written *)
Definition ready (w : writer) (fs : list frame) : Prop :=
  w_level w = length fs /\ match fs with f :: _ => waits f | [] => True end /\ under (w_state w) fs.
Lemma ready_put : forall d done w fs, ready w fs -> matches w (snd (put d done fs)).
Proof.
  intros d done w [|[l|l|l key] fs] (L & W & U); cbn [put snd waits] in *; try contradiction.
  - split; [exact L | exact U].
  - destruct U as (A & _ & B). split; [exact L|]. split; [|exact B]. unfold here. rewrite L. cbn [length]. rewrite A. destruct l; reflexivity.
  - destruct U as (A & _ & B). split; [exact L|]. split; [|exact B]. unfold here. rewrite L. cbn [length]. rewrite A. destruct l; reflexivity.
Qed.
(** A value is accepted only where one is waited for *)
Lemma validate_ready : forall w v fs, matches w fs -> validate_value (write_separator w) = Some v -> ready v fs.
Proof.
  intros w v fs (L & M) V. assert (G := separator_goes w). unfold validate_value in V. rewrite (g_state _ _ _ _ G) in V.
  assert (LE : w_level (write_separator w) = length fs) by (rewrite (g_level _ _ _ _ G); exact L).
  destruct fs as [|f fs].
  - unfold here in V. rewrite L in V. cbn [length] in V. rewrite M in V. injection V as <-. split; [exact LE|]. split; [exact I|]. cbn [under].
    assert (X := g_state _ _ _ _ G). unfold here in X. rewrite L, LE in X. cbn [length] in X. congruence.
  - destruct M as [HS U].
    assert (U' : under (w_state (write_separator w)) fs).
    { apply (under_same fs (w_state w)); [|exact U]. intros k K. apply (g_below _ _ _ _ G). rewrite L. cbn [length]. lia. }
    assert (B : forall s, v = become s (write_separator w) -> under (w_state v) fs /\ w_state v (S (length fs)) = s /\ w_level v = length (f :: fs)).
    { intros s ->. split; [|split; [|exact LE]].
      - apply (under_same fs (w_state (write_separator w))); [|exact U']. intros k K. cbn [become w_state]. rewrite LE. cbn [length].
        rewrite (proj2 (Nat.eqb_neq k (S (length fs)))) by lia. reflexivity.
      - cbn [become w_state]. rewrite LE. cbn [length]. rewrite Nat.eqb_refl. reflexivity. }
    assert (X := g_state _ _ _ _ G). unfold here at 1 in X. rewrite LE in X. cbn [length] in X. rewrite HS in V, X.
    destruct f as [[|d l]|[|d l]|l key]; cbn [shape] in V, X; try discriminate V; injection V as V.
    + destruct (B _ (eq_sym V)) as (B1 & B2 & B3). split; [exact B3|]. split; [exact I|]. cbn [under]. repeat split; assumption.
    + subst v. split; [exact LE|]. split; [exact I|]. cbn [under]. repeat split; assumption.
    + destruct (B _ (eq_sym V)) as (B1 & B2 & B3). split; [exact B3|]. split; [exact I|]. cbn [under]. repeat split; assumption.
Qed.
Lemma ready_waits : forall w fs, ready w fs -> match fs with f :: _ => waits f | [] => True end.
Proof. intros w fs (_ & W & _). exact W. Qed.

(** The values of frames are made of scalars *)
Definition frame_well (f : frame) : Prop :=
  match f with FArray l => Forall well l | FObject l | FKey l _ => Forall (fun m => well (snd m)) l end.
Lemma well_array : forall l, Forall well l -> well (DArray l).
Proof. intros l H. cbn [well]. induction H as [|d l D H IH]; [exact I | split; assumption]. Qed.
Lemma well_object : forall l : list (list (Z * list Z) * doc), Forall (fun m => well (snd m)) l -> well (DObject l).
Proof. intros l H. cbn [well]. induction H as [|d l D H IH]; [exact I | split; assumption]. Qed.
Lemma put_well : forall d done fs, well d -> Forall well done -> Forall frame_well fs ->
  Forall well (fst (put d done fs)) /\ Forall frame_well (snd (put d done fs)).
Proof.
  intros d done [|[l|l|l key] fs] D A B; cbn [put fst snd].
  - split; [apply Forall_app; auto | constructor].
  - split; [exact A|]. inversion B; subst. constructor; [|assumption]. cbn [frame_well] in *. apply Forall_app. auto.
  - split; assumption.
  - split; [exact A|]. inversion B; subst. constructor; [|assumption]. cbn [frame_well] in *. apply Forall_app. auto.
Qed.

Lemma step_matches : forall p c w w' done fs, jstep p c w = (true, w') -> matches w fs -> Forall well done -> Forall frame_well fs ->
  exists done' fs', so_far done' fs' = so_far done fs ++ [c] /\ matches w' fs' /\ Forall well done' /\ Forall frame_well fs'.
Proof.
  intros p c w w' done fs E M WD WF.
  assert (OPEN : forall f b s, c = f /\ (f = ArrayBegin /\ b = FArray [] /\ s = JArrayEmpty \/ f = ObjectBegin /\ b = FObject [] /\ s = JObjectEmpty) ->
    (exists v t, validate_value (write_separator w) = Some v /\ w' = print t (become s (at_level (S (w_level v)) v))) ->
    so_far done (b :: fs) = so_far done fs ++ [c] /\ matches w' (b :: fs) /\ frame_well b).
  { intros f b s (-> & K) (v & t & V & ->). assert (R := validate_ready w v fs M V). destruct R as (L & _ & U).
    split; [|split; [split|]].
    - unfold so_far. rewrite frames_snoc, app_assoc. destruct K as [(-> & -> & _)|(-> & -> & _)]; reflexivity.
    - cbn [print become at_level w_level length]. rewrite L. reflexivity.
    - split; [unfold here; cbn; rewrite Nat.eqb_refl; destruct K as [(_ & -> & ->)|(_ & -> & ->)]; reflexivity|].
      apply (under_same fs (w_state v)); [|exact U]. intros k K'. cbn [print become at_level w_state w_level]. rewrite L.
      rewrite (proj2 (Nat.eqb_neq k (S (length fs)))) by lia. reflexivity.
    - destruct K as [(_ & -> & _)|(_ & -> & _)]; constructor. }
  assert (SCALAR : is_scalar c -> exists done' fs', so_far done' fs' = so_far done fs ++ [c] /\ matches w' fs' /\ Forall well done' /\ Forall frame_well fs').
  { intros HS.
    assert (X : match validate_value (write_separator w) with Some v => (true, print (scalar_text p c) v) | None => (false, write_separator w) end = (true, w'))
      by (destruct c; try contradiction; exact E).
    destruct (validate_value (write_separator w)) as [v|] eqn:V; [|discriminate X]. injection X as <-.
    assert (R := validate_ready w v fs M V). exists (fst (put (DScalar c) done fs)), (snd (put (DScalar c) done fs)).
    split; [exact (put_calls (DScalar c) done fs (ready_waits v fs R))|]. split; [|apply put_well; [exact HS | exact WD | exact WF]].
    assert (Q := ready_put (DScalar c) done v fs R). exact Q. }
  destruct c; try (apply SCALAR; exact I).
  - exists done, (FObject [] :: fs). destruct (OPEN ObjectBegin (FObject []) JObjectEmpty) as (A & B & C); [auto 6| |split; [exact A | split; [exact B | split; [exact WD | constructor; assumption]]]].
    unfold jstep in E. destruct (w_level w + 1 <? MAX_DEPTH)%nat; [|discriminate E]. destruct (validate_value (write_separator w)) as [v|]; [|discriminate E].
    injection E as <-. exists v, [123]. split; reflexivity.
  - unfold jstep in E. destruct (0 <? w_level w)%nat; [|discriminate E]. destruct M as [L M]. destruct fs as [|f fs].
    { unfold here in E. rewrite L in E. cbn [length] in E. rewrite M in E. discriminate E. }
    destruct M as [HS U]. inversion WF as [|? ? WF1 WF2]; subst. exists (fst (put (match f with FObject l => DObject l | _ => DScalar Null end) done fs)), (snd (put (match f with FObject l => DObject l | _ => DScalar Null end) done fs)).
    assert (K : exists l, f = FObject l).
    { rewrite HS in E. destruct f as [[|d l]|l|l key]; try discriminate E. exists l. reflexivity. }
    destruct K as (l & ->). assert (W : match fs with f :: _ => waits f | [] => True end) by (destruct fs; [exact I | apply U]).
    split; [|split; [|apply put_well; [apply well_object; exact WF1 | exact WD | exact WF2]]].
    + rewrite put_calls by exact W. unfold so_far. rewrite frames_snoc. cbn [frame_calls calls_of]. rewrite <- !app_assoc. reflexivity.
    + apply ready_put. split; [|split; [exact W|]].
      * rewrite HS in E. destruct l; cbn [shape] in E; injection E as <-; cbn; rewrite L; reflexivity.
      * rewrite HS in E. destruct l; cbn [shape] in E; injection E as <-; exact U.
  - exists done, (FArray [] :: fs). destruct (OPEN ArrayBegin (FArray []) JArrayEmpty) as (A & B & C); [auto 6| |split; [exact A | split; [exact B | split; [exact WD | constructor; assumption]]]].
    unfold jstep in E. destruct (w_level w + 1 <? MAX_DEPTH)%nat; [|discriminate E]. destruct (validate_value (write_separator w)) as [v|]; [|discriminate E].
    injection E as <-. exists v, [91]. split; reflexivity.
  - unfold jstep in E. destruct (0 <? w_level w)%nat; [|discriminate E]. destruct M as [L M]. destruct fs as [|f fs].
    { unfold here in E. rewrite L in E. cbn [length] in E. rewrite M in E. discriminate E. }
    destruct M as [HS U]. inversion WF as [|? ? WF1 WF2]; subst. exists (fst (put (match f with FArray l => DArray l | _ => DScalar Null end) done fs)), (snd (put (match f with FArray l => DArray l | _ => DScalar Null end) done fs)).
    assert (K : exists l, f = FArray l).
    { rewrite HS in E. destruct f as [l|[|d l]|l key]; try discriminate E. exists l. reflexivity. }
    destruct K as (l & ->). assert (W : match fs with f :: _ => waits f | [] => True end) by (destruct fs; [exact I | apply U]).
    split; [|split; [|apply put_well; [apply well_array; exact WF1 | exact WD | exact WF2]]].
    + rewrite put_calls by exact W. unfold so_far. rewrite frames_snoc. cbn [frame_calls calls_of]. rewrite <- !app_assoc. reflexivity.
    + apply ready_put. split; [|split; [exact W|]].
      * rewrite HS in E. destruct l; cbn [shape] in E; injection E as <-; cbn; rewrite L; reflexivity.
      * rewrite HS in E. destruct l; cbn [shape] in E; injection E as <-; exact U.
  - unfold jstep in E. cbv zeta in E. assert (G := separator_goes w). rewrite (g_state _ _ _ _ G) in E. destruct M as [L M]. destruct fs as [|f fs].
    { unfold here in E. rewrite L in E. cbn [length] in E. rewrite M in E. discriminate E. }
    destruct M as [HS U]. rewrite HS in E. destruct f as [[|d l]|l|l key]; try discriminate E.
    exists done, (FKey l s :: fs). inversion WF as [|? ? WF1 WF2]; subst.
    assert (K : w' = print (format_string s) (become JObjectField (write_separator w))) by (destruct l; injection E as <-; reflexivity). subst w'.
    assert (P := goes_trans _ _ _ _ _ _ _ (goes_trans _ _ _ _ _ _ _ G (become_goes (write_separator w) JObjectField))
                 (print_goes (become JObjectField (write_separator w)) (format_string s))).
    split; [|split; [|split; [exact WD | constructor; assumption]]].
    + unfold so_far. rewrite !frames_snoc. cbn [frame_calls]. rewrite <- !app_assoc. reflexivity.
    + split; [rewrite (g_level _ _ _ _ P); exact L|]. split; [rewrite (g_state _ _ _ _ P); apply here_become|].
      apply (under_same fs (w_state w)); [|exact U]. intros k K. apply (g_below _ _ _ _ P). rewrite L. cbn [length]. lia.
Qed.
Lemma run_matches : forall p l w w' done fs, jrun p l w = Some w' -> matches w fs -> Forall well done -> Forall frame_well fs ->
  exists done' fs', so_far done' fs' = so_far done fs ++ l /\ matches w' fs' /\ Forall well done' /\ Forall frame_well fs'.
Proof.
  intros p. induction l as [|c l IH]; intros w w' done fs E M WD WF; cbn [jrun] in E.
  - injection E as <-. exists done, fs. rewrite app_nil_r. auto.
  - destruct (jstep p c w) as [[|] v] eqn:S; [|discriminate E].
    destruct (step_matches p c w v done fs S M WD WF) as (done1 & fs1 & A & B & C & D).
    destruct (IH v w' done1 fs1 E B C D) as (done2 & fs2 & A' & R). exists done2, fs2. split; [|exact R]. rewrite A', A, <- app_assoc. reflexivity.
Qed.
Lemma accepted_docs : forall p ind l w, jrun p l (json_init ind) = Some w -> json_finalize w = true ->
  exists ds, l = flat_map calls_of ds /\ Forall well ds.
Proof.
  intros p ind l w E F. destruct (run_matches p l (json_init ind) w [] [] E) as (done & fs & A & (B & _) & C & _); try constructor; try reflexivity.
  unfold json_finalize in F. rewrite B in F. destruct fs; [|discriminate F]. exists done. split; [|exact C].
  unfold so_far in A. cbn in A. rewrite app_nil_r in A. exact (eq_sym A).
Qed.

(** ** Running whole sequences *)
Lemma top_values : forall ds w, Forall well ds -> w_level w = 0%nat -> here w = JInit ->
  match jrun 46 (flat_map calls_of ds) w with
  | Some w' => Forall (fun d => (depth d < MAX_DEPTH)%nat) ds /\ json_finalize w' = true /\ w_out w' = w_out w ++ flat_map (body (w_indent w) 0) ds
  | None => ~ Forall (fun d => (depth d < MAX_DEPTH)%nat) ds
  end.
Proof.
  intros ds w H. revert w. induction H as [|d ds D H IH]; intros w L S.
  - cbn. split; [constructor|]. split; [unfold json_finalize; rewrite L; reflexivity | rewrite app_nil_r; reflexivity].
  - cbn [flat_map]. rewrite jrun_app. assert (R := doc_runs d D w). rewrite S, L in R. specialize (R ltac:(split; discriminate) ltac:(unfold MAX_DEPTH; lia)).
    destruct (jrun 46 (calls_of d) w) as [v|]; [|intros K; inversion K; subst; lia]. destruct R as [R G]. cbn [separator valued app] in G.
    specialize (IH v). rewrite (g_level _ _ _ _ G), (g_state _ _ _ _ G), (g_indent _ _ _ _ G) in IH. specialize (IH L eq_refl).
    destruct (jrun 46 (flat_map calls_of ds) v) as [w'|]; [|intros K; inversion K; subst; contradiction].
    destruct IH as (A & B & C). split; [constructor; [lia | exact A]|]. split; [exact B|]. rewrite C, (g_out _ _ _ _ G), <- app_assoc. reflexivity.
Qed.

(** A list of calls writes values when it is the calls of a list of values ([well]: what stands
    for a scalar is one of the scalar calls).  For every list of
    calls: it is accepted and ended without error exactly when it writes values less than 1024
    levels deep, and then what is printed is the texts of the values one after another; the
    text of a value, where its strings and numbers are such as JSON can hold, is read as it.
    Not all: the writer accepts several values or none, and some strings and floats are
    printed as no JSON reader takes them (see below); hexadecimal floats and the conversion
    of strings of the locale to characters are as given. *)
Theorem c61_json_text_partial : forall ind l,
  (forall w, jrun 46 l (json_init ind) = Some w -> json_finalize w = true ->
    exists ds texts, l = flat_map calls_of ds /\ Forall well ds /\ Forall (fun d => (depth d < 1024)%nat) ds /\
      w_out w = List.concat texts /\ Forall2 (fun d t => doc_ok d -> read t = Some (json_of d)) ds texts) /\
  (forall d, l = calls_of d -> doc_ok d ->
    match jrun 46 l (json_init ind) with
    | Some w => json_finalize w = true /\ read (w_out w) = Some (json_of d)
    | None => (1024 <= depth d)%nat
    end).
Proof.
  intros ind l. split.
  - intros w E F. destruct (accepted_docs 46 ind l w E F) as (ds & -> & W). assert (T := top_values ds (json_init ind) W eq_refl eq_refl).
    rewrite E in T. destruct T as (D & _ & O). exists ds, (map (body ind 0) ds). split; [reflexivity|]. split; [exact W|]. split; [exact D|]. split.
    + rewrite O, flat_map_concat_map. reflexivity.
    + clear. induction ds as [|d ds IH]; constructor; [apply doc_read | exact IH].
  - intros d -> K. assert (T := top_values [d] (json_init ind) (Forall_cons d (ok_well d K) (Forall_nil _)) eq_refl eq_refl).
    cbn [flat_map] in T. rewrite app_nil_r in T. destruct (jrun 46 (calls_of d) (json_init ind)) as [w|].
    + destruct T as (_ & A & B). split; [exact A|]. rewrite B, app_nil_r. apply doc_read. exact K.
    + apply Nat.nlt_ge. intros N. apply T. constructor; [exact N | constructor].
Qed.
Print Assumptions c61_json_text_partial.

(** A document with all that the theorem speaks of *)
Definition plain (s : string) : list (Z * list Z) := map (fun c => (c, [c])) (text s).
Definition sample : doc :=
  DObject [(plain "class", DScalar (String_ (plain "a/b" ++ [(9, [9]); (34, [34]); (8364, [226; 130; 172])])));
           (plain "values", DArray [DScalar (Integer (-17)); DScalar (UInteger 18446744073709551615);
              DScalar (Float (Finite true 1250000)); DArray []; DObject []; DScalar (Boolean false); DScalar Null;
              DScalar (RawString [10; 92; 0]); DScalar (HexFloat (text "0x1.4p+0"))])].
Example sample_ok : doc_ok sample /\ (depth sample < 1024)%nat.
Proof.
  split; [|vm_compute; lia]. assert (O : forall s, forallb (fun p : Z * list Z => same (snd p) (utf8 (fst p)) && scalar_value (fst p) && ((32 <=? fst p) || (fst p =? 9))) s = true -> string_ok s).
  { intros s H. apply Forall_forall. intros p P. rewrite forallb_forall in H. specialize (H p P). apply andb_true_iff in H. destruct H as [H C].
    apply andb_true_iff in H. destruct H as [A B]. split; [unfold same in A; destruct (list_eq_dec Z.eq_dec (snd p) (utf8 (fst p))); [assumption | discriminate A]|].
    split; [exact B|]. apply orb_true_iff in C. destruct C as [C|C]; [left; apply Z.leb_le; exact C | right; apply Z.eqb_eq in C; rewrite C; cbn; auto]. }
  unfold sample. cbn [doc_ok fold_right fst snd].
  repeat match goal with |- _ /\ _ => split | |- True => exact I | |- string_ok _ => apply O; vm_compute; reflexivity end; cbn [scalar_ok]; try lia; try (split; [lia | reflexivity]); try (split; reflexivity || lia).
  - apply O. vm_compute. reflexivity.
  - repeat constructor; cbn; lia.
  - vm_compute. repeat constructor; discriminate.
Qed.
Example sample_text : option_map w_out (jrun 46 (calls_of (DArray [DScalar (Integer 1); DObject [(plain "k", DScalar Null)]])) (json_init 1)) =
  Some (text "[" ++ [10] ++ text " 1," ++ [10] ++ text " {" ++ [10; 32; 32] ++ format_string (plain "k") ++ text ": null" ++ [10] ++ text " }" ++ [10] ++ text "]").
Proof. vm_compute. reflexivity. Qed.

(** ** What is accepted but is no JSON text *)

Definition output (p : Z) (l : list jcall) : option (list Z) :=
  match jrun p l (json_init 0) with Some w => if json_finalize w then Some (w_out w) else None | None => None end.

(** Every text that the writer ends without error would be one JSON value *)
Definition one_value : Prop := forall l t, output 46 l = Some t -> read t <> None.
(** Two values run together into a third one, and no calls at all give no value *)
Theorem c61_one_value_refuted : ~ one_value /\
  output 46 [Integer 1; Integer 2] = Some (text "12") /\ read (text "12") = Some (JNumber 12 0).
Proof. split; [|split; vm_compute; reflexivity]. intros H. apply (H [] [] eq_refl). vm_compute. reflexivity. Qed.

(** One string, for every string of characters: as JSON it would be that string *)
Definition strings_read : Prop := forall s t, Forall (fun p => snd p = utf8 (fst p) /\ scalar_value (fst p) = true) s ->
  output 46 [String_ s] = Some t -> read t = Some (JString (map fst s)).
(** The alarm character is escaped as in C, which JSON does not have; so is the vertical tab
    in a raw string, and the question mark; other control characters are not escaped *)
Theorem c61_strings_refuted : ~ strings_read /\
  (forall c, In c [7; 1; 27; 31] -> match output 46 [String_ [(c, [c])]] with Some t => read t = None | None => False end) /\
  (forall c, In c [63; 11; 7; 1; 27; 228] -> match output 46 [RawString [c]] with Some t => read t = None | None => False end).
Proof.
  split; [|split].
  - intros H. specialize (H [(7, [7])] (text """\a""")). assert (K : read (text """\a""") = None) by (vm_compute; reflexivity).
    rewrite H in K; [discriminate K | repeat constructor | vm_compute; reflexivity].
  - intros c H. cbn [In] in H. decompose [or] H; subst; try contradiction; vm_compute; reflexivity.
  - intros c H. cbn [In] in H. decompose [or] H; subst; try contradiction; vm_compute; reflexivity.
Qed.

(** One floating-point value, for every value and locale: it would be a JSON number *)
Definition floats_read : Prop := forall p d t, output p [Float d] = Some t -> read t <> None.
(** Infinities and NaN are printed as words; with a decimal comma the number is split *)
Theorem c61_floats_refuted : ~ floats_read /\
  (forall d, In d [Infinite false; Infinite true; NotNumber false] -> match output 46 [Float d] with Some t => read t = None | None => False end) /\
  (match output 44 [Float (Finite false 1500000)] with Some t => read t = None | None => False end) /\
  (match output 44 [ArrayBegin; Float (Finite false 1500000); ArrayEnd] with Some t => read t = Some (JArray [JNumber 1 0; JNumber 500000 0]) | None => False end).
Proof.
  split; [|split; [|split]].
  - intros H. specialize (H 46 (Infinite false) (text "inf")). apply H; vm_compute; reflexivity.
  - intros d H. cbn [In] in H. decompose [or] H; subst; try contradiction; vm_compute; reflexivity.
  - vm_compute. reflexivity.
  - vm_compute. reflexivity.
Qed.

(** A call that is refused would leave the text as it was *)
Definition refused_silent : Prop := forall c w, fst (jstep 46 c w) = false -> w_out (snd (jstep 46 c w)) = w_out w.
(** A key in an array is refused after its comma has been printed *)
Theorem c61_refused_refuted : ~ refused_silent /\
  (exists w, jrun 46 [ArrayBegin; Integer 1] (json_init 0) = Some w /\ fst (jstep 46 (Key []) w) = false /\
     w_out (snd (jstep 46 (Key []) w)) = text "[1,").
Proof.
  assert (X : exists w, jrun 46 [ArrayBegin; Integer 1] (json_init 0) = Some w /\ fst (jstep 46 (Key []) w) = false /\
     w_out w = text "[1" /\ w_out (snd (jstep 46 (Key []) w)) = text "[1,").
  { eexists. split; [reflexivity|]. split; [reflexivity|]. split; vm_compute; reflexivity. }
  destruct X as (w & A & B & C & D). split; [|exists w; auto]. intros H. specialize (H (Key []) w B). rewrite C, D in H. vm_compute in H. discriminate H.
Qed.
Print Assumptions c61_one_value_refuted.
Print Assumptions c61_strings_refuted.
Print Assumptions c61_floats_refuted.
Print Assumptions c61_refused_refuted.
