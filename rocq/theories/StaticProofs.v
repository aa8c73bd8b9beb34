(** Correctness of static data emission: specification and proof (for PropStaticData). *)

From Coq Require Import ZArith Lia Bool List Sorted.
From Coq Require Import ZifyBool.
From Verif Require Import Bits HashtreeModel IrType PropIrType LayoutModel PropLayout IrData PropIrData
  StaticData PropFinalize.
Import ListNotations.
Open Scope Z_scope.

(** ** Specification *)

(** The little-endian bytes of a number. *)
Definition little (n : nat) (v : Z) : list cell :=
  map (fun k => Byte ((v / 256 ^ Z.of_nat k) mod 256)) (seq 0 n).

(** The bytes a value has in an object of a type; nothing when there is no value;
    [None] when the value does not suit the type. *)
Definition node_value (x : tree) (v : dval) : option (list cell) :=
  match x with
  | TLeaf (CPad | CBuiltin) _ _ => Some []
  | TLeaf CMemory _ _ | TArr _ _ _ =>
    match v with
    | VUndef => Some []
    | VStr bs | VRaw bs => Some (map (fun b => Byte (b mod 256)) bs)
    | _ => None
    end
  | TLeaf c _ _ =>
    match v with
    | VUndef => Some []
    | VInt z =>
      match c with
      | CFloat32 | CFloat64 | CLongDouble => None
      | _ => Some (little (Z.to_nat (abi_size x)) z)
      end
    | VPtr r o =>
      match c with
      | CLong | CInt64 | CWord => Some (map (Addr (SName r) o) (seq 0 8))
      | _ => None
      end
    | VStrPtr i o =>
      match c with
      | CLong | CInt64 | CWord => Some (map (Addr (SString i) o) (seq 0 8))
      | _ => None
      end
    | VF32 b => match c with CFloat32 => Some (little 4 b) | _ => None end
    | VF64 b => match c with CFloat64 => Some (little 8 b) | _ => None end
    | VLongDouble b => match c with CLongDouble => Some (little 16 b) | _ => None end
    | _ => None
    end
  | TAgg _ _ _ => None
  end.

Definition whole_value (v : dval) : bool := match v with VUndef | VAgg => false | _ => true end.

(** Where the values of an object at slot [s] go: node [x] with slot [sx] at offset [o].
    Of a union, the first member anything of which is initialised. *)
Inductive placed (vals : Z -> slotv) : tree -> Z -> Z -> tree -> Z -> Prop :=
| pl_leaf : forall c a p s, placed vals (TLeaf c a p) s 0 (TLeaf c a p) s
| pl_whole : forall a n e s, whole_value (sv (vals s)) = true ->
    placed vals (TArr a n e) s 0 (TArr a n e) s
| pl_struct : forall a l1 m l2 s o x sx,
    placed vals m (s + 1 + zsum (map tslots l1)) o x sx ->
    placed vals (TAgg false a (l1 ++ m :: l2)) s (abi_offset l1 m + o) x sx
| pl_union : forall a l1 m l2 s o x sx,
    (forall l m' r, l1 = l ++ m' :: r -> sdef (vals (s + 1 + zsum (map tslots l))) = false) ->
    sdef (vals (s + 1 + zsum (map tslots l1))) = true ->
    placed vals m (s + 1 + zsum (map tslots l1)) o x sx ->
    placed vals (TAgg true a (l1 ++ m :: l2)) s o x sx
| pl_elem : forall a n e k s o x sx, whole_value (sv (vals s)) = false -> 0 <= k < n ->
    placed vals e (s + 1 + k * tslots e) o x sx ->
    placed vals (TArr a n e) s (k * abi_size e + o) x sx.

(** Every value that is placed suits its type and fits. *)
Definition typed (vals : Z -> slotv) (T : tree) (s : Z) : Prop :=
  forall o x sx, placed vals T s o x sx ->
    exists cs, node_value x (sv (vals sx)) = Some cs /\ Z.of_nat (length cs) <= abi_size x.

Fixpoint bits64 (T : tree) : bool :=
  match T with
  | TLeaf CBits _ p => p <=? 64
  | TLeaf _ _ _ => true
  | TAgg _ _ ms => forallb bits64 ms
  | TArr _ _ e => bits64 e
  end.

(** Types that occur: alignments are powers of two, array elements have no alignment of
    their own, explicit alignments do not reduce the natural one. *)
Definition good (T : tree) : bool :=
  valid T && pow2_aligned T && arrays_natural T && not_underaligned T && bits64 T.

Definition get (l : list cell) (k : Z) : cell := nth (Z.to_nat k) l (Byte 0).
Definition zlen {A} (l : list A) : Z := Z.of_nat (length l).

(** ** A visitor lemma for callbacks that visit members one by one *)

Section VISIT2.
  Context {P : Type}.
  Variable cb : @callback P.
  Variable t : irtype.
  Variable F : nat -> tree -> P -> option P.
  Variable Ok : tree -> Prop.
  Hypothesis Ok_wf : forall T, Ok T -> wf T = true.
  Hypothesis Ok_kids : forall T k, Ok T -> In k (kids T) -> Ok k.

  Hypothesis Hcb : forall self i T p, Ok T -> at_pos t i [T] ->
    (forall l1 ks l2 p, kids T = l1 ++ ks ++ l2 ->
       self (i + 1 + fsize l1)%nat (length ks) p = fold_trees F (i + 1 + fsize l1)%nat ks p) ->
    cb self i (root T) p = F i T p.

  Lemma at_pos_app : forall b l1 l2, at_pos t b (l1 ++ l2) ->
    at_pos t b l1 /\ at_pos t (b + fsize l1)%nat l2.
  Proof.
    intros b l1 l2 (pre & post & E & L). rewrite flats_app in E. split.
    - exists pre, (flats l2 ++ post). split; [now rewrite <- app_assoc in E|exact L].
    - exists (pre ++ flats l1), post. split; [now rewrite <- !app_assoc in *|].
      rewrite app_length. unfold fsize. lia.
  Qed.

  Lemma visit_loop_ok2 : forall n ts b fuel p,
    (fsize ts <= n)%nat -> (forall T, In T ts -> Ok T) -> at_pos t b ts ->
    (length t < fuel + b)%nat -> visit_loop fuel cb t b (length ts) p = fold_trees F b ts p.
  Proof.
    induction n as [|n IH]; intros ts b fuel p Hn W A Hf.
    - destruct ts as [|T ts].
      + pose proof (at_pos_bound _ _ _ A). rewrite fsize_nil in *.
        destruct fuel; [lia|]. cbn [visit_loop length fold_trees]. destruct (b <? length t)%nat; reflexivity.
      + rewrite fsize_cons in Hn. pose proof (tsize_pos T). lia.
    - destruct ts as [|T ts].
      + pose proof (at_pos_bound _ _ _ A). rewrite fsize_nil in *.
        destruct fuel; [lia|]. cbn [visit_loop length fold_trees]. destruct (b <? length t)%nat; reflexivity.
      + pose proof (at_pos_bound _ _ _ A) as B.
        rewrite fsize_cons in Hn, B. rewrite (tsize_eq T) in Hn, B.
        destruct fuel as [|fuel]; [lia|].
        apply at_pos_cons in A as [A1 A2].
        assert (WT : Ok T) by (apply W; now left).
        cbn [visit_loop length fold_trees].
        replace (b <? length t)%nat with true by (symmetry; apply Nat.ltb_lt; lia).
        rewrite (at_pos_root _ _ _ A1). rewrite (root_not_empty _ (Ok_wf _ WT)).
        rewrite (Hcb _ b T p WT A1).
        * destruct (F b T p) as [p'|] eqn:EF; [|reflexivity].
          rewrite (node_len_ok _ _ _ (Ok_wf _ WT) A1). apply IH.
          -- lia.
          -- intros; apply W; now right.
          -- exact A2.
          -- rewrite (tsize_eq T). lia.
        * intros l1 ks l2 q Ek.
          assert (Fk : (fsize l1 + (fsize ks + fsize l2) = fsize (kids T))%nat).
          { rewrite Ek. unfold fsize. rewrite !flats_app, !app_length. lia. }
          replace (b + 1 + fsize l1 <=? length t)%nat with true by (symmetry; apply Nat.leb_le; lia).
          apply IH.
          -- lia.
          -- intros k Hk. eapply Ok_kids; eauto. rewrite Ek. apply in_or_app. right. apply in_or_app. now left.
          -- pose proof (at_pos_kids _ _ _ A1) as Ak. rewrite Ek in Ak.
             apply at_pos_app in Ak as [_ Ak]. now apply at_pos_app in Ak as [Ak _].
          -- lia.
  Qed.

  Lemma list_nodes_ok2 : forall ts b p,
    (forall T, In T ts -> Ok T) -> at_pos t b ts ->
    list_nodes cb t b (length ts) p = fold_trees F b ts p.
  Proof.
    intros ts b p W A. unfold list_nodes.
    pose proof (at_pos_bound _ _ _ A).
    replace (b <=? length t)%nat with true by (symmetry; apply Nat.leb_le; lia).
    eapply visit_loop_ok2; eauto. lia.
  Qed.
End VISIT2.

(** A tree is determined by its entries. *)
Lemma flatten_inj : forall T T' r r', wf T = true -> wf T' = true ->
  flatten T ++ r = flatten T' ++ r' -> T = T' /\ r = r'.
Proof.
  induction T as [T IH] using tree_ind2. intros T' r r' W W' E.
  rewrite !flatten_eq in E. cbn [app] in E. injection E as Er Ek.
  assert (G : forall ks ks' r r', (forall k, In k ks -> In k (kids T)) -> (forall k, In k ks' -> wf k = true) ->
    length ks = length ks' -> flats ks ++ r = flats ks' ++ r' -> ks = ks' /\ r = r').
  { induction ks as [|k ks IHk]; intros ks' q q' I1 W1 L E; (destruct ks' as [|k' ks']; try discriminate L).
    - split; [reflexivity|exact E].
    - rewrite !flats_cons, <- !app_assoc in E.
      destruct (IH k (I1 k (or_introl eq_refl)) k' (flats ks ++ q) (flats ks' ++ q')) as [-> E2]; auto.
      { eapply wf_kids; [exact W|]. apply I1. now left. }
      { apply W1. now left. }
      destruct (IHk ks' q q') as [-> ->]; auto.
      { intros; apply I1; now right. }
      { intros; apply W1; now right. } }
  destruct T as [c a p|un a ms|a n e], T' as [c' a' p'|un' a' ms'|a' n' e']; cbn [root kids] in *;
    try (destruct un; injection Er as E1 E2 E3; subst; discriminate);
    try (destruct un'; injection Er as E1 E2 E3; subst; discriminate);
    try (injection Er as E1 E2 E3; subst; discriminate).
  - injection Er as -> -> ->. split; [reflexivity|]. exact Ek.
  - injection Er as E1 -> E3. apply Nat2Z.inj in E3.
    destruct (G ms ms' r r') as [-> ->]; auto.
    { intros k Hk. eapply wf_kids; [exact W'|exact Hk]. }
    split; [|reflexivity]. destruct un, un'; try discriminate E1; reflexivity.
  - injection Er as -> ->. destruct (G [e] [e'] r r') as [E3 ->]; auto.
    { intros k Hk. eapply wf_kids; [exact W'|exact Hk]. }
    now injection E3 as ->.
Qed.

Lemma at_pos_place : forall ts i T, (forall T, In T ts -> wf T = true) -> wf T = true ->
  at_pos (flats ts) i [T] -> In (i, T) (places_list 0 ts).
Proof.
  intros ts i T W WT A. pose proof (at_pos_bound _ _ _ A) as B.
  assert (L : (i < fsize ts)%nat).
  { rewrite fsize_cons, fsize_nil in B. pose proof (tsize_pos T). unfold fsize. lia. }
  assert (I : In i (map fst (places_list 0 ts))).
  { rewrite (places_seq (fsize ts)) by apply le_n. apply in_seq. lia. }
  apply in_map_iff in I as ([j T'] & <- & I). cbn [fst] in *.
  assert (A' : at_pos (flats ts) j [T']) 
    by exact (places_at _ (fsize ts) ts 0%nat (le_n _) (at_pos_flats ts) j T' I).
  assert (W' : wf T' = true) by exact (places_wf (fsize ts) ts 0%nat (le_n _) W j T' I).
  destruct A as (pre & post & E & Lp), A' as (pre' & post' & E' & Lp').
  rewrite E in E'. assert (pre = pre').
  { apply (f_equal (firstn j)) in E'. rewrite !firstn_app, Lp, Lp', Nat.sub_diag in E'. cbn in E'.
    rewrite !app_nil_r in E'. rewrite !firstn_all2 in E' by lia. exact E'. }
  subst pre'. apply app_inv_head in E'. rewrite !flats_cons, <- !app_assoc in E'.
  destruct (flatten_inj T T' _ _ WT W' E') as [-> _]. exact I.
Qed.

(** ** Emission on trees *)

Definition lay_of (T : tree) : lay := mk (abi_size T) (abi_align T) true.

Section TREE.
  Variable vals : Z -> slotv.

  Definition skip_slots (n : Z) (p : est) : est :=
    {| e_slot := e_slot p + n; e_off := e_off p; e_iter := e_iter p; e_out := e_out p |}.

  Fixpoint emit_tree (T : tree) (p : est) : option est :=
    let L := lay_of T in
    match T with
    | TLeaf c _ param => leaf_data vals L c param p
    | TAgg false _ ms =>
      let q := align_offset (l_align L) (next_slot p) in
      match (fix gol ms q := match ms with
             | [] => Some q
             | m :: ms => match emit_tree m q with Some q => gol ms q | None => None end
             end) ms q with
      | Some r => trailing_padding (e_off q) (l_size L) r
      | None => None
      end
    | TAgg true _ ms =>
      let q := align_offset (l_align L) (next_slot p) in
      match (fix gou ms (d : bool) q := match ms with
             | [] => Some q
             | m :: ms =>
               if negb d && sdef (vals (e_slot q))
               then match emit_tree m q with Some q => gou ms true q | None => None end
               else gou ms d (skip_slots (tslots m) q)
             end) ms false q with
      | Some r => trailing_padding (e_off q) (l_size L) r
      | None => None
      end
    | TArr _ n e =>
      let q := align_offset (l_align L) (next_slot p) in
      match sv (vals (e_slot p)) with
      | VUndef | VAgg =>
        match array_loop (emit_tree e) (Z.to_nat n) (tslots e) (abi_size e) n (e_slot q + (tslots T - 1)) 0 q with
        | Some r => trailing_padding (e_off q) (l_size L) r
        | None => None
        end
      | VStr bs | VRaw bs => trailing_padding (e_off q) (l_size L) (skip_slots (tslots T - 1) (dump bs q))
      | _ => None
      end
    end.

  Fixpoint emit_list (ms : list tree) (q : est) : option est :=
    match ms with
    | [] => Some q
    | m :: ms => match emit_tree m q with Some q => emit_list ms q | None => None end
    end.
  Fixpoint emit_union (ms : list tree) (d : bool) (q : est) : option est :=
    match ms with
    | [] => Some q
    | m :: ms =>
      if negb d && sdef (vals (e_slot q))
      then match emit_tree m q with Some q => emit_union ms true q | None => None end
      else emit_union ms d (skip_slots (tslots m) q)
    end.

  Lemma emit_struct : forall a ms p, emit_tree (TAgg false a ms) p =
    let L := lay_of (TAgg false a ms) in
    let q := align_offset (l_align L) (next_slot p) in
    match emit_list ms q with
    | Some r => trailing_padding (e_off q) (l_size L) r
    | None => None
    end.
  Proof. reflexivity. Qed.
  Lemma emit_un : forall a ms p, emit_tree (TAgg true a ms) p =
    let L := lay_of (TAgg true a ms) in
    let q := align_offset (l_align L) (next_slot p) in
    match emit_union ms false q with
    | Some r => trailing_padding (e_off q) (l_size L) r
    | None => None
    end.
  Proof. reflexivity. Qed.

  Lemma fold_emit : forall ts b p, fold_trees (fun _ T => emit_tree T) b ts p = emit_list ts p.
  Proof.
    induction ts as [|T ts IH]; intros; cbn [fold_trees emit_list]; [reflexivity|].
    destruct (emit_tree T p); auto.
  Qed.

  Lemma leaf_data_lay : forall L L' c param p, l_size L = l_size L' -> l_align L = l_align L' ->
    leaf_data vals L c param p = leaf_data vals L' c param p.
  Proof. intros. unfold leaf_data, scalar. rewrite H, H0. reflexivity. Qed.

  Lemma array_loop_ext : forall f g, (forall q, f q = g q) -> forall fuel es esz n en i q,
    array_loop f fuel es esz n en i q = array_loop g fuel es esz n en i q.
  Proof.
    intros f g E. induction fuel as [|fuel IH]; intros; cbn [array_loop]; [reflexivity|].
    destruct (i <? n); [|reflexivity]. destruct (skip_to (e_iter q) (e_slot q)); [reflexivity|].
    cbn zeta. destruct (0 <? _); [apply IH|]. rewrite E. destruct (g _); [apply IH|reflexivity].
  Qed.

  Section CB.
    Variable ts : list tree.
    Hypothesis Wts : forall T, In T ts -> valid T = true.
    Variable lv : vec.
    Hypothesis Hlv : forall i T, In (i, T) (places_list 0 ts) ->
      l_size (lv i) = abi_size T /\ l_align (lv i) = abi_align T.

    Lemma valid_wf : forall T, valid T = true -> wf T = true.
    Proof. intros T V. apply lwf_wf. now apply valid_lwf. Qed.

    Lemma lay_at : forall i T, valid T = true -> at_pos (flats ts) i [T] ->
      l_size (lv i) = abi_size T /\ l_align (lv i) = abi_align T.
    Proof.
      intros i T V A. apply Hlv. apply at_pos_place; auto using valid_wf.
    Qed.

    Lemma data_cb_ok : forall self i T p, valid T = true -> at_pos (flats ts) i [T] ->
      (forall l1 ks l2 p, kids T = l1 ++ ks ++ l2 ->
         self (i + 1 + fsize l1)%nat (length ks) p =
         fold_trees (fun _ T => emit_tree T) (i + 1 + fsize l1)%nat ks p) ->
      data_cb (flats ts) lv vals self i (root T) p = emit_tree T p.
    Proof.
      intros self i T p V A H. pose proof (valid_wf T V) as W.
      destruct (lay_at i T V A) as [Ls La]. unfold data_cb.
      destruct T as [c a q|un a ms|a n e].
      - cbn [root tc tparam emit_tree].
        destruct c; try discriminate W; apply leaf_data_lay; auto.
      - destruct un.
        + rewrite emit_un. cbn [root tc kids] in *. cbn zeta. rewrite Ls, La. cbn [lay_of mk l_size l_align].
          set (q := align_offset _ _). clearbody q.
          replace (pcount _) with (length ms) by (unfold pcount; cbn; now rewrite Nat2Z.id).
          assert (U : forall l2 l1 d q, ms = l1 ++ l2 ->
            union_loop (flats ts) vals (fun sub => self sub 1%nat) (length l2) (i + 1 + fsize l1) d q =
            emit_union l2 d q).
          { induction l2 as [|m l2 IH]; intros l1 d q0 E; cbn [union_loop length emit_union]; [reflexivity|].
            assert (Am : at_pos (flats ts) (i + 1 + fsize l1) [m]).
            { pose proof (at_pos_kids _ _ _ A) as Ak. cbn [kids] in Ak. rewrite E in Ak.
              apply at_pos_app in Ak as [_ Ak]. now apply at_pos_cons in Ak as [Ak _]. }
            assert (Wm : wf m = true).
            { eapply wf_kids; [exact W|]. cbn [kids]. rewrite E. apply in_or_app. right. now left. }
            rewrite (node_len_ok m _ _ Wm Am), (node_slots_ok (flats ts) m _ Wm Am).
            assert (Es : (i + 1 + fsize l1 + tsize m = i + 1 + fsize (l1 ++ [m]))%nat).
            { unfold fsize, tsize. rewrite flats_app, flats_cons, !app_length. cbn. lia. }
            rewrite Es. assert (E' : ms = (l1 ++ [m]) ++ l2) by (now rewrite <- app_assoc).
            destruct (negb d && sdef (vals (e_slot q0))).
            - change 1%nat with (length [m]) at 1. rewrite (H l1 [m] l2) by exact E. cbn [fold_trees].
              destruct (emit_tree m q0); [|reflexivity]. apply IH. exact E'.
            - apply IH. exact E'. }
          specialize (U ms [] false q eq_refl). rewrite fsize_nil, Nat.add_0_r in U. rewrite U. reflexivity.
        + rewrite emit_struct. cbn [root tc kids] in *. cbn zeta. rewrite Ls, La. cbn [lay_of mk l_size l_align].
          replace (pcount _) with (length ms) by (unfold pcount; cbn; now rewrite Nat2Z.id).
          specialize (H [] ms []). rewrite fsize_nil, Nat.add_0_r in H.
          rewrite H by (now rewrite app_nil_r). rewrite fold_emit. reflexivity.
      - cbn [root tc tparam kids emit_tree] in *. cbn zeta. rewrite Ls, La. cbn [lay_of mk l_size l_align].
        assert (We : wf e = true) by (eapply wf_kids; [exact W|now left]).
        assert (Ve : valid e = true) by (eapply valid_kids; [exact V|now left]).
        pose proof (at_pos_kids _ _ _ A) as Ak. cbn [kids] in Ak.
        destruct (lay_at (i + 1)%nat e Ve Ak) as [Le _]. rewrite Le.
        rewrite (node_slots_ok (flats ts) e _ We Ak), (node_slots_ok (flats ts) _ _ W A).
        specialize (H [] [e] []). rewrite fsize_nil, Nat.add_0_r in H.
        rewrite (array_loop_ext _ (emit_tree e)); [reflexivity|].
        intros q. rewrite H by reflexivity. cbn [fold_trees]. destruct (emit_tree e q); reflexivity.
    Qed.

    Lemma emit_nodes : forall p,
      list_nodes (data_cb (flats ts) lv vals) (flats ts) 0 (nodes (flats ts)) p = emit_list ts p.
    Proof.
      intros p. rewrite nodes_ok by (intros; now apply valid_wf, Wts).
      rewrite (list_nodes_ok2 (data_cb (flats ts) lv vals) (flats ts) (fun _ T => emit_tree T)
        (fun T => valid T = true) valid_wf valid_kids data_cb_ok) by (auto using at_pos_flats).
      apply fold_emit.
    Qed.
  End CB.
End TREE.

(** ** The bytes of an object *)

Definition pad_to (n : Z) (l : list cell) : list cell := l ++ zeros (n - zlen l).

Lemma zlen_app : forall A (a b : list A), zlen (a ++ b) = zlen a + zlen b.
Proof. intros. unfold zlen. rewrite app_length. lia. Qed.
Lemma zlen_zeros : forall n, zlen (zeros n) = Z.max 0 n.
Proof. intros. unfold zlen, zeros. rewrite repeat_length. lia. Qed.
Lemma zlen_nonneg : forall A (a : list A), 0 <= zlen a.
Proof. intros. unfold zlen. lia. Qed.
Lemma zeros_app : forall a b, 0 <= a -> 0 <= b -> zeros a ++ zeros b = zeros (a + b).
Proof. intros a b Ha Hb. unfold zeros. rewrite Z2Nat.inj_add by lia. now rewrite repeat_app. Qed.
Lemma zeros_0 : forall a, a <= 0 -> zeros a = [].
Proof. intros a H. unfold zeros. now replace (Z.to_nat a) with 0%nat by lia. Qed.
Lemma pad_len : forall n l, zlen l <= n -> zlen (pad_to n l) = n.
Proof. intros n l H. unfold pad_to. rewrite zlen_app, zlen_zeros. lia. Qed.

Definition cells_of (x : tree) (v : dval) : list cell :=
  match node_value x v with Some l => l | None => [] end.

Section IMAGE.
  Variable vals : Z -> slotv.

  (** Offset of a member after [o] bytes. *)
  Definition at_off (o : Z) (m : tree) : Z := if is_bits m then o else roundup o (abi_align m).

  Fixpoint image (T : tree) (s : Z) {struct T} : list cell :=
    pad_to (abi_size T)
      match T with
      | TLeaf _ _ _ => cells_of T (sv (vals s))
      | TAgg false _ ms =>
        (fix go ms o s := match ms with
         | [] => []
         | m :: ms => zeros (at_off o m - o) ++ image m s ++ go ms (at_off o m + abi_size m) (s + tslots m)
         end) ms 0 (s + 1)
      | TAgg true _ ms =>
        (fix go ms s := match ms with
         | [] => []
         | m :: ms => if sdef (vals s) then image m s else go ms (s + tslots m)
         end) ms (s + 1)
      | TArr _ n e =>
        if whole_value (sv (vals s)) then cells_of T (sv (vals s))
        else (fix go (k : nat) s := match k with
              | O => []
              | S k => image e s ++ go k (s + tslots e)
              end) (Z.to_nat n) (s + 1)
      end.

  Fixpoint simage (ms : list tree) (o s : Z) : list cell :=
    match ms with
    | [] => []
    | m :: ms => zeros (at_off o m - o) ++ image m s ++ simage ms (at_off o m + abi_size m) (s + tslots m)
    end.
  Fixpoint uimage (ms : list tree) (s : Z) : list cell :=
    match ms with
    | [] => []
    | m :: ms => if sdef (vals s) then image m s else uimage ms (s + tslots m)
    end.
  Fixpoint aimage (e : tree) (k : nat) (s : Z) : list cell :=
    match k with
    | O => []
    | S k => image e s ++ aimage e k (s + tslots e)
    end.

  Lemma image_struct : forall a ms s, image (TAgg false a ms) s =
    pad_to (abi_size (TAgg false a ms)) (simage ms 0 (s + 1)).
  Proof. reflexivity. Qed.
  Lemma image_union : forall a ms s, image (TAgg true a ms) s =
    pad_to (abi_size (TAgg true a ms)) (uimage ms (s + 1)).
  Proof. reflexivity. Qed.
  Lemma image_arr : forall a n e s, image (TArr a n e) s =
    pad_to (abi_size (TArr a n e))
      (if whole_value (sv (vals s)) then cells_of (TArr a n e) (sv (vals s))
       else aimage e (Z.to_nat n) (s + 1)).
  Proof.
    intros. cbn [image]. f_equal. destruct (whole_value _); [reflexivity|].
    generalize (Z.to_nat n) (s + 1). intros k. induction k as [|k IH]; intros; [reflexivity|].
    cbn [aimage]. now rewrite <- IH.
  Qed.

  Lemma aimage_app : forall e j k s, aimage e (j + k) s = aimage e j s ++ aimage e k (s + Z.of_nat j * tslots e).
  Proof.
    induction j as [|j IH]; intros k s.
    - cbn [aimage Nat.add app]. f_equal. lia.
    - cbn [aimage Nat.add]. rewrite IH, <- app_assoc. do 3 f_equal. lia.
  Qed.

  (** *** Typing of the parts *)

  Lemma zsum_app : forall a b, zsum (a ++ b) = zsum a + zsum b.
  Proof. intros a b. unfold zsum. induction a; cbn [app fold_right]; lia. Qed.

  Lemma typed_struct : forall a l1 m l2 s, typed vals (TAgg false a (l1 ++ m :: l2)) s ->
    typed vals m (s + 1 + zsum (map tslots l1)).
  Proof. intros a l1 m l2 s H o x sx P. eapply H. econstructor. exact P. Qed.
  Lemma typed_union : forall a l1 m l2 s, typed vals (TAgg true a (l1 ++ m :: l2)) s ->
    (forall l m' r, l1 = l ++ m' :: r -> sdef (vals (s + 1 + zsum (map tslots l))) = false) ->
    sdef (vals (s + 1 + zsum (map tslots l1))) = true ->
    typed vals m (s + 1 + zsum (map tslots l1)).
  Proof. intros a l1 m l2 s H H1 H2 o x sx P. eapply H. eapply pl_union; eauto. Qed.
  Lemma typed_elem : forall a n e s k, typed vals (TArr a n e) s -> whole_value (sv (vals s)) = false ->
    0 <= k < n -> typed vals e (s + 1 + k * tslots e).
  Proof. intros a n e s k H H1 H2 o x sx P. eapply H. eapply pl_elem; eauto. Qed.

  (** *** Sizes *)

  Lemma at_off_ge : forall o m, valid m = true -> o <= at_off o m.
  Proof.
    intros o m V. unfold at_off. destruct (is_bits m); [lia|].
    destruct (member_ok m V) as (_ & _ & _ & _ & A). pose proof (roundup_ge o (abi_align m) A). lia.
  Qed.

  Definition ends (l : list tree) (o : Z) : Z := fold_left place_end (map member l) o.
  Lemma ends_cons : forall m l o, ends (m :: l) o = ends l (at_off o m + abi_size m).
  Proof. reflexivity. Qed.
  Lemma ends_ge : forall l o, (forall m, In m l -> valid m = true) -> o <= ends l o.
  Proof.
    induction l as [|m l IH]; intros o V; [unfold ends; cbn; lia|]. rewrite ends_cons.
    pose proof (V m (or_introl eq_refl)) as Vm. pose proof (at_off_ge o m Vm).
    destruct (member_ok m Vm) as (_ & _ & _ & Z0 & _).
    specialize (IH (at_off o m + abi_size m) (fun y h => V y (or_intror h))). lia.
  Qed.

  Lemma agg_align_pos : forall un a ms, valid (TAgg un a ms) = true -> 1 <= snd (abi (TAgg un a ms)).
  Proof. intros un a ms V. destruct (own_abi _ V) as (_ & _ & _ & H). exact H. Qed.

  Lemma struct_size : forall a ms, valid (TAgg false a ms) = true ->
    ends ms 0 <= abi_size (TAgg false a ms).
  Proof.
    intros a ms V. pose proof (agg_align_pos _ _ _ V) as A. unfold abi_size. cbn [abi fst snd] in *.
    match goal with |- _ <= roundup ?x ?y => pose proof (roundup_ge x y A) as R end.
    unfold ends, member. unfold abi_size, abi_align. lia.
  Qed.

  Lemma image_len : forall T s, valid T = true -> typed vals T s -> zlen (image T s) = abi_size T.
  Proof.
    induction T as [T IH] using tree_ind2. intros s V Ty.
    destruct T as [c a p|un a ms|a n e].
    - apply pad_len. destruct (Ty _ _ _ (pl_leaf vals c a p s)) as (cs & E & L).
      unfold cells_of. rewrite E. exact L.
    - destruct un.
      + rewrite image_union. apply pad_len.
        assert (G : forall l1 l2, ms = l1 ++ l2 ->
          (forall l m' r, l1 = l ++ m' :: r -> sdef (vals (s + 1 + zsum (map tslots l))) = false) ->
          zlen (uimage l2 (s + 1 + zsum (map tslots l1))) <= abi_size (TAgg true a ms)).
        { intros l1 l2. revert l1. induction l2 as [|m l2 IHl]; intros l1 E F; cbn [uimage].
          - destruct (own_abi _ V) as (_ & _ & Z0 & _). exact Z0.
          - subst ms. destruct (sdef _) eqn:D.
            + rewrite (IH m).
              * apply (c33_union_covers_its_members a l1 m l2 V).
              * apply in_or_app. right. now left.
              * eapply valid_kids; [exact V|]. apply in_or_app. right. now left.
              * eapply typed_union; eauto.
            + replace (s + 1 + zsum (map tslots l1) + tslots m)
                with (s + 1 + zsum (map tslots (l1 ++ [m])))
                by (rewrite map_app, zsum_app; cbn [map zsum fold_right]; lia).
              apply IHl; [now rewrite <- app_assoc|].
              intros l m' r El. destruct r as [|z r _] using rev_ind.
              * apply app_inj_tail in El as [-> _]. exact D.
              * rewrite app_comm_cons, app_assoc in El. apply app_inj_tail in El as [-> _].
                eapply F. reflexivity. }
        specialize (G [] ms eq_refl). cbn [map zsum fold_right] in G. rewrite Z.add_0_r in G. apply G.
        intros l m' r El. destruct l; discriminate El.
      + rewrite image_struct. apply pad_len.
        assert (G : forall l2 l1 o, ms = l1 ++ l2 ->
          zlen (simage l2 o (s + 1 + zsum (map tslots l1))) = ends l2 o - o).
        { induction l2 as [|m l2 IHl]; intros l1 o E; cbn [simage].
          - unfold ends; cbn. lia.
          - assert (Vm : valid m = true)
              by (eapply valid_kids; [exact V|]; cbn [kids]; rewrite E; apply in_or_app; right; now left).
            rewrite !zlen_app, zlen_zeros, ends_cons. pose proof (at_off_ge o m Vm).
            rewrite (IH m).
            + replace (s + 1 + zsum (map tslots l1) + tslots m)
                with (s + 1 + zsum (map tslots (l1 ++ [m])))
                by (rewrite map_app, zsum_app; cbn [map zsum fold_right]; lia).
              rewrite IHl by (now rewrite <- app_assoc). lia.
            + cbn [kids]. rewrite E. apply in_or_app. right. now left.
            + exact Vm.
            + subst ms. eapply typed_struct; eauto. }
        specialize (G ms [] 0 eq_refl). cbn [map zsum fold_right] in G. rewrite Z.add_0_r in G. rewrite G.
        pose proof (struct_size a ms V). lia.
    - rewrite image_arr. apply pad_len. destruct (whole_value _) eqn:Wv.
      + destruct (Ty _ _ _ (pl_whole vals a n e s Wv)) as (cs & E & L).
        unfold cells_of. rewrite E. exact L.
      + assert (Ve : valid e = true) by (eapply valid_kids; [exact V|now left]).
        assert (Hn : 0 <= n).
        { pose proof (lwf_wf _ (valid_lwf _ V)) as W. cbn [wf] in W. apply andb_true_iff in W as [W _]. lia. }
        assert (G : forall k j, Z.of_nat k + j <= n -> 0 <= j ->
          zlen (aimage e k (s + 1 + j * tslots e)) = Z.of_nat k * abi_size e).
        { induction k as [|k IHk]; intros j Hk Hj; cbn [aimage]; [unfold zlen; cbn; lia|].
          rewrite zlen_app, (IH e).
          - replace (s + 1 + j * tslots e + tslots e) with (s + 1 + (j + 1) * tslots e) by lia.
            rewrite IHk by lia. lia.
          - now left.
          - exact Ve.
          - eapply typed_elem; eauto. lia. }
        specialize (G (Z.to_nat n) 0 ltac:(lia) ltac:(lia)). rewrite Z.mul_0_l, Z.add_0_r in G. rewrite G.
        rewrite Z2Nat.id by lia. unfold abi_size. cbn [abi fst]. lia.
  Qed.

  (** *** Parts without any value are zero *)

  Lemma pad_zeros : forall n k, 0 <= k <= n -> pad_to n (zeros k) = zeros n.
  Proof.
    intros n k H. unfold pad_to. rewrite zlen_zeros. rewrite zeros_app by lia. f_equal. lia.
  Qed.

  Lemma image_zero : forall T s, valid T = true ->
    (forall x, s <= x < s + tslots T -> vals x = undef) -> image T s = zeros (abi_size T).
  Proof.
    induction T as [T IH] using tree_ind2. intros s V H.
    pose proof (lwf_wf _ (valid_lwf _ V)) as W. pose proof (tslots_pos T W) as Pt.
    destruct (own_abi _ V) as (_ & _ & Z0 & _).
    assert (Hs : vals s = undef) by (apply H; lia).
    destruct T as [c a p|un a ms|a n e].
    - cbn [image]. rewrite Hs. replace (cells_of (TLeaf c a p) (sv undef)) with (zeros 0).
      { apply pad_zeros. lia. }
      unfold cells_of. cbn. destruct c; reflexivity.
    - assert (Vm : forall m, In m ms -> valid m = true) by (intros; eapply valid_kids; eauto).
      cbn [tslots] in H, Pt. destruct un.
      + rewrite image_union.
        assert (G : forall l s1, (forall x, In x l -> In x ms) -> s + 1 <= s1 -> s1 + zsum (map tslots l) <= s + 1 + zsum (map tslots ms) ->
          uimage l s1 = []).
        { induction l as [|m l IHl]; intros s1 Hi H1 H2; cbn [uimage]; [reflexivity|].
          cbn [map zsum fold_right] in H2.
          pose proof (tslots_pos m (lwf_wf _ (valid_lwf _ (Vm m (Hi m (or_introl eq_refl)))))).
          assert (0 <= zsum (map tslots l)).
          { assert (Wl : forall x, In x l -> wf x = true)
              by (intros; apply lwf_wf, valid_lwf, Vm, Hi; now right).
            clear -Wl. induction l as [|y l IHl]; [cbn; lia|]. cbn [map zsum fold_right].
            pose proof (tslots_pos y (Wl y (or_introl eq_refl))).
            assert (0 <= zsum (map tslots l)) by (apply IHl; intros; apply Wl; now right).
            unfold zsum in *. lia. }
          unfold zsum in *. rewrite H by lia. cbn [undef sdef]. apply IHl; [intros; apply Hi; now right|lia|lia]. }
        rewrite G by (auto; lia). change ([]:list cell) with (zeros 0). apply pad_zeros. lia.
      + rewrite image_struct.
        assert (G : forall l s1 o, (forall x, In x l -> In x ms) -> 0 <= o -> s + 1 <= s1 ->
          s1 + zsum (map tslots l) <= s + 1 + zsum (map tslots ms) ->
          simage l o s1 = zeros (ends l o - o)).
        { induction l as [|m l IHl]; intros s1 o Hi Ho H1 H2; cbn [simage].
          - unfold ends. cbn. now rewrite zeros_0 by lia.
          - cbn [map zsum fold_right] in H2. assert (Im : In m ms) by (apply Hi; now left).
            pose proof (tslots_pos m (lwf_wf _ (valid_lwf _ (Vm m Im)))).
            assert (0 <= zsum (map tslots l)).
            { assert (Wl : forall x, In x l -> wf x = true)
                by (intros; apply lwf_wf, valid_lwf, Vm, Hi; now right).
              clear -Wl. induction l as [|y l IHl]; [cbn; lia|]. cbn [map zsum fold_right].
              pose proof (tslots_pos y (Wl y (or_introl eq_refl))).
              assert (0 <= zsum (map tslots l)) by (apply IHl; intros; apply Wl; now right).
              unfold zsum in *. lia. }
            pose proof (at_off_ge o m (Vm m Im)) as Ge.
            destruct (member_ok m (Vm m Im)) as (_ & _ & _ & Zm & _).
            unfold zsum in *. rewrite (IH m Im) by (auto; intros; apply H; lia).
            rewrite IHl by (auto; try lia; intros; apply Hi; now right).
            pose proof (ends_ge l (at_off o m + abi_size m) (fun y h => Vm y (Hi y (or_intror h)))).
            rewrite ends_cons. rewrite zeros_app by lia. rewrite zeros_app by lia. f_equal. lia. }
        rewrite G by (auto; lia). rewrite Z.sub_0_r. apply pad_zeros.
        split; [apply ends_ge; auto|]. now apply struct_size.
    - rewrite image_arr, Hs. cbn [undef sv whole_value].
      assert (Ve : valid e = true) by (eapply valid_kids; [exact V|now left]).
      pose proof (tslots_pos e (lwf_wf _ (valid_lwf _ Ve))) as Pe.
      destruct (own_abi _ Ve) as (_ & _ & Ze & _).
      assert (Hn : 0 <= n) by (cbn [wf] in W; apply andb_true_iff in W as [W _]; lia).
      cbn [tslots] in H.
      assert (G : forall k s1, s + 1 <= s1 -> s1 + Z.of_nat k * tslots e <= s + 1 + n * tslots e ->
        aimage e k s1 = zeros (Z.of_nat k * abi_size e)).
      { induction k as [|k IHk]; intros s1 H1 H2; cbn [aimage]; [reflexivity|].
        rewrite (IH e (or_introl eq_refl) s1 Ve) by (intros; apply H; nia).
        rewrite IHk by nia. rewrite zeros_app by nia. f_equal. lia. }
      rewrite G by nia. rewrite Z2Nat.id by lia. apply pad_zeros. unfold abi_size in *. cbn [abi fst]. nia.
  Qed.
End IMAGE.

(** ** Directives and bytes *)

Lemma number_little : forall n v, number n v = little n v.
Proof.
  intros. unfold number, little. apply map_ext. intros k. f_equal.
  unfold u. rewrite Z.shiftr_div_pow2 by lia. rewrite Z.pow_mul_r by lia. reflexivity.
Qed.

Lemma little_zero : forall n, little n 0 = zeros (Z.of_nat n).
Proof.
  intros n. unfold little, zeros. rewrite Nat2Z.id.
  generalize 0%nat. induction n as [|n IH]; intros k; cbn [seq map repeat]; [reflexivity|].
  rewrite IH. now rewrite Z.div_0_l by (apply Z.pow_nonzero; lia).
Qed.

Lemma little_len : forall n v, zlen (little n v) = Z.of_nat n.
Proof. intros. unfold zlen, little. now rewrite map_length, seq_length. Qed.

Lemma little_app : forall j k v, little (j + k) v = little j v ++ little k (v / 256 ^ Z.of_nat j).
Proof.
  intros j k v. unfold little. rewrite seq_app, map_app. f_equal.
  cbn [Nat.add]. revert j.
  assert (G : forall j k i, map (fun k0 => Byte ((v / 256 ^ Z.of_nat k0) mod 256)) (seq (j + i) k) =
    map (fun k0 => Byte ((v / 256 ^ Z.of_nat j / 256 ^ Z.of_nat k0) mod 256)) (seq i k)).
  { intros j. clear. induction k as [|k IH]; intros i; cbn [seq map]; [reflexivity|]. f_equal.
    - rewrite Z.div_div by (try apply Z.pow_nonzero; lia). rewrite Nat2Z.inj_add, Z.pow_add_r by lia. reflexivity.
    - rewrite <- IH. now rewrite Nat.add_succ_r. }
  intros j. specialize (G j k 0%nat). rewrite Nat.add_0_r in G. exact G.
Qed.

Lemma good_split : forall T, good T = true ->
  valid T = true /\ pow2_aligned T = true /\ arrays_natural T = true /\ not_underaligned T = true /\ bits64 T = true.
Proof.
  intros T G. unfold good in G. apply andb_true_iff in G as [G B]. apply andb_true_iff in G as [G U].
  apply andb_true_iff in G as [G A]. apply andb_true_iff in G as [V P]. tauto.
Qed.

Lemma good_kids : forall T k, good T = true -> In k (kids T) -> good k = true.
Proof.
  intros T k G I. destruct (good_split T G) as (V & P & A & U & B). unfold good.
  rewrite (valid_kids T k V I).
  destruct T as [c a p|un a ms|a n e]; cbn [kids pow2_aligned arrays_natural not_underaligned bits64] in *.
  - destruct I.
  - apply andb_true_iff in P as [_ P]. apply andb_true_iff in U as [_ U].
    rewrite forallb_forall in P, A, U, B. rewrite (P k I), (A k I), (U k I), (B k I). reflexivity.
  - destruct I as [<-|[]]. apply andb_true_iff in P as [_ P]. apply andb_true_iff in U as [_ U].
    apply andb_true_iff in A as [_ A]. rewrite P, A, U, B. reflexivity.
Qed.

(** The alignment of a part divides that of the whole. *)
Lemma kid_align : forall T k, good T = true -> In k (kids T) -> (abi_align k | abi_align T).
Proof.
  intros T k G I. pose proof (good_kids T k G I) as Gk.
  destruct (good_split T G) as (V & P & A & U & B), (good_split k Gk) as (Vk & Pk & _ & _ & _).
  apply pow2_div.
  - apply pow2_eff; [exact Pk|]. now apply pow2_nat.
  - apply pow2_eff; [exact P|]. now apply pow2_nat.
  - eapply Z.le_trans; [|apply (eff_ge T U)].
    destruct T as [c a p|un a ms|a n e]; cbn [kids] in I.
    + destruct I.
    + apply in_split in I as (l1 & l2 & ->). destruct un.
      * apply (c33_union_covers_its_members a l1 k l2 V).
      * now destruct (c33_structure_members_ordered_aligned_inside a l1 k l2 V) as (_ & _ & _ & _ & _ & S6).
    + destruct I as [<-|[]]. cbn [abi snd]. apply Z.le_refl.
Qed.

(** ** Emission produces the image *)

Section MAIN.
  Variable ids : list Z.
  Variable vals : Z -> slotv.
  Variable lim : Z.
  Hypothesis absent : forall x, 0 <= x < lim -> ~ In (x / CAP) ids -> vals x = undef.
  Hypothesis sorted : StronglySorted Z.lt ids.

  Definition it_ok (p : est) : Prop :=
    exists pre, ids = pre ++ e_iter p /\ Forall (fun b => (b + 1) * CAP <= e_slot p) pre.

  Definition base (T : tree) (o : Z) : Z := at_off o T.

  (** What emission of [T] at slot [s] does to the state. *)
  Record done (T : tree) (s : Z) (p p' : est) : Prop := {
    dn_slot : e_slot p' = s + tslots T;
    dn_off : e_off p' = base T (e_off p) + abi_size T;
    dn_out : e_out p' = e_out p ++ zeros (base T (e_off p) - e_off p) ++ image vals T s;
    dn_it : it_ok p' }.

  Lemma align_ok : forall al p, 1 <= al ->
    align_offset al p = {| e_slot := e_slot p; e_off := roundup (e_off p) al; e_iter := e_iter p;
                           e_out := e_out p ++ zeros (roundup (e_off p) al - e_off p) |}.
  Proof.
    intros al p H. unfold align_offset. rewrite pad_roundup by exact H.
    pose proof (roundup_ge (e_off p) al H). destruct (Z.ltb_spec (e_off p) (roundup (e_off p) al)).
    - reflexivity.
    - assert (E : roundup (e_off p) al = e_off p) by lia. rewrite E, Z.sub_diag, zeros_0, app_nil_r by lia.
      now destruct p.
  Qed.

  Lemma trailing_ok : forall start size p, e_off p <= start + size ->
    trailing_padding start size p =
    Some {| e_slot := e_slot p; e_off := start + size; e_iter := e_iter p;
            e_out := e_out p ++ zeros (start + size - e_off p) |}.
  Proof.
    intros start size p H. unfold trailing_padding. destruct (Z.ltb_spec (e_off p) (start + size)); [reflexivity|].
    assert (E : e_off p = start + size) by lia. rewrite E, Z.eqb_refl, Z.sub_diag, zeros_0, app_nil_r by lia.
    rewrite <- E. now destruct p.
  Qed.

  Lemma it_more : forall p slot off out, it_ok p -> e_slot p <= slot ->
    it_ok {| e_slot := slot; e_off := off; e_iter := e_iter p; e_out := out |}.
  Proof.
    intros p slot off out (pre & E & F) H. exists pre. cbn. split; [exact E|].
    eapply Forall_impl; [|exact F]. cbn. intros. lia.
  Qed.

  Lemma roundup_same : forall x a, 1 <= a -> (a | x) -> roundup x a = x.
  Proof.
    intros x a H (k & ->). unfold roundup. replace (k * a + a - 1) with (k * a + (a - 1)) by lia.
    rewrite Z.div_add_l by lia. rewrite (Z.div_small (a - 1)) by lia. lia.
  Qed.
  Lemma roundup_shift : forall x b a, 1 <= a -> (a | b) -> roundup (b + x) a = b + roundup x a.
  Proof.
    intros x b a H (k & ->). unfold roundup.
    replace (k * a + x + a - 1) with (k * a + (x + a - 1)) by lia.
    rewrite Z.div_add_l by lia. lia.
  Qed.

  (** *** Leaves *)
  Lemma leaf_ok : forall c a param p s, good (TLeaf c a param) = true -> typed vals (TLeaf c a param) s ->
    e_slot p = s -> it_ok p ->
    exists p', leaf_data vals (lay_of (TLeaf c a param)) c param p = Some p' /\ done (TLeaf c a param) s p p'.
  Proof.
    intros c a param p s G Ty Es It.
    destruct (good_split _ G) as (V & _ & _ & _ & B64).
    destruct (member_ok _ V) as (W & _ & _ & Z0 & Al).
    destruct (Ty _ _ _ (pl_leaf vals c a param s)) as (cs & Ev & Lc).
    set (T := TLeaf c a param) in *.
    assert (Im : image vals T s = pad_to (abi_size T) cs) 
      by (change (image vals T s) with (pad_to (abi_size T) (cells_of T (sv (vals s)))); unfold cells_of; now rewrite Ev).
    (* common form of the result *)
    assert (Fin : forall q out, is_bits T = false ->
      q = {| e_slot := s + 1; e_off := roundup (e_off p) (abi_align T) + abi_size T; e_iter := e_iter p;
             e_out := (e_out p ++ zeros (roundup (e_off p) (abi_align T) - e_off p)) ++ out |} ->
      out = pad_to (abi_size T) cs -> done T s p q).
    { intros q out Bt -> ->. constructor; cbn [e_slot e_off e_out e_iter].
      - reflexivity.
      - unfold base, at_off. now rewrite Bt.
      - unfold base, at_off. rewrite Bt, Im. now rewrite <- app_assoc.
      - apply it_more; [exact It|lia]. }
    assert (Sc : forall cells, is_bits T = false -> cells = Some (pad_to (abi_size T) cs) ->
      exists p', scalar cells false (lay_of T) p = Some p' /\ done T s p p').
    { intros cells Bt ->. unfold scalar. eexists. split; [reflexivity|]. eapply Fin; [exact Bt| |reflexivity].
      rewrite align_ok by exact Al. unfold put, next_slot. cbn [e_slot e_off e_out e_iter lay_of mk l_size l_align].
      now rewrite Es. }
    assert (Und : forall n, cs = [] -> abi_size T = Z.of_nat n -> number n 0 = pad_to (abi_size T) cs).
    { intros n -> E. rewrite number_little, little_zero, <- E. unfold pad_to. cbn [app].
      f_equal. unfold zlen. cbn. lia. }
    assert (Full : forall l, cs = l -> abi_size T = zlen l -> l = pad_to (abi_size T) cs).
    { intros l -> E. unfold pad_to. rewrite E, Z.sub_diag, zeros_0 by lia. now rewrite app_nil_r. }
    assert (ZZ : zeros (abi_size T) = pad_to (abi_size T) []).
    { unfold pad_to. cbn [app]. unfold zlen. cbn [length]. now rewrite Z.sub_0_r. }
    destruct (is_bits T) eqn:Bt.
    - (* bit-fields *)
      assert (c = CBits) by (unfold T in Bt; cbn in Bt; destruct c; congruence). subst c.
      unfold leaf_data. rewrite Es. unfold integral_cells.
      assert (P64 : (64 <? param) = false) by (cbn in B64; lia). rewrite P64.
      assert (P0 : 0 <= param).
      { cbn [valid] in V. apply andb_true_iff in V as [_ V]. lia. }
      assert (Sz : param / 8 + (if param mod 8 =? 0 then 0 else 1) = abi_size T).
      { destruct (leaf_facts CBits a param _ _ eq_refl P0) as (E & _). unfold T, abi_size. cbn [abi].
        rewrite E. reflexivity. }
      rewrite Sz.
      assert (Rs : exists v, (v = match sv (vals s) with VInt z => z | _ => 0 end) /\
        number (Z.to_nat (abi_size T)) v = pad_to (abi_size T) cs /\
        match sv (vals s) with VUndef | VInt _ => true | _ => false end = true).
      { eexists. split; [reflexivity|]. destruct (sv (vals s)) eqn:Sv; cbn in Ev; try discriminate Ev;
          injection Ev as <-.
        - split; [|reflexivity]. apply Und; [reflexivity|]. lia.
        - split; [|reflexivity]. rewrite number_little. apply Full; [reflexivity|]. rewrite little_len. lia. }
      destruct Rs as (v & Ev2 & En & Ok).
      assert (R : exists p', scalar (Some (pad_to (abi_size T) cs)) true (lay_of T) p = Some p' /\ done T s p p').
      { eexists. split; [reflexivity|]. constructor; unfold put, next_slot; cbn [e_slot e_off e_out e_iter lay_of mk l_size].
        - now rewrite Es.
        - unfold base, at_off. now rewrite Bt.
        - unfold base, at_off. rewrite Bt, Z.sub_diag, zeros_0 by lia. cbn [app]. now rewrite Im.
        - apply it_more; [exact It|lia]. }
      destruct (sv (vals s)); try discriminate Ok; rewrite <- Ev2, En; exact R.
    - assert (Tl : forall bs, exists p',
        trailing_padding (roundup (e_off p) (abi_align T)) (abi_size T)
          {| e_slot := s + 1; e_off := roundup (e_off p) (abi_align T) + zlen bs; e_iter := e_iter p;
             e_out := (e_out p ++ zeros (roundup (e_off p) (abi_align T) - e_off p)) ++ map (fun b => Byte (u 8 b)) bs |} =
          Some p' /\ done T s p p' \/ cs <> map (fun b => Byte (u 8 b)) bs).
      { intros bs. destruct (list_eq_dec (fun x y : cell => ltac:(repeat decide equality)) cs (map (fun b => Byte (u 8 b)) bs)) as [E|N].
        2:{ exists p. now right. }
        assert (Lb : zlen bs <= abi_size T).
        { unfold zlen. rewrite E, map_length in Lc. exact Lc. }
        eexists. left. rewrite trailing_ok by (cbn [e_off]; lia). split; [reflexivity|].
        eapply Fin; [reflexivity|cbn [e_slot e_off e_iter e_out]; rewrite <- !app_assoc; reflexivity|].
        rewrite E. unfold pad_to. f_equal. f_equal. unfold zlen. rewrite map_length. lia. }
      assert (Mod : forall bs, map (fun b => Byte (u 8 b)) bs = map (fun b => Byte (b mod 256)) bs).
      { intros bs. apply map_ext. intros b. reflexivity. }
      unfold leaf_data. rewrite Es.
      assert (PB : forall P, node_value T P = Some [] -> node_value T (sv (vals s)) = Some cs ->
                (forall v, node_value T v = Some []) ->
        exists p', Some (put (zeros (l_size (lay_of T))) (l_size (lay_of T)) (align_offset (l_align (lay_of T)) (next_slot p))) = Some p' /\
          done T s p p').
      { intros P _ E2 All. rewrite All in E2. injection E2 as E2. eexists. split; [reflexivity|].
        rewrite align_ok by exact Al. unfold put, next_slot; cbn [e_slot e_off e_out e_iter lay_of mk l_size l_align].
        eapply Fin; [reflexivity|rewrite Es; reflexivity|]. rewrite <- E2. exact ZZ. }
      pose proof Ev as Ev0. unfold T in Ev; cbn in Ev.
      destruct c; try discriminate W; try discriminate Bt;
        try (apply Sc; [reflexivity|]; unfold integral_cells, word_cells, f32_cells, f64_cells, ld_cells;
          destruct (sv (vals s)) eqn:Sv; try discriminate Ev; injection Ev as Ev; f_equal;
          first
          [ apply (Und 1%nat); [now symmetry|reflexivity]
          | apply (Und 2%nat); [now symmetry|reflexivity]
          | apply (Und 4%nat); [now symmetry|reflexivity]
          | apply (Und 8%nat); [now symmetry|reflexivity]
          | rewrite number_little; apply Full; [now symmetry|]; rewrite little_len; reflexivity
          | apply Full; [now symmetry|reflexivity]
          | change (number 8 0 ++ number 8 0) with (number 16 0); apply (Und 16%nat); [now symmetry|reflexivity]
          | apply Full; [|reflexivity]; rewrite <- Ev, !number_little;
            rewrite Z.shiftr_div_pow2 by lia; exact (little_app 8 8 bits) ]).
      + apply (PB VUndef); try reflexivity. exact Ev0.
      + (* memory *)
        rewrite align_ok by exact Al. unfold next_slot. cbn [e_slot e_off e_out e_iter lay_of mk l_size l_align].
        rewrite Es. destruct (sv (vals s)) eqn:Sv; try discriminate Ev; injection Ev as Ev.
        * destruct (Tl []) as (p' & [[E D]|N]).
          -- exists p'. split; [|exact D]. rewrite <- E. unfold zlen. cbn [length map].
             rewrite app_nil_r. change (Z.of_nat 0) with 0. rewrite Z.add_0_r. reflexivity.
          -- exfalso. apply N. now rewrite <- Ev.
        * destruct (Tl bytes) as (p' & [R|N]); [exists p'; exact R|]. exfalso. apply N. now rewrite Mod, Ev.
        * destruct (Tl bytes) as (p' & [R|N]); [exists p'; exact R|]. exfalso. apply N. now rewrite Mod, Ev.
      + assert (Bp : (param =? 0) = true).
        { pose proof (valid_lwf _ V) as L. unfold lwf, T in L. apply andb_true_iff in L as [_ L]. cbn in L.
          destruct (param =? 0); [reflexivity|discriminate L]. }
        rewrite Bp. apply (PB VUndef); try reflexivity. exact Ev0.
  Qed.
  (** *** Members and elements *)

  Definition emits (T : tree) : Prop := forall p s, typed vals T s -> e_slot p = s ->
    0 <= s -> s + tslots T <= lim -> it_ok p ->
    exists p', emit_tree vals T p = Some p' /\ done T s p p'.

  Lemma at_off_shift : forall B o m, valid m = true -> (abi_align m | B) -> at_off (B + o) m = B + at_off o m.
  Proof.
    intros B o m V D. unfold at_off. destruct (is_bits m); [reflexivity|].
    destruct (member_ok m V) as (_ & _ & _ & _ & A). now apply roundup_shift.
  Qed.
  Lemma at_off_same : forall B m, valid m = true -> (abi_align m | B) -> at_off B m = B.
  Proof.
    intros B m V D. unfold at_off. destruct (is_bits m); [reflexivity|].
    destruct (member_ok m V) as (_ & _ & _ & _ & A). now apply roundup_same.
  Qed.

  Lemma zsum_pos : forall l, (forall m, In m l -> valid m = true) -> 0 <= zsum (map tslots l).
  Proof.
    induction l as [|y l IHl]; intros V; cbn [map zsum fold_right]; [cbn; lia|].
    pose proof (tslots_pos y (lwf_wf _ (valid_lwf _ (V y (or_introl eq_refl))))).
    assert (0 <= zsum (map tslots l)) by (apply IHl; intros; apply V; now right). unfold zsum in *. lia.
  Qed.

  Lemma members_emit : forall B l s1 q o,
    (forall m, In m l -> emits m) -> (forall m, In m l -> valid m = true) ->
    (forall m, In m l -> (abi_align m | B)) ->
    (forall l1 m l2, l = l1 ++ m :: l2 -> typed vals m (s1 + zsum (map tslots l1))) ->
    e_slot q = s1 -> e_off q = B + o -> 0 <= s1 -> s1 + zsum (map tslots l) <= lim -> it_ok q ->
    exists q', emit_list vals l q = Some q' /\ e_slot q' = s1 + zsum (map tslots l) /\
      e_off q' = B + ends l o /\ e_out q' = e_out q ++ simage vals l o s1 /\ it_ok q'.
  Proof.
    intros B. induction l as [|m l IH]; intros s1 q o HE HV HD HT Hs Ho H0 Hl It.
    - exists q. cbn [emit_list simage map zsum fold_right]. unfold ends. cbn [map fold_left].
      rewrite app_nil_r. repeat split; try lia; try reflexivity. exact It.
    - pose proof (HV m (or_introl eq_refl)) as Vm.
      assert (HV' : forall m', In m' l -> valid m' = true) by (intros; apply HV; now right).
      pose proof (zsum_pos l HV') as Zp.
      pose proof (tslots_pos m (lwf_wf _ (valid_lwf _ Vm))) as Tp.
      assert (Cons : zsum (map tslots (m :: l)) = tslots m + zsum (map tslots l)) by reflexivity.
      rewrite Cons in *.
      destruct (HE m (or_introl eq_refl) q s1) as (q1 & E1 & D1); auto.
      { specialize (HT [] m l eq_refl). cbn [map zsum fold_right] in HT. now rewrite Z.add_0_r in HT. }
      { lia. }
      destruct D1 as [Ds Do Du Di]. unfold base in *. rewrite Ho in Do, Du.
      rewrite (at_off_shift B o m Vm (HD m (or_introl eq_refl))) in Do, Du.
      destruct (IH (s1 + tslots m) q1 (at_off o m + abi_size m)) as (q2 & E2 & S2 & O2 & U2 & I2); auto.
      { intros; apply HE; now right. }
      { intros; apply HD; now right. }
      { intros l1 m' l2 El. specialize (HT (m :: l1) m' l2). cbn [app] in HT.
        replace (s1 + tslots m + zsum (map tslots l1)) with (s1 + zsum (map tslots (m :: l1)))
          by (cbn [map]; unfold zsum; cbn [fold_right]; lia).
        apply HT. now rewrite El. }
      { lia. } { lia. } { lia. }
      exists q2. cbn [emit_list]. rewrite E1. split; [exact E2|]. split; [lia|].
      rewrite ends_cons. split; [exact O2|]. split; [|exact I2].
      rewrite U2, Du. cbn [simage]. rewrite <- !app_assoc. do 2 f_equal. f_equal. lia.
  Qed.

  Lemma union_skip : forall l q, emit_union vals l true q = Some (skip_slots (zsum (map tslots l)) q).
  Proof.
    induction l as [|m l IH]; intros q; cbn [emit_union negb andb map].
    - unfold skip_slots. cbn [zsum fold_right]. rewrite Z.add_0_r. now destruct q.
    - rewrite IH. unfold skip_slots, zsum. cbn [e_slot e_off e_iter e_out fold_right]. do 2 f_equal. lia.
  Qed.

  Lemma union_emit : forall B l s1 q,
    (forall m, In m l -> emits m) -> (forall m, In m l -> valid m = true) ->
    (forall m, In m l -> (abi_align m | B)) ->
    (forall l1 m l2, l = l1 ++ m :: l2 ->
       (forall l m' r, l1 = l ++ m' :: r -> sdef (vals (s1 + zsum (map tslots l))) = false) ->
       sdef (vals (s1 + zsum (map tslots l1))) = true -> typed vals m (s1 + zsum (map tslots l1))) ->
    e_slot q = s1 -> e_off q = B -> 0 <= s1 -> s1 + zsum (map tslots l) <= lim -> it_ok q ->
    exists q', emit_union vals l false q = Some q' /\ e_slot q' = s1 + zsum (map tslots l) /\
      e_off q' = B + zlen (uimage vals l s1) /\ e_out q' = e_out q ++ uimage vals l s1 /\ it_ok q'.
  Proof.
    intros B. induction l as [|m l IH]; intros s1 q HE HV HD HT Hs Ho H0 Hl It.
    - exists q. cbn [emit_union uimage map zsum fold_right]. rewrite app_nil_r. unfold zlen. cbn [length].
      repeat split; try lia; try reflexivity. exact It.
    - pose proof (HV m (or_introl eq_refl)) as Vm.
      assert (HV' : forall m', In m' l -> valid m' = true) by (intros; apply HV; now right).
      pose proof (zsum_pos l HV') as Zp.
      pose proof (tslots_pos m (lwf_wf _ (valid_lwf _ Vm))) as Tp.
      assert (Cons : zsum (map tslots (m :: l)) = tslots m + zsum (map tslots l)) by reflexivity.
      rewrite Cons in *. cbn [emit_union uimage negb andb]. rewrite Hs.
      destruct (sdef (vals s1)) eqn:D.
      + assert (Tm : typed vals m s1).
        { specialize (HT [] m l eq_refl). cbn [map zsum fold_right] in HT. rewrite Z.add_0_r in HT.
          apply HT; [|exact D]. intros l0 m' r El. destruct l0; discriminate El. }
        destruct (HE m (or_introl eq_refl) q s1 Tm Hs H0 ltac:(lia) It) as (q1 & E1 & D1).
        destruct D1 as [Ds Do Du Di]. unfold base in *. rewrite Ho in Do, Du.
        rewrite (at_off_same B m Vm (HD m (or_introl eq_refl))) in Do, Du.
        rewrite Z.sub_diag, zeros_0 in Du by lia. cbn [app] in Du.
        rewrite E1, union_skip. eexists. split; [reflexivity|]. unfold skip_slots. cbn [e_slot e_off e_out].
        split; [lia|]. split; [rewrite (image_len vals m s1 Vm Tm); exact Do|]. split; [exact Du|].
        apply it_more; [exact Di|lia].
      + destruct (IH (s1 + tslots m) (skip_slots (tslots m) q)) as (q2 & E2 & S2 & O2 & U2 & I2); auto.
        { intros; apply HE; now right. }
        { intros; apply HD; now right. }
        { intros l1 m' l2 El F X.
          replace (s1 + tslots m + zsum (map tslots l1)) with (s1 + zsum (map tslots (m :: l1))) in *
            by (cbn [map]; unfold zsum; cbn [fold_right]; lia).
          apply (HT (m :: l1) m' l2); [now rewrite El| |exact X].
          intros l0 m2 r E0. destruct l0 as [|y l0]; cbn [app] in E0.
          - cbn [map zsum fold_right]. now rewrite Z.add_0_r.
          - injection E0 as -> E0. specialize (F l0 m2 r E0).
            replace (s1 + zsum (map tslots (y :: l0))) with (s1 + tslots y + zsum (map tslots l0))
              by (cbn [map]; unfold zsum; cbn [fold_right]; lia). exact F. }
        { cbn [skip_slots e_slot]. lia. } { lia. } { lia. }
        { apply it_more; [exact It|lia]. }
        exists q2. split; [exact E2|]. split; [lia|]. split; [exact O2|]. split; [exact U2|exact I2].
  Qed.

  Lemma aimage_zero : forall e k s1, valid e = true ->
    (forall x, s1 <= x < s1 + Z.of_nat k * tslots e -> vals x = undef) ->
    aimage vals e k s1 = zeros (Z.of_nat k * abi_size e).
  Proof.
    intros e k. induction k as [|k IHk]; intros s1 Ve H; cbn [aimage]; [reflexivity|].
    pose proof (tslots_pos e (lwf_wf _ (valid_lwf _ Ve))). destruct (own_abi _ Ve) as (_ & _ & Ze & _).
    rewrite image_zero; [|exact Ve|intros; apply H; nia].
    rewrite IHk; [|exact Ve|intros; apply H; nia].
    change (fst (abi e)) with (abi_size e) in Ze.
    rewrite zeros_app by (try apply Z.mul_nonneg_nonneg; lia). f_equal. lia.
  Qed.

  Lemma array_emit : forall B e n s1 end_, emits e -> valid e = true ->
    (forall k, (abi_align e | B + k * abi_size e)) ->
    (forall k, 0 <= k < n -> typed vals e (s1 + k * tslots e)) ->
    end_ = s1 + n * tslots e -> 0 <= s1 -> end_ <= lim ->
    forall fuel i q, n - i <= Z.of_nat fuel -> 0 <= i <= n ->
    e_slot q = s1 + i * tslots e -> e_off q = B + i * abi_size e -> it_ok q ->
    exists q' X, array_loop (emit_tree vals e) fuel (tslots e) (abi_size e) n end_ i q = Some q' /\
      e_slot q' = end_ /\ e_off q' = e_off q + zlen X /\ e_out q' = e_out q ++ X /\
      zlen X <= (n - i) * abi_size e /\
      X ++ zeros ((n - i) * abi_size e - zlen X) = aimage vals e (Z.to_nat (n - i)) (s1 + i * tslots e) /\
      it_ok q'.
  Proof.
    intros B e n s1 end_ HE Ve HD HT Hend H0 Hlim.
    pose proof (tslots_pos e (lwf_wf _ (valid_lwf _ Ve))) as Tp.
    destruct (own_abi _ Ve) as (_ & _ & Ze & _). change (fst (abi e)) with (abi_size e) in Ze.
    assert (Nil : forall l : Z, l = 0 -> zeros l = []) by (intros; apply zeros_0; lia).
    induction fuel as [|fuel IH]; intros i q Hf Hi Hs Ho It; cbn [array_loop].
    - destruct (Z.ltb_spec i n); [lia|]. assert (i = n) by lia. subst i.
      exists q, []. rewrite Z.sub_diag, app_nil_r. cbn [app]. unfold zlen. cbn [length Z.to_nat aimage].
      repeat split; try lia; try reflexivity. exact It.
    - destruct (Z.ltb_spec i n) as [L|L].
      2:{ assert (i = n) by lia. subst i.
          exists q, []. rewrite Z.sub_diag, app_nil_r. cbn [app]. unfold zlen. cbn [length Z.to_nat aimage].
          repeat split; try lia; try reflexivity. exact It. }
      destruct It as (pre & E & F).
      destruct (skip_spec (e_iter q) (e_slot q)) as (pre2 & E2 & F2 & G2).
      assert (E' : ids = (pre ++ pre2) ++ skip_to (e_iter q) (e_slot q))
        by (rewrite E, E2 at 1; now rewrite <- app_assoc).
      assert (F' : Forall (fun b => (b + 1) * CAP <= e_slot q) (pre ++ pre2)) by (apply Forall_app; now split).
      clear E E2 F F2. cbn zeta. cbn [e_slot e_off e_iter e_out].
      set (q0 := {| e_slot := e_slot q; e_off := e_off q; e_iter := skip_to (e_iter q) (e_slot q); e_out := e_out q |}).
      assert (It0 : it_ok q0) by (exists (pre ++ pre2); split; [exact E'|exact F']).
      destruct (skip_to (e_iter q) (e_slot q)) as [|b r] eqn:Sk.
      + exists {| e_slot := end_; e_off := e_off q; e_iter := []; e_out := e_out q |}, [].
        split; [reflexivity|]. cbn [e_slot e_off e_iter e_out]. rewrite app_nil_r.
        split; [reflexivity|]. unfold zlen. cbn [length app]. split; [lia|]. split; [reflexivity|].
        split; [nia|]. split.
        * rewrite aimage_zero; [|exact Ve|].
          { f_equal. rewrite Z2Nat.id by lia. lia. }
          intros x Hx. rewrite Z2Nat.id in Hx by lia. apply absent; [nia|].
          rewrite E', app_nil_r. intros I. rewrite Forall_forall in F'. specialize (F' _ I). cbn in F'.
          pose proof (Z.mul_div_le x CAP ltac:(unfold CAP; lia)).
          pose proof (Z.mul_succ_div_gt x CAP ltac:(unfold CAP; lia)). lia.
        * exists (pre ++ pre2). cbn [e_iter e_slot]. split; [exact E'|].
          eapply Forall_impl; [|exact F']. cbn. intros a Ha. nia.
      + set (missing := if e_slot q <? b * CAP then (Z.min (b * CAP) end_ - e_slot q) / tslots e else 0).
        destruct (Z.ltb_spec 0 missing) as [Lm|Lm].
        * assert (M : missing * tslots e <= Z.min (b * CAP) end_ - e_slot q).
          { unfold missing in *. destruct (e_slot q <? b * CAP); [|lia].
            pose proof (Z.mul_div_le (Z.min (b * CAP) end_ - e_slot q) (tslots e) ltac:(lia)). lia. }
          assert (Mn : missing <= n - i) by nia.
          assert (Z1 : aimage vals e (Z.to_nat missing) (s1 + i * tslots e) = zeros (missing * abi_size e)).
          { rewrite aimage_zero; [now rewrite Z2Nat.id by lia|exact Ve|].
            intros x Hx. rewrite Z2Nat.id in Hx by lia. apply absent; [nia|].
            pose proof (Z.mul_div_le x CAP ltac:(unfold CAP; lia)).
            pose proof (Z.mul_succ_div_gt x CAP ltac:(unfold CAP; lia)).
            rewrite E'. intros I. apply in_app_or in I as [I|I].
            - rewrite Forall_forall in F'. specialize (F' _ I). cbn in F'. lia.
            - assert (Lb : b <= x / CAP).
              { destruct I as [<-|I]; [lia|].
                assert (Sr : StronglySorted Z.lt (b :: r)).
                { clear -E' sorted. rewrite E' in sorted. revert sorted. generalize (pre ++ pre2). intros l.
                  induction l as [|y l IHl]; intros Ss; [exact Ss|]. inversion Ss; subst. now apply IHl. }
                inversion Sr as [|? ? _ Fr]; subst. rewrite Forall_forall in Fr. specialize (Fr _ I). lia. }
              assert (b * CAP <= x / CAP * CAP) by (apply Z.mul_le_mono_nonneg_r; [unfold CAP; lia|exact Lb]). lia. }
          destruct (IH (i + missing) {| e_slot := e_slot q + missing * tslots e; e_off := e_off q + missing * abi_size e;
            e_iter := b :: r; e_out := e_out q ++ zeros (missing * abi_size e) |}) as (q' & X & E3 & S3 & O3 & U3 & L3 & A3 & I3).
          { lia. } { lia. } { cbn [e_slot]. lia. } { cbn [e_off]. lia. }
          { exists (pre ++ pre2). cbn [e_iter e_slot]. split; [exact E'|].
            eapply Forall_impl; [|exact F']. cbn. intros a Ha. nia. }
          cbn [e_off e_out] in O3, U3.
          assert (Zl : zlen (zeros (missing * abi_size e) ++ X) = missing * abi_size e + zlen X).
          { rewrite zlen_app, zlen_zeros. nia. }
          exists q', (zeros (missing * abi_size e) ++ X). split; [exact E3|]. split; [exact S3|].
          split; [rewrite Zl; lia|]. split; [now rewrite U3, app_assoc|]. split; [rewrite Zl; lia|].
          split; [|exact I3]. rewrite Zl, <- app_assoc.
          replace (Z.to_nat (n - i)) with (Z.to_nat missing + Z.to_nat (n - (i + missing)))%nat by lia.
          rewrite aimage_app, Z1. f_equal. rewrite Z2Nat.id by lia.
          replace (s1 + i * tslots e + missing * tslots e) with (s1 + (i + missing) * tslots e) by lia.
          rewrite <- A3. do 2 f_equal. lia.
        * destruct (HE q0 (s1 + i * tslots e)) as (q1 & E1 & D1).
          { apply HT. lia. } { exact Hs. } { nia. } { nia. } { exact It0. }
          destruct D1 as [Ds Do Du Di]. unfold base in *. cbn [e_off e_out q0] in Do, Du.
          rewrite Ho in Do, Du. rewrite (at_off_same _ e Ve (HD i)) in Do, Du.
          rewrite Z.sub_diag, zeros_0 in Du by lia. cbn [app] in Du.
          rewrite E1.
          destruct (IH (i + 1) q1) as (q' & X & E3 & S3 & O3 & U3 & L3 & A3 & I3); try lia; auto.
          assert (Zl : zlen (image vals e (s1 + i * tslots e)) = abi_size e) by (apply image_len; [exact Ve|apply HT; lia]).
          exists q', (image vals e (s1 + i * tslots e) ++ X). split; [exact E3|]. split; [exact S3|].
          rewrite zlen_app, Zl. split; [lia|]. split; [now rewrite U3, Du, app_assoc|]. split; [lia|].
          split; [|exact I3]. rewrite <- app_assoc.
          replace (Z.to_nat (n - i)) with (1 + Z.to_nat (n - (i + 1)))%nat by lia.
          cbn [Nat.add aimage]. f_equal.
          replace (s1 + i * tslots e + tslots e) with (s1 + (i + 1) * tslots e) by lia.
          rewrite <- A3. do 2 f_equal. lia.
  Qed.

  Lemma emit_ok : forall T, good T = true -> emits T.
  Proof.
    induction T as [T IH] using tree_ind2. intros G p s Ty Es H0 Hl It.
    destruct (good_split _ G) as (V & P2 & An & _ & _).
    destruct (member_ok _ V) as (W & _ & _ & Z0 & Al).
    pose proof (tslots_pos T (lwf_wf _ (valid_lwf _ V))) as Tp.
    assert (Kd : forall k, In k (kids T) -> emits k) by (intros k I; apply IH; [exact I|eapply good_kids; eauto]).
    assert (Kv : forall k, In k (kids T) -> valid k = true) by (intros; eapply valid_kids; eauto).
    destruct T as [c a param|un a ms|a n e].
    - apply leaf_ok; auto.
    - set (T := TAgg un a ms) in *. set (B := roundup (e_off p) (abi_align T)).
      assert (DB : forall m, In m ms -> (abi_align m | B)).
      { intros m I. eapply Z.divide_trans; [apply (kid_align T m G I)|]. apply roundup_mult. }
      assert (Ba : base T (e_off p) = B) by reflexivity.
      set (q := {| e_slot := s + 1; e_off := B; e_iter := e_iter p; e_out := e_out p ++ zeros (B - e_off p) |}).
      assert (Eq : align_offset (abi_align T) (next_slot p) = q).
      { rewrite align_ok by exact Al. unfold q, next_slot. cbn [e_slot e_off e_iter e_out]. now rewrite Es. }
      assert (Iq : it_ok q) by (apply it_more; [exact It|lia]).
      assert (Ts : tslots T = 1 + zsum (map tslots ms)) by reflexivity.
      assert (Fin : forall r X, e_slot r = s + 1 + zsum (map tslots ms) -> e_off r = B + zlen X ->
        e_out r = e_out q ++ X -> it_ok r -> zlen X <= abi_size T -> image vals T s = pad_to (abi_size T) X ->
        exists p', trailing_padding (e_off q) (abi_size T) r = Some p' /\ done T s p p').
      { intros r X R1 R2 R3 R4 R5 R6. change (e_off q) with B. rewrite trailing_ok by lia.
        eexists. split; [reflexivity|]. constructor; cbn [e_slot e_off e_out e_iter].
        - lia.
        - now rewrite Ba.
        - rewrite Ba, R6, R3. unfold pad_to, q. cbn [e_out]. rewrite <- !app_assoc. do 4 f_equal. lia.
        - apply it_more; [exact R4|lia]. }
      destruct un.
      + unfold T. rewrite emit_un. fold T. cbn zeta. cbn [lay_of mk l_size l_align]. rewrite Eq.
        destruct (union_emit B ms (s + 1) q) as (r & E1 & S1 & O1 & U1 & I1); auto; try lia.
        { intros l1 m l2 El X Y. unfold T in Ty. rewrite El in Ty. eapply typed_union; eauto. }
        rewrite E1. apply (Fin r (uimage vals ms (s + 1)) S1 O1 U1 I1); [|apply image_union].
        pose proof (image_len vals T s V Ty) as Li. unfold T in Li at 1. rewrite image_union in Li. fold T in Li.
        unfold pad_to in Li. rewrite zlen_app, zlen_zeros in Li. lia.
      + unfold T. rewrite emit_struct. fold T. cbn zeta. cbn [lay_of mk l_size l_align]. rewrite Eq.
        destruct (members_emit B ms (s + 1) q 0) as (r & E1 & S1 & O1 & U1 & I1); auto; try lia.
        { intros l1 m l2 El. unfold T in Ty. rewrite El in Ty. eapply typed_struct; eauto. }
        { cbn [e_off q]. lia. }
        rewrite E1.
        assert (Li : zlen (simage vals ms 0 (s + 1)) = ends ms 0).
        { assert (X : forall l2 l1 o, ms = l1 ++ l2 ->
            zlen (simage vals l2 o (s + 1 + zsum (map tslots l1))) = ends l2 o - o).
          { induction l2 as [|m l2 IHl]; intros l1 o El; cbn [simage].
            - unfold ends; cbn. lia.
            - assert (Vm : valid m = true) by (apply Kv; unfold T; cbn [kids]; rewrite El; apply in_or_app; right; now left).
              rewrite !zlen_app, zlen_zeros, ends_cons. pose proof (at_off_ge o m Vm).
              rewrite (image_len vals m); [|exact Vm|unfold T in Ty; rewrite El in Ty; eapply typed_struct; eauto].
              replace (s + 1 + zsum (map tslots l1) + tslots m)
                with (s + 1 + zsum (map tslots (l1 ++ [m])))
                by (rewrite map_app, zsum_app; cbn [map zsum fold_right]; lia).
              rewrite IHl by (now rewrite <- app_assoc). lia. }
          specialize (X ms [] 0 eq_refl). cbn [map zsum fold_right] in X. rewrite Z.add_0_r in X. lia. }
        apply (Fin r (simage vals ms 0 (s + 1)) S1); [lia|exact U1|exact I1| |].
        * rewrite Li. now apply struct_size.
        * apply image_struct.
    - set (T := TArr a n e) in *. set (B := roundup (e_off p) (abi_align T)).
      assert (Ve : valid e = true) by (apply Kv; now left).
      assert (Hn : 0 <= n).
      { pose proof (lwf_wf _ (valid_lwf _ V)) as Wt. unfold T in Wt. cbn [wf] in Wt. apply andb_true_iff in Wt as [Wt _]. lia. }
      assert (Ba : base T (e_off p) = B) by reflexivity.
      set (q := {| e_slot := s + 1; e_off := B; e_iter := e_iter p; e_out := e_out p ++ zeros (B - e_off p) |}).
      assert (Eq : align_offset (abi_align T) (next_slot p) = q).
      { rewrite align_ok by exact Al. unfold q, next_slot. cbn [e_slot e_off e_iter e_out]. now rewrite Es. }
      assert (Iq : it_ok q) by (apply it_more; [exact It|lia]).
      assert (Ts : tslots T = 1 + n * tslots e) by reflexivity.
      assert (Fin : forall r X, e_slot r = s + 1 + n * tslots e -> e_off r = B + zlen X ->
        e_out r = e_out q ++ X -> it_ok r -> zlen X <= abi_size T -> image vals T s = pad_to (abi_size T) X ->
        exists p', trailing_padding (e_off q) (abi_size T) r = Some p' /\ done T s p p').
      { intros r X R1 R2 R3 R4 R5 R6. change (e_off q) with B. rewrite trailing_ok by lia.
        eexists. split; [reflexivity|]. constructor; cbn [e_slot e_off e_out e_iter].
        - lia.
        - now rewrite Ba.
        - rewrite Ba, R6, R3. unfold pad_to, q. cbn [e_out]. rewrite <- !app_assoc. do 4 f_equal. lia.
        - apply it_more; [exact R4|lia]. }
      pose proof (image_arr vals a n e s) as Im. fold T in Im.
      change (emit_tree vals T p) with
        (let L := lay_of T in
         let q := align_offset (l_align L) (next_slot p) in
         match sv (vals (e_slot p)) with
         | VUndef | VAgg =>
           match array_loop (emit_tree vals e) (Z.to_nat n) (tslots e) (abi_size e) n (e_slot q + (tslots T - 1)) 0 q with
           | Some r => trailing_padding (e_off q) (l_size L) r
           | None => None
           end
         | VStr bs | VRaw bs => trailing_padding (e_off q) (l_size L) (skip_slots (tslots T - 1) (dump bs q))
         | _ => None
         end).
      cbn zeta. cbn [lay_of mk l_size l_align]. rewrite Eq, Es.
      assert (Arr : whole_value (sv (vals s)) = false ->
        exists p', match array_loop (emit_tree vals e) (Z.to_nat n) (tslots e) (abi_size e) n (e_slot q + (tslots T - 1)) 0 q with
           | Some r => trailing_padding (e_off q) (abi_size T) r
           | None => None
           end = Some p' /\ done T s p p').
      { intros Wv. rewrite Wv in Im.
        destruct (array_emit B e n (s + 1) (e_slot q + (tslots T - 1))) with (fuel := Z.to_nat n) (i := 0) (q := q)
          as (r & X & E1 & S1 & O1 & U1 & L1 & A1 & I1).
        - apply Kd. now left.
        - exact Ve.
        - intros k. assert (DB : (abi_align e | B)).
          { eapply Z.divide_trans; [apply (kid_align T e G); now left|]. apply roundup_mult. }
          unfold T in An. cbn [arrays_natural] in An. apply andb_true_iff in An as [An _].
          destruct (c33_array_elements_contiguous_and_aligned a n e V An) as (_ & _ & D3).
          now apply Z.divide_add_r.
        - intros k Hk. eapply typed_elem; eauto.
        - cbn [e_slot q]. lia.
        - lia.
        - cbn [e_slot q]. lia.
        - lia.
        - lia.
        - cbn [e_slot q]. lia.
        - cbn [e_off q]. lia.
        - exact Iq.
        - assert (Sz : abi_size T = n * abi_size e) by reflexivity.
          rewrite Z.sub_0_r in L1, A1. rewrite Z.mul_0_l, Z.add_0_r in A1.
          rewrite E1. eapply Fin.
          + rewrite S1. cbn [e_slot q]. lia.
          + exact O1.
          + exact U1.
          + exact I1.
          + now rewrite Sz.
          + rewrite Im, <- A1. unfold pad_to. rewrite zlen_app, zlen_zeros, Sz.
            assert (Zx : zeros (n * abi_size e - (zlen X + Z.max 0 (n * abi_size e - zlen X))) = [])
              by (apply zeros_0; lia).
            rewrite Zx. apply app_nil_r. }
      assert (Who : forall bs, sv (vals s) = VStr bs \/ sv (vals s) = VRaw bs -> exists p',
        trailing_padding (e_off q) (abi_size T) (skip_slots (tslots T - 1) (dump bs q)) = Some p' /\ done T s p p').
      { intros bs Hv. assert (Wv : whole_value (sv (vals s)) = true) by (destruct Hv as [-> | ->]; reflexivity).
        destruct (Ty _ _ _ (pl_whole vals a n e s Wv)) as (cs & Ec & Lc).
        assert (Cc : cells_of T (sv (vals s)) = map (fun b => Byte (u 8 b)) bs).
        { unfold cells_of, T. cbn [node_value]. destruct Hv as [-> | ->]; reflexivity. }
        fold T in Ec, Lc. unfold cells_of in Cc. rewrite Ec in Cc. subst cs.
        apply (Fin _ (map (fun b => Byte (u 8 b)) bs)).
        - cbn [skip_slots dump put e_slot q]. lia.
        - cbn [skip_slots dump put e_off q]. unfold zlen. rewrite map_length. reflexivity.
        - reflexivity.
        - unfold skip_slots, dump, put. cbn [e_slot e_off e_iter e_out].
          apply (it_more q); [exact Iq|]. lia.
        - exact Lc.
        - rewrite Im, Wv. unfold cells_of. now rewrite Ec. }
      destruct (sv (vals s)) eqn:Sv; auto;
        exfalso; assert (Wv : whole_value (sv (vals s)) = true) by (rewrite Sv; reflexivity);
        destruct (Ty _ _ _ (pl_whole vals a n e s Wv)) as (cs & Ec & _); rewrite Sv in Ec; discriminate Ec.
  Qed.
End MAIN.

(** ** What the image contains *)

Lemma get_app_l : forall a b k, 0 <= k < zlen a -> get (a ++ b) k = get a k.
Proof. intros a b k H. unfold get, zlen in *. apply app_nth1. lia. Qed.
Lemma get_app_r : forall a b k, zlen a <= k -> get (a ++ b) k = get b (k - zlen a).
Proof.
  intros a b k H. unfold get, zlen in *. rewrite app_nth2 by lia. f_equal. lia.
Qed.
Lemma get_zeros : forall n k, get (zeros n) k = Byte 0.
Proof.
  intros n k. unfold get, zeros. generalize (Z.to_nat n) (Z.to_nat k). intros a b. revert b.
  induction a; intros [|b]; cbn; auto.
Qed.
Lemma get_past : forall l k, zlen l <= k -> get l k = Byte 0.
Proof. intros l k H. unfold get, zlen in *. apply nth_overflow. lia. Qed.
Lemma get_pad : forall n l k, 0 <= k -> get (pad_to n l) k = get l k.
Proof.
  intros n l k H. unfold pad_to. destruct (Z.lt_ge_cases k (zlen l)).
  - now apply get_app_l.
  - rewrite get_app_r by lia. now rewrite get_zeros, get_past by lia.
Qed.

Section CONTENT.
  Variable vals : Z -> slotv.

  Definition sizes (T : tree) : Prop := forall s, typed vals T s -> zlen (image vals T s) = abi_size T.

  Lemma simage_in : forall l1 m l2 o s1 k,
    (forall x, In x (l1 ++ m :: l2) -> valid x = true) ->
    (forall la x lb, l1 ++ m :: l2 = la ++ x :: lb -> typed vals x (s1 + zsum (map tslots la))) ->
    0 <= k < abi_size m ->
    get (simage vals (l1 ++ m :: l2) o s1) (at_off (ends l1 o) m - o + k) =
    get (image vals m (s1 + zsum (map tslots l1))) k.
  Proof.
    induction l1 as [|y l1 IH]; intros m l2 o s1 k V Ty Hk; cbn [app simage].
    - assert (Vm : valid m = true) by (apply V; now left).
      pose proof (at_off_ge o m Vm) as G. unfold ends. cbn [map fold_left].
      specialize (Ty [] m l2 eq_refl). cbn [map zsum fold_right] in *. rewrite Z.add_0_r in *.
      pose proof (image_len vals m s1 Vm Ty) as L.
      rewrite get_app_r by (rewrite zlen_zeros; lia). rewrite zlen_zeros.
      replace (at_off o m - o + k - Z.max 0 (at_off o m - o)) with k by lia.
      apply get_app_l. lia.
    - assert (Vy : valid y = true) by (apply V; now left).
      pose proof (at_off_ge o y Vy) as G. rewrite ends_cons.
      pose proof (Ty [] y (l1 ++ m :: l2) eq_refl) as T1. cbn [map zsum fold_right] in T1. rewrite Z.add_0_r in T1.
      pose proof (image_len vals y s1 Vy T1) as L.
      destruct (member_ok y Vy) as (_ & _ & _ & Z0 & _).
      assert (Vm : valid m = true) by (apply V; right; apply in_or_app; right; now left).
      assert (G2 : at_off o y + abi_size y <= ends l1 (at_off o y + abi_size y))
        by (apply ends_ge; intros; apply V; right; apply in_or_app; now left).
      pose proof (at_off_ge (ends l1 (at_off o y + abi_size y)) m Vm) as G3.
      rewrite get_app_r by (rewrite zlen_zeros; lia). rewrite zlen_zeros.
      rewrite get_app_r by lia. rewrite L.
      replace (at_off (ends l1 (at_off o y + abi_size y)) m - o + k - Z.max 0 (at_off o y - o) - abi_size y)
        with (at_off (ends l1 (at_off o y + abi_size y)) m - (at_off o y + abi_size y) + k) by lia.
      rewrite IH.
      + f_equal. f_equal. cbn [map]. unfold zsum. cbn [fold_right]. lia.
      + intros x I. apply V. now right.
      + intros la x lb E. specialize (Ty (y :: la) x lb).
        replace (s1 + tslots y + zsum (map tslots la)) with (s1 + zsum (map tslots (y :: la)))
          by (cbn [map]; unfold zsum; cbn [fold_right]; lia).
        apply Ty. cbn [app]. now rewrite E.
      + exact Hk.
  Qed.

  Lemma simage_cases : forall l o s1 k,
    (forall x, In x l -> valid x = true) ->
    (forall la x lb, l = la ++ x :: lb -> typed vals x (s1 + zsum (map tslots la))) ->
    0 <= k ->
    get (simage vals l o s1) k = Byte 0 \/
    exists l1 m l2 j, l = l1 ++ m :: l2 /\ 0 <= j < abi_size m /\ k = at_off (ends l1 o) m - o + j.
  Proof.
    induction l as [|y l IH]; intros o s1 k V Ty Hk; cbn [simage].
    - left. now apply get_past.
    - assert (Vy : valid y = true) by (apply V; now left).
      pose proof (at_off_ge o y Vy) as G.
      pose proof (Ty [] y l eq_refl) as T1. cbn [map zsum fold_right] in T1. rewrite Z.add_0_r in T1.
      pose proof (image_len vals y s1 Vy T1) as L.
      destruct (Z.lt_ge_cases k (at_off o y - o)) as [Lt|Ge].
      { left. rewrite get_app_l by (rewrite zlen_zeros; lia). apply get_zeros. }
      rewrite get_app_r by (rewrite zlen_zeros; lia). rewrite zlen_zeros.
      destruct (Z.lt_ge_cases k (at_off o y - o + abi_size y)) as [Lt2|Ge2].
      { right. exists [], y, l, (k - (at_off o y - o)). split; [reflexivity|].
        split; [lia|]. unfold ends. cbn [map fold_left]. lia. }
      rewrite get_app_r by lia. rewrite L.
      destruct (IH (at_off o y + abi_size y) (s1 + tslots y)
        (k - Z.max 0 (at_off o y - o) - abi_size y)) as [E|(l1 & m & l2 & j & -> & Hj & E)].
      + intros x I. apply V. now right.
      + intros la x lb E. specialize (Ty (y :: la) x lb).
        replace (s1 + tslots y + zsum (map tslots la)) with (s1 + zsum (map tslots (y :: la)))
          by (cbn [map]; unfold zsum; cbn [fold_right]; lia).
        apply Ty. cbn [app]. now rewrite E.
      + lia.
      + left. exact E.
      + right. exists (y :: l1), m, l2, j. split; [reflexivity|]. split; [exact Hj|]. rewrite ends_cons. lia.
  Qed.

  Lemma uimage_pick : forall l1 m l2 s1,
    (forall l m' r, l1 = l ++ m' :: r -> sdef (vals (s1 + zsum (map tslots l))) = false) ->
    sdef (vals (s1 + zsum (map tslots l1))) = true ->
    uimage vals (l1 ++ m :: l2) s1 = image vals m (s1 + zsum (map tslots l1)).
  Proof.
    induction l1 as [|y l1 IH]; intros m l2 s1 F D; cbn [app uimage].
    - cbn [map zsum fold_right] in *. rewrite Z.add_0_r in *. now rewrite D.
    - pose proof (F [] y l1 eq_refl) as F0. cbn [map zsum fold_right] in F0. rewrite Z.add_0_r in F0. rewrite F0.
      replace (s1 + zsum (map tslots (y :: l1))) with (s1 + tslots y + zsum (map tslots l1)) in *
        by (cbn [map]; unfold zsum; cbn [fold_right]; lia).
      apply IH; [|exact D]. intros l m' r E.
      replace (s1 + tslots y + zsum (map tslots l)) with (s1 + zsum (map tslots (y :: l)))
        by (cbn [map]; unfold zsum; cbn [fold_right]; lia).
      apply (F (y :: l) m' r). cbn [app]. now rewrite E.
  Qed.

  Lemma uimage_cases : forall l s1, uimage vals l s1 = [] \/
    exists l1 m l2, l = l1 ++ m :: l2 /\
      (forall l m' r, l1 = l ++ m' :: r -> sdef (vals (s1 + zsum (map tslots l))) = false) /\
      sdef (vals (s1 + zsum (map tslots l1))) = true.
  Proof.
    induction l as [|y l IH]; intros s1; cbn [uimage]; [now left|].
    destruct (sdef (vals s1)) eqn:D.
    - right. exists [], y, l. split; [reflexivity|]. cbn [map zsum fold_right]. rewrite Z.add_0_r.
      split; [|exact D]. intros l0 m' r E. destruct l0; discriminate E.
    - destruct (IH (s1 + tslots y)) as [E|(l1 & m & l2 & -> & F & X)]; [now left|].
      right. exists (y :: l1), m, l2. split; [reflexivity|].
      replace (s1 + zsum (map tslots (y :: l1))) with (s1 + tslots y + zsum (map tslots l1))
        by (cbn [map]; unfold zsum; cbn [fold_right]; lia).
      split; [|exact X]. intros l0 m' r E. destruct l0 as [|z l0]; cbn [app] in E.
      + cbn [map zsum fold_right]. now rewrite Z.add_0_r.
      + injection E as -> E. specialize (F l0 m' r E).
        replace (s1 + zsum (map tslots (z :: l0))) with (s1 + tslots z + zsum (map tslots l0))
          by (cbn [map]; unfold zsum; cbn [fold_right]; lia). exact F.
  Qed.

  Lemma aimage_len : forall e n s1 k, valid e = true ->
    (forall j, 0 <= j < n -> typed vals e (s1 + j * tslots e)) -> Z.of_nat k <= n ->
    zlen (aimage vals e k s1) = Z.of_nat k * abi_size e.
  Proof.
    intros e n s1 k Ve. revert n s1. induction k as [|k IH]; intros n s1 Ty L; cbn [aimage]; [unfold zlen; cbn; lia|].
    rewrite zlen_app, image_len; [|exact Ve|].
    2:{ specialize (Ty 0 ltac:(lia)). now rewrite Z.mul_0_l, Z.add_0_r in Ty. }
    rewrite (IH (n - 1)); [lia| |lia]. intros j Hj.
    replace (s1 + tslots e + j * tslots e) with (s1 + (j + 1) * tslots e) by lia. apply Ty. lia.
  Qed.

  Lemma aimage_in : forall e n s1 i k, valid e = true ->
    (forall j, 0 <= j < n -> typed vals e (s1 + j * tslots e)) -> 0 <= i < n -> 0 <= k < abi_size e ->
    get (aimage vals e (Z.to_nat n) s1) (i * abi_size e + k) = get (image vals e (s1 + i * tslots e)) k.
  Proof.
    intros e n s1 i k Ve Ty Hi Hk.
    replace (Z.to_nat n) with (Z.to_nat i + S (Z.to_nat (n - i - 1)))%nat by lia.
    rewrite aimage_app. pose proof (aimage_len e n s1 (Z.to_nat i) Ve Ty ltac:(lia)) as L.
    rewrite Z2Nat.id in * by lia. rewrite get_app_r by lia. rewrite L.
    replace (i * abi_size e + k - i * abi_size e) with k by lia. cbn [aimage].
    rewrite get_app_l; [reflexivity|]. rewrite image_len; [lia|exact Ve|now apply Ty].
  Qed.

  (** Every value is found where the specification puts it. *)
  Lemma image_placed : forall T s o x sx, placed vals T s o x sx -> valid T = true -> typed vals T s ->
    0 <= o /\ o + abi_size x <= abi_size T /\
    forall k, 0 <= k < abi_size x -> get (image vals T s) (o + k) = get (cells_of x (sv (vals sx))) k.
  Proof.
    intros T s o x sx P. induction P as [c a p s|a n e s Wv|a l1 m l2 s o x sx P IH|a l1 m l2 s o x sx F D P IH|a n e k s o x sx Wv Hk P IH];
      intros V Ty.
    - split; [lia|]. split; [lia|]. intros k Hk. rewrite Z.add_0_l. cbn [image]. now rewrite get_pad by lia.
    - split; [lia|]. split; [lia|]. intros k Hk. rewrite Z.add_0_l, image_arr, Wv. now rewrite get_pad by lia.
    - assert (Vk : forall y, In y (l1 ++ m :: l2) -> valid y = true) by (intros; eapply valid_kids; eauto).
      assert (Tk : forall la y lb, l1 ++ m :: l2 = la ++ y :: lb -> typed vals y (s + 1 + zsum (map tslots la))).
      { intros la y lb E. rewrite E in Ty. eapply typed_struct; eauto. }
      destruct IH as (I1 & I2 & I3); [apply Vk; apply in_or_app; right; now left|eapply Tk; reflexivity|].
      destruct (c33_structure_members_ordered_aligned_inside a l1 m l2 V) as (S1 & _ & _ & S4 & _ & _).
      split; [lia|]. split; [lia|]. intros k Hk. rewrite image_struct, get_pad by lia.
      change (abi_offset l1 m) with (at_off (ends l1 0) m) in *.
      replace (at_off (ends l1 0) m + o + k) with (at_off (ends l1 0) m - 0 + (o + k)) by lia.
      rewrite simage_in by (auto; lia). now apply I3.
    - assert (Vm : valid m = true) by (eapply valid_kids; [exact V|]; apply in_or_app; right; now left).
      destruct IH as (I1 & I2 & I3); [exact Vm|eapply typed_union; eauto|].
      destruct (c33_union_covers_its_members a l1 m l2 V) as (S1 & _).
      split; [lia|]. split; [lia|]. intros k Hk. rewrite image_union, get_pad by lia.
      rewrite uimage_pick by auto. now apply I3.
    - assert (Ve : valid e = true) by (eapply valid_kids; [exact V|now left]).
      destruct IH as (I1 & I2 & I3); [exact Ve|eapply typed_elem; eauto|].
      assert (Z0 : 0 <= abi_size e) by (destruct (member_ok e Ve) as (_ & _ & _ & Z0 & _); exact Z0).
      assert (Sz : abi_size (TArr a n e) = n * abi_size e) by reflexivity. rewrite Sz.
      split; [nia|]. split; [nia|]. intros j Hj. rewrite image_arr, Wv, get_pad by nia.
      replace (k * abi_size e + o + j) with (k * abi_size e + (o + j)) by lia.
      rewrite aimage_in by (auto; try lia; intros; eapply typed_elem; eauto). now apply I3.
  Qed.

  (** Everything else is zero. *)
  Lemma image_rest : forall T s k, valid T = true -> typed vals T s -> 0 <= k < abi_size T ->
    get (image vals T s) k = Byte 0 \/
    exists o x sx, placed vals T s o x sx /\ o <= k < o + zlen (cells_of x (sv (vals sx))).
  Proof.
    induction T as [T IH] using tree_ind2. intros s k V Ty Hk.
    destruct T as [c a p|un a ms|a n e].
    - cbn [image]. rewrite get_pad by lia.
      destruct (Z.lt_ge_cases k (zlen (cells_of (TLeaf c a p) (sv (vals s))))) as [L|G].
      + right. exists 0, (TLeaf c a p), s. split; [constructor|lia].
      + left. now apply get_past.
    - assert (Vk : forall y, In y ms -> valid y = true) by (intros; eapply valid_kids; eauto).
      destruct un.
      + rewrite image_union, get_pad by lia.
        destruct (uimage_cases ms (s + 1)) as [-> |(l1 & m & l2 & -> & F & D)].
        { left. apply get_past. exact (proj1 Hk). }
        assert (Vm : valid m = true) by (apply Vk; apply in_or_app; right; now left).
        pose proof (typed_union vals _ _ _ _ _ Ty F D) as Tm.
        rewrite uimage_pick by auto.
        destruct (Z.lt_ge_cases k (abi_size m)) as [L|G].
        * destruct (IH m) with (s := s + 1 + zsum (map tslots l1)) (k := k) as [E|(o & x & sx & P & Hx)]; auto.
          { apply in_or_app. right. now left. }
          { lia. }
          right. exists o, x, sx. split; [|exact Hx]. eapply pl_union; eauto.
        * left. apply get_past. rewrite image_len by auto. exact G.
      + rewrite image_struct, get_pad by lia.
        assert (Tk : forall la y lb, ms = la ++ y :: lb -> typed vals y (s + 1 + zsum (map tslots la))).
        { intros la y lb E. rewrite E in Ty. eapply typed_struct; eauto. }
        destruct (simage_cases ms 0 (s + 1) k Vk Tk ltac:(lia)) as [E|(l1 & m & l2 & j & E & Hj & Ek)]; [now left|].
        subst ms. rewrite Ek. rewrite simage_in by auto.
        destruct (IH m) with (s := s + 1 + zsum (map tslots l1)) (k := j) as [E|(o & x & sx & P & Hx)]; auto.
        { apply in_or_app. right. now left. }
        { apply Vk. apply in_or_app. right. now left. }
        { eapply Tk. reflexivity. }
        right. exists (abi_offset l1 m + o), x, sx. split; [now constructor|].
        change (abi_offset l1 m) with (at_off (ends l1 0) m). clear -Hx. lia.
    - rewrite image_arr, get_pad by lia. destruct (whole_value (sv (vals s))) eqn:Wv.
      + destruct (Z.lt_ge_cases k (zlen (cells_of (TArr a n e) (sv (vals s))))) as [L|G].
        * right. exists 0, (TArr a n e), s. split; [now constructor|lia].
        * left. now apply get_past.
      + assert (Ve : valid e = true) by (eapply valid_kids; [exact V|now left]).
        assert (Sz : abi_size (TArr a n e) = n * abi_size e) by reflexivity. rewrite Sz in Hk.
        assert (Z0 : 0 <= abi_size e) by (destruct (member_ok e Ve) as (_ & _ & _ & Z0 & _); exact Z0).
        assert (Pe : 0 < abi_size e).
        { destruct (Z.eq_dec (abi_size e) 0) as [E0|]; [|lia]. rewrite E0, Z.mul_0_r in Hk. lia. }
        set (i := k / abi_size e). set (j := k mod abi_size e).
        assert (Ek : k = i * abi_size e + j) by (unfold i, j; rewrite Z.mul_comm; apply Z.div_mod; lia).
        assert (Hj : 0 <= j < abi_size e) by (apply Z.mod_pos_bound; lia).
        assert (Hi : 0 <= i < n).
        { split; [apply Z.div_pos; lia|]. apply Z.div_lt_upper_bound; lia. }
        rewrite Ek, aimage_in by (auto; intros; eapply typed_elem; eauto).
        destruct (IH e) with (s := s + 1 + i * tslots e) (k := j) as [E|(o & x & sx & P & Hx)]; auto.
        { now left. }
        { eapply typed_elem; eauto. }
        right. exists (i * abi_size e + o), x, sx. split; [eapply pl_elem; eauto|lia].
  Qed.
End CONTENT.
