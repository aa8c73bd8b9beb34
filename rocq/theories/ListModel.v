(** Model of the doubly linked lists, source/core/list.c and source/core/linked_stack.c, with
    their pointers: entries live at addresses of a heap, 0 is NULL, and reading, writing or
    freeing an address where no entry lives has no result (None).  What malloc answers is part
    of the call.  A removal callback is its answer for the value of an entry; that it was
    called is recorded.  NULL lists and NULL allocators are left out. *)

From Coq Require Import ZArith Bool List.
Import ListNotations.
Open Scope Z_scope.

(** struct kefir_list_entry, struct kefir_list: headers/kefir/core/list.h:28-43 *)
Record entry := { e_value : Z; e_prev : Z; e_next : Z }.
Record lst := { l_head : Z; l_tail : Z; l_length : Z; l_callback : option (Z -> bool) }.
Definition heap := Z -> option entry.

Definition put (h : heap) (a : Z) (e : entry) : heap := fun x => if x =? a then Some e else h x.
Definition free_entry (a : Z) (h : heap) : option heap :=
  if a =? 0 then Some h else match h a with Some _ => Some (fun x => if x =? a then None else h x) | None => None end.
Definition get (h : heap) (a : Z) : option entry := if a =? 0 then None else h a.
Definition set_prev (a p : Z) (h : heap) : option heap :=
  match get h a with Some e => Some (put h a {| e_value := e_value e; e_prev := p; e_next := e_next e |}) | None => None end.
Definition set_next (a n : Z) (h : heap) : option heap :=
  match get h a with Some e => Some (put h a {| e_value := e_value e; e_prev := e_prev e; e_next := n |}) | None => None end.

Definition bind {A B : Type} (x : option A) (f : A -> option B) : option B := match x with Some a => f a | None => None end.
Notation "'do' x <- a ; b" := (bind a (fun x => b)) (at level 200, x pattern, a at level 100, b at level 200).

Definition with_head (l : lst) (a : Z) : lst := {| l_head := a; l_tail := l_tail l; l_length := l_length l; l_callback := l_callback l |}.
Definition with_tail (l : lst) (a : Z) : lst := {| l_head := l_head l; l_tail := a; l_length := l_length l; l_callback := l_callback l |}.
Definition with_length (l : lst) (n : Z) : lst := {| l_head := l_head l; l_tail := l_tail l; l_length := n; l_callback := l_callback l |}.

(** kefir_list_init, list.c:26-34 *)
Definition list_init : lst := {| l_head := 0; l_tail := 0; l_length := 0; l_callback := None |}.

(** kefir_list_insert_after, list.c:69-101; [a] is the answer of malloc *)
Definition list_insert_after (a : Z) (l : lst) (iter v : Z) (h : heap) : option (bool * lst * heap) :=
  if a =? 0 then Some (false, l, h)
  else
    let h := put h a {| e_value := v; e_prev := 0; e_next := 0 |} in
    if iter =? 0 then
      do h <- set_next a (l_head l) h;
      do h <- (if l_head l =? 0 then Some h else set_prev (l_head l) a h);
      let l := with_head l a in
      let l := if l_tail l =? 0 then with_tail l a else l in
      Some (true, with_length l (l_length l + 1), h)
    else
      do h <- set_prev a iter h;
      do it <- get h iter;
      do h <- set_next a (e_next it) h;
      do h <- set_next iter a h;
      do h <- (if e_next it =? 0 then Some h else set_prev (e_next it) a h);
      let l := if iter =? l_tail l then with_tail l a else l in
      Some (true, with_length l (l_length l + 1), h).

(** The removal callback of a list on an entry: its answer and the value it was called with *)
Definition call_back (l : lst) (a : Z) (h : heap) : option (bool * list Z) :=
  match l_callback l with
  | Some f => do e <- get h a; Some (f (e_value e), [e_value e])
  | None => Some (true, [])
  end.

(** kefir_list_pop, list.c:103-125 *)
Definition list_pop (l : lst) (iter : Z) (h : heap) : option (bool * lst * heap * list Z) :=
  do (ok, called) <- call_back l iter h;
  if ok : bool then
    do it <- get h iter;
    let l := if iter =? l_head l then with_head l (e_next it) else l in
    let l := if iter =? l_tail l then with_tail l (e_prev it) else l in
    do h <- (if e_next it =? 0 then Some h else set_prev (e_next it) (e_prev it) h);
    do it <- get h iter;
    do h <- (if e_prev it =? 0 then Some h else set_next (e_prev it) (e_next it) h);
    do h <- free_entry iter h;
    Some (true, with_length l (l_length l - 1), h, called)
  else Some (false, l, h, called).

(** kefir_list_clear, list.c:127-147: the loop, at most [fuel] times *)
Fixpoint list_clear (fuel : nat) (l : lst) (h : heap) : option (bool * lst * heap * list Z) :=
  match fuel with
  | O => None
  | S fuel =>
    if l_head l =? 0 then Some (true, l, h, [])
    else
      let a := l_head l in
      do (ok, called) <- call_back l a h;
      if ok : bool then
        do e <- get h a;
        let l := with_head l (e_next e) in
        do h <- (if l_head l =? 0 then Some h else set_prev (l_head l) 0 h);
        let l := if l_tail l =? a then with_tail l 0 else l in
        let l := with_length l (l_length l - 1) in
        do h <- free_entry a h;
        do (ok, l, h, more) <- list_clear fuel l h;
        Some (ok, l, h, called ++ more)
      else Some (false, l, h, called)
  end.

(** kefir_list_free, list.c:36-50 *)
Fixpoint free_loop (fuel : nat) (l : lst) (current : Z) (h : heap) : option (bool * heap * list Z) :=
  match fuel with
  | O => None
  | S fuel =>
    if current =? 0 then Some (true, h, [])
    else
      do e <- get h current;
      do (ok, called) <- call_back l current h;
      if ok : bool then
        do h <- free_entry current h;
        do (ok, h, more) <- free_loop fuel l (e_next e) h;
        Some (ok, h, called ++ more)
      else Some (false, h, called)
  end.
Definition list_free (fuel : nat) (l : lst) (h : heap) : option (bool * lst * heap * list Z) :=
  do (ok, h, called) <- free_loop fuel l (l_head l) h;
  Some (ok, if ok : bool then with_head l 0 else l, h, called).

(** kefir_list_at, list.c:159-166 *)
Fixpoint at_loop (index : nat) (e : Z) (h : heap) : option Z :=
  match index with
  | O => Some e
  | S index => if e =? 0 then Some e else do x <- get h e; at_loop index (e_next x) h
  end.
Definition list_at (l : lst) (index : nat) (h : heap) : option Z := at_loop index (l_head l) h.
(** kefir_list_next, list.c:168-176: the value and the next position *)
Definition list_next (current : Z) (h : heap) : option (Z * Z) :=
  if current =? 0 then Some (0, 0) else do e <- get h current; Some (e_value e, e_next e).

(** kefir_list_move_all, list.c:178-202; [same]: destination and source are the same list *)
Definition list_move_all (same : bool) (dst src : lst) (h : heap) : option (lst * lst * heap) :=
  let head := l_head src in
  let tail := l_tail src in
  let length := l_length src in
  if head =? 0 then Some (dst, src, h)
  else
    let src := with_length (with_tail (with_head src 0) 0) 0 in
    let dst := if same then src else dst in
    if l_tail dst =? 0 then
      let dst := with_tail (with_head dst head) tail in
      let dst := with_length dst (l_length dst + length) in
      Some (dst, if same then dst else src, h)
    else
      do h <- set_next (l_tail dst) head h;
      do h <- set_prev head (l_tail dst) h;
      let dst := with_tail dst tail in
      let dst := with_length dst (l_length dst + length) in
      Some (dst, if same then dst else src, h).

(** kefir_linked_stack_push, _pop, _peek, linked_stack.c:25-57 *)
Definition stack_push (a : Z) (l : lst) (v : Z) (h : heap) : option (bool * lst * heap) :=
  list_insert_after a l (l_tail l) v h.
Definition stack_pop (l : lst) (h : heap) : option (bool * Z * lst * heap * list Z) :=
  if l_tail l =? 0 then Some (true, 0, l, h, [])
  else
    do t <- get h (l_tail l);
    do (ok, l, h, called) <- list_pop l (l_tail l) h;
    Some (ok, e_value t, l, h, called).
Definition stack_peek (l : lst) (h : heap) : option Z :=
  if l_tail l =? 0 then Some 0 else do t <- get h (l_tail l); Some (e_value t).

(** ** Programs that use several lists *)

Inductive op :=
  | OInit (i : nat) | OOnRemove (i : nat) (f : option (Z -> bool)) | OInsert (i : nat) (iter v a : Z) | OPop (i : nat) (iter : Z)
  | OClear (i : nat) | OFree (i : nat) | OLength (i : nat) | OHead (i : nat) | OTail (i : nat) | OAt (i : nat) (k : nat)
  | ONext (current : Z) | OMove (i j : nat) | OPush (i : nat) (v a : Z) | OStackPop (i : nat) | OPeek (i : nat).
Inductive answer := AOk | AError | ANumber (n : Z) | APointer (a : Z) | AValue (v : Z) | AStep (v a : Z).

Record state := { s_heap : heap; s_list : nat -> lst; s_called : list (nat * Z) }.
Definition with_list (i : nat) (l : lst) (h : heap) (called : list Z) (s : state) : state :=
  {| s_heap := h; s_list := fun k => if (k =? i)%nat then l else s_list s k; s_called := s_called s ++ map (pair i) called |}.
Definition result (ok : bool) : answer := if ok then AOk else AError.

Definition step (fuel : nat) (o : op) (s : state) : option (answer * state) :=
  let h := s_heap s in
  match o with
  | OInit i => Some (AOk, with_list i list_init h [] s)
  | OOnRemove i f =>
    let l := s_list s i in
    Some (AOk, with_list i {| l_head := l_head l; l_tail := l_tail l; l_length := l_length l; l_callback := f |} h [] s)
  | OInsert i iter v a => do (ok, l, h) <- list_insert_after a (s_list s i) iter v h; Some (result ok, with_list i l h [] s)
  | OPop i iter => do (ok, l, h, called) <- list_pop (s_list s i) iter h; Some (result ok, with_list i l h called s)
  | OClear i => do (ok, l, h, called) <- list_clear fuel (s_list s i) h; Some (result ok, with_list i l h called s)
  | OFree i => do (ok, l, h, called) <- list_free fuel (s_list s i) h; Some (result ok, with_list i l h called s)
  | OLength i => Some (ANumber (l_length (s_list s i)), s)
  | OHead i => Some (APointer (l_head (s_list s i)), s)
  | OTail i => Some (APointer (l_tail (s_list s i)), s)
  | OAt i k => do a <- list_at (s_list s i) k h; Some (APointer a, s)
  | ONext e => do (v, a) <- list_next e h; Some (AStep v a, s)
  | OMove i j =>
    do (d, c, h) <- list_move_all (i =? j)%nat (s_list s i) (s_list s j) h;
    Some (AOk, with_list i d h [] (with_list j c h [] s))
  | OPush i v a => do (ok, l, h) <- stack_push a (s_list s i) v h; Some (result ok, with_list i l h [] s)
  | OStackPop i => do (ok, v, l, h, called) <- stack_pop (s_list s i) h; Some (if ok then AValue v else AError, with_list i l h called s)
  | OPeek i => do v <- stack_peek (s_list s i) h; Some (AValue v, s)
  end.
Fixpoint run (fuel : nat) (os : list op) (s : state) : option (list answer * state) :=
  match os with
  | [] => Some ([], s)
  | o :: os => do (r, s) <- step fuel o s; do (rs, s) <- run fuel os s; Some (r :: rs, s)
  end.
