(** Hot optimize (C56, C57): pushing the buffered messages down to the leaves.

    The tree is the part of it the pushing looks at: pivots, a buffer per
    child, and in a leaf the list of messages applied to it.  A message is its
    key and its MSN (message sequence number).

    Simplified: only messages for one key (broadcasts are not here); a node is
    neither split nor merged inside a round (ft/ft-flusher.cc:1530-1545; it may
    be between two rounds); a round is one step, although the code unlocks the
    nodes it has finished with.  [int] child numbers are natural numbers. *)
From Verif Require Import Base Bytes KOrd PivotModel.
Open Scope nat_scope.

Notation hmsg := (bytes * N)%type.

(** FTNODE (ft/node.h:165-219): bp[i] is the buffer of child i and the child;
    a leaf is what has been applied to it, oldest first. *)
Inductive htree : Type :=
| HLeaf (l : list hmsg)
| HNode (pv : list bytes) (chs : list (list hmsg * htree)).

(** node->height (ft/node.h:180-181). *)
Fixpoint height (t : htree) : nat :=
  match t with
  | HLeaf _ => 0
  | HNode _ chs => S (match chs with [] => 0 | (_, t1) :: _ => height t1 end)
  end.

Fixpoint hset {A} (i : nat) (x : A) (l : list A) : list A :=
  match l, i with
  | [], _ => []
  | _ :: r, O => x :: r
  | a :: r, S j => a :: hset j x r
  end.

Section Hop.
Variable kcmp : bytes -> bytes -> comparison.

(** ft_nonleaf_msg_once_to_child (ft/node.cc:1756-1767): a message goes to the
    buffer of the child its key belongs to. *)
Definition put_one (pv : list bytes) (chs : list (list hmsg * htree)) (m : hmsg) : option (list (list hmsg * htree)) :=
  do i <- which_child kcmp pv (fst m);
  do e <- nth_error chs i;
  Some (hset i (fst e ++ [m], snd e) chs).

Fixpoint put_each (pv : list bytes) (chs : list (list hmsg * htree)) (ms : list hmsg) : option (list (list hmsg * htree)) :=
  match ms with
  | [] => Some chs
  | m :: r => do chs1 <- put_one pv chs m; put_each pv chs1 r
  end.

(** toku_bnc_flush_to_child (ft/ft-flusher.cc:1551-1623) calls
    toku_ftnode_put_msg (ft/node.cc:2022-2064) for every message of the buffer,
    oldest first: into a leaf it is applied, into another node it is buffered. *)
Definition flush_to_child (t : htree) (ms : list hmsg) : option htree :=
  match t with
  | HLeaf l => Some (HLeaf (l ++ ms))
  | HNode pv chs => do chs1 <- put_each pv chs ms; Some (HNode pv chs1)
  end.

(** hot_just_pick_child (ft/ft-hot-flusher.cc:98-118); [None] is a NULL
    highest_pivot_key. *)
Definition hot_just_pick_child (pv : list bytes) (highest : option bytes) : option nat :=
  match highest with
  | None => Some 0
  | Some k => hot_next_child kcmp pv k
  end.

(** hot_update_flusher_keys (ft/ft-hot-flusher.cc:120-131): max_current_key. *)
Definition hot_update_keys (pv : list bytes) (i : nat) (mc : option bytes) : option bytes :=
  if i <? length pv then nth_error pv i else mc.

(** toku_ft_flush_some_child (ft/ft-flusher.cc:1391-1549) with the advice of
    hot optimize: pick the child, empty its buffer into it, recurse
    (always_recursively_flush) until the child is a leaf.  The result is the
    tree and max_current_key.  [None]: an index out of range, or deeper than
    [fuel]. *)
Fixpoint hot_round (fuel : nat) (highest mc : option bytes) (t : htree) : option (htree * option bytes) :=
  match t with
  | HLeaf _ => Some (t, mc)
  | HNode pv chs =>
    match fuel with
    | O => None
    | S f =>
      do i <- hot_just_pick_child pv highest;
      do e <- nth_error chs i;
      let mc1 := hot_update_keys pv i mc in
      do t1 <- flush_to_child (snd e) (fst e);
      do r <- hot_round f highest mc1 t1;
      Some (HNode pv (hset i ([], fst r) chs), snd r)
    end
  end.

(** The end of a round (ft/ft-hot-flusher.cc:305-317): is the traversal finished? *)
Definition hot_done (right mc : option bytes) : bool :=
  match mc with
  | None => true
  | Some p =>
    match right with
    | None => false
    | Some r => match kcmp p r with Gt => true | _ => false end
    end
  end.

(** toku_ft_hot_optimize (ft/ft-hot-flusher.cc:226-353) with nobody else at
    work and no callback: the tree and loops_run.  [None] also when [fuel]
    rounds were not enough. *)
Fixpoint hot_optimize (fuel : nat) (right highest : option bytes) (t : htree) : option (htree * nat) :=
  match fuel with
  | O => None
  | S f =>
    do r <- hot_round (height t) highest None t;
    if hot_done right (snd r) then Some (fst r, 1)
    else do q <- hot_optimize f right (snd r) (fst r); Some (fst q, S (snd q))
  end.

(** The same with others at work between two rounds and a progress callback
    that may ask to stop: [env t t1] says what the others may do to the tree.
    The boolean is [r == 0] at the end (l. 340). *)
Inductive hot_run (env : htree -> htree -> Prop) (right : option bytes) : option bytes -> htree -> bool -> htree -> Prop :=
| hot_last highest t t1 mc :
    hot_round (height t) highest None t = Some (t1, mc) -> hot_done right mc = true ->
    hot_run env right highest t true t1
| hot_abort highest t t1 mc :
    hot_round (height t) highest None t = Some (t1, mc) ->
    hot_run env right highest t false t1
| hot_more highest t t1 mc t2 b t3 :
    hot_round (height t) highest None t = Some (t1, mc) -> hot_done right mc = false ->
    env t1 t2 -> hot_run env right mc t2 b t3 ->
    hot_run env right highest t b t3.
End Hop.

(** The fields of the header that account for hot optimize
    (ft/ft-internal.h:153-162), the times left out.  uint32_t. *)
Record hhdr := mkHhdr {
  hh_count : N;      (** count_of_optimize_in_progress *)
  hh_disk : N;       (** count_of_optimize_in_progress_read_from_disk *)
  hh_msn : N         (** msn_at_start_of_last_completed_optimize *)
}.
Definition U32 : N := (2 ^ 32)%N.

(** ft_header_create (ft/ft.cc:394-396). *)
Definition hh_create : hhdr := mkHhdr 0 0 0.
(** deserialize_ft_versioned (ft/serialize/ft-serialize.cc:294-295, 364-366). *)
Definition hh_open (count msn : N) : hhdr := mkHhdr count count msn.

(** toku_ft_note_hot_begin (ft/ft.cc:514-527). *)
Definition note_hot_begin (h : hhdr) : hhdr :=
  mkHhdr ((hh_count h + 1) mod U32) (hh_disk h) (hh_msn h).

(** toku_ft_note_hot_complete (ft/ft.cc:532-550). *)
Definition note_hot_complete (h : hhdr) (success : bool) (msn : N) : hhdr :=
  let n := ((hh_count h + U32 - 1) mod U32)%N in
  if success then
    mkHhdr (if (n =? hh_disk h)%N then 0%N else n) (hh_disk h) msn
  else mkHhdr n (hh_disk h) (hh_msn h).
