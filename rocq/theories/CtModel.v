(** * Model of the cachetable's checkpoint protocol (ft/cachetable/cachetable.cc)

    Pages ([pair]s) live in the cachetable; client threads, background
    flushers, the cleaner, the evictor and the checkpoint thread act on them in
    any interleaving.  A step of the model is what the code does under one of
    its locks; everything the code does between two such points may be
    interleaved with the steps of every other thread.

    Simplified, for the whole file:
    - one cachefile, taking part in every checkpoint (for_checkpoint is set for
      every open file by begin_checkpoint, cachetable.cc 4500-4511);
    - read pins (PL_READ) are not modelled: they neither change a page nor a
      pending bit (cachetable.cc 1533: "if (lock_type != PL_READ)");
    - partial fetch and partial eviction are not modelled: they change what
      part of a page is in memory, not the content of the page;
    - a page's content is a value of an arbitrary type [V]; a buffer a flusher
      has detached from a parent and will apply to the child it has pinned
      (ft-flusher.cc 1480-1560) counts as part of the content of the pinned child;
    - a writer to the disk is modelled by its effect on the two maps of
      block_table.cc, the current one and the one of the checkpoint in progress
      (see FtDiskModel.v for the translation itself);
    - cache pressure, hashing, clock order, statistics and memory are absent. *)
From Coq Require Import List Bool NArith.
From Verif Require Import Base.
Import ListNotations.
Local Open Scope N_scope.

Definition ckey := N.     (* CACHEKEY / BLOCKNUM *)
Definition ctid := N.     (* a thread *)

(** What a thread is doing.
    [TRun todo]: running; it has cleared the pending bits of the pages [todo]
    and still has to write them for the checkpoint (locals [p_checkpoint_pending],
    [dep_checkpoint_pending], cachetable.cc 1533-1551); only [TRun []] is outside
    the cachetable.
    [TLock k]: it has the write lock of [k] but has not read its pending bit yet
    (between 1456-1466 and 1534).
    [TEv k]: evictor, has the write lock of [k] (try_evict_pair, 4165).
    [TEvx k fc]: evictor on a writer thread, holding the expensive pending lock
    for reading, local [for_checkpoint = fc] (cachetable_evicter, 739-752). *)
Inductive thr := TRun (todo : list ckey) | TLock (k : ckey) | TEv (k : ckey) | TEvx (k : ckey) (fc : bool).

Section Model.
Variable V : Type.

(** struct ctpair (cachetable-internal.h 172-249).  [p_val = None]: inserted by a
    miss, not read from disk yet.  [p_nd]: the dirty flag inside the value
    (node->dirty()), set when a client changes the page; the caller hands it to
    unpin and to the functions taking dependent pairs.  [p_clone = Some c]:
    cloned_value_data = c and disk_nb_mutex is held by whoever will write it. *)
Record pair := mkPair { p_val : option V; p_dirty : bool; p_nd : bool; p_pend : bool;
                        p_lock : option ctid; p_clone : option V }.

(** [c_keys]: the pairs in the table (pair_list::m_clock_head).
    [c_cur], [c_inp], [c_last]: content of every page through the current
    translation, the one of the checkpoint in progress, and the last complete
    checkpoint (block_table.h, struct translation m_current / m_inprogress /
    m_checkpointed).  [c_ck]: Some l while a checkpoint runs, l = the list of
    pending pairs (m_pending_head).  [c_users]: threads inside an operation that
    holds the multi-operation lock for reading (checkpoint.cc 197-214).
    [c_exps]: threads holding the expensive pending lock for reading. *)
Record cst := mkC { c_tab : ckey -> option pair; c_keys : list ckey;
                    c_cur : ckey -> option V; c_inp : ckey -> option V; c_last : ckey -> option V;
                    c_ck : option (list ckey); c_thr : ctid -> thr;
                    c_users : list ctid; c_exps : list ctid }.

Definition fupd {A} (f : N -> A) (k : N) (a : A) : N -> A := fun x => if x =? k then a else f x.
Definition mem (k : N) (l : list N) : bool := existsb (N.eqb k) l.
Definition del (k : N) (l : list N) : list N := filter (fun x => negb (x =? k)) l.

Definition set_pair (s : cst) (k : ckey) (p : pair) : cst :=
  mkC (fupd (c_tab s) k (Some p)) (c_keys s) (c_cur s) (c_inp s) (c_last s) (c_ck s) (c_thr s) (c_users s) (c_exps s).
Definition set_thr (s : cst) (t : ctid) (h : thr) : cst :=
  mkC (c_tab s) (c_keys s) (c_cur s) (c_inp s) (c_last s) (c_ck s) (fupd (c_thr s) t h) (c_users s) (c_exps s).

Definition with_val (p : pair) (v : V) := mkPair (Some v) (p_dirty p) true (p_pend p) (p_lock p) (p_clone p).
Definition with_lock (p : pair) (o : option ctid) := mkPair (p_val p) (p_dirty p) (p_nd p) (p_pend p) o (p_clone p).
Definition with_pend (p : pair) (b : bool) := mkPair (p_val p) (p_dirty p) (p_nd p) b (p_lock p) (p_clone p).
(** cachetable_unpin_internal (1890-1928), checkpoint_dependent_pairs 1093: the
    pair becomes dirty if the client says the value is. *)
Definition note_dirty (p : pair) := mkPair (p_val p) (p_dirty p || p_nd p) (p_nd p) (p_pend p) (p_lock p) (p_clone p).
(** After a write or a clone neither the pair nor the value is dirty any more
    (cachetable.cc 731, 931; toku_ftnode_flush_callback, toku_ftnode_clone_callback). *)
Definition cleaned (p : pair) (cl : option V) := mkPair (p_val p) false false (p_pend p) (p_lock p) cl.

(** Insertion into and removal from the table (cachetable_insert_at 841-866, cachetable_put_internal 881-899,
    cachetable_remove_pair 608-611: also leaves the pending list, pair_list::evict_completely). *)
Definition add_pair (s : cst) (k : ckey) (p : pair) : cst :=
  mkC (fupd (c_tab s) k (Some p)) (k :: c_keys s) (c_cur s) (c_inp s) (c_last s) (c_ck s) (c_thr s) (c_users s) (c_exps s).
Definition rem_pair (s : cst) (k : ckey) : cst :=
  mkC (fupd (c_tab s) k None) (del k (c_keys s)) (c_cur s) (c_inp s) (c_last s)
      (option_map (del k) (c_ck s)) (c_thr s) (c_users s) (c_exps s).

(** Effect of flush_callback on the disk maps (toku_ftnode_flush_callback →
    block_table::realloc_on_disk with for_checkpoint, block_table.cc 448-520): the
    current map always gets the new content, the one of the checkpoint in
    progress only if [fc].  [v = None]: the page is freed (free_blocknum, 699-741). *)
Definition disk_put (s : cst) (k : ckey) (v : option V) (fc : bool) : cst :=
  mkC (c_tab s) (c_keys s) (fupd (c_cur s) k v) (if fc then fupd (c_inp s) k v else c_inp s) (c_last s)
      (c_ck s) (c_thr s) (c_users s) (c_exps s).

(** cachetable_write_locked_pair (701-736): waits for the disk mutex (no clone
    outstanding, asserted 719), writes if dirty, cleans. *)
Definition write_locked_pair (s : cst) (k : ckey) (p : pair) (fc : bool) : option cst :=
  match p_clone p with
  | Some _ => None
  | None =>
      if p_dirty p then
        match p_val p with
        | Some v => Some (set_pair (disk_put s k (Some v) fc) k (cleaned p None))
        | None => None
        end
      else Some (set_pair s k (cleaned p None))
  end.

(** write_locked_pair_for_checkpoint (977-1003), for a pair whose bit was set:
    clone it for a writer thread if it is cloneable ([cl]), else write it. *)
Definition write_for_checkpoint (s : cst) (k : ckey) (p : pair) (cl : bool) : option cst :=
  if p_dirty p then
    if cl then
      match p_clone p, p_val p with
      | None, Some v => Some (set_pair s k (cleaned p (Some v)))
      | _, _ => None
      end
    else write_locked_pair s k p true
  else Some s.

(** try_pin_pair 1533-1551 and put_with_dep_pairs 1150-1158: under the cheap
    pending lock, read and clear the bits of the pair and of its dependent pairs;
    [note_dirty] is checkpoint_dependent_pairs 1093 (done a little later in the
    code, by the same thread, on pairs only it has locked). *)
Fixpoint clear_bits (s : cst) (t : ctid) (ks : list ckey) : option (cst * list ckey) :=
  match ks with
  | [] => Some (s, [])
  | k :: ks' =>
      match c_tab s k with
      | Some p =>
          if match p_lock p with Some t' => t' =? t | None => false end then
            match clear_bits (set_pair s k (with_pend (note_dirty p) false)) t ks' with
            | Some (s', todo) => Some (s', if p_pend p then k :: todo else todo)
            | None => None
            end
          else None
      | None => None
      end
  end.

(** A client changes pages it has write-pinned. *)
Fixpoint modify (s : cst) (t : ctid) (us : list (ckey * V)) : option cst :=
  match us with
  | [] => Some s
  | (k, v) :: us' =>
      match c_tab s k with
      | Some p =>
          if match p_lock p with Some t' => t' =? t | None => false end then
            match p_val p with
            | Some _ => modify (set_pair s k (with_val p v)) t us'
            | None => None
            end
          else None
      | None => None
      end
  end.

Definition owns (p : pair) (t : ctid) : bool :=
  match p_lock p with Some t' => t' =? t | None => false end.

Definition holds_none (s : cst) (t : ctid) : bool :=
  forallb (fun k => match c_tab s k with Some p => negb (owns p t) | None => true end) (c_keys s).

Definition no_clones (s : cst) : bool :=
  forallb (fun k => match c_tab s k with Some p => match p_clone p with None => true | Some _ => false end | None => true end)
          (c_keys s).

Definition is_idle (h : thr) : bool := match h with TRun [] => true | _ => false end.

Inductive cop :=
| OUser (t : ctid) | OUserEnd (t : ctid)
| OLock (t : ctid) (k : ckey) | OResolve (t : ctid) (deps : list ckey)
| OMiss (t : ctid) (k : ckey) (deps : list ckey) | OFetch (t : ctid) (k : ckey)
| OWrite (t : ctid) (cl : bool)
| OMod (t : ctid) (us : list (ckey * V))
| OUnpin (t : ctid) (k : ckey)
| OPut (t : ctid) (k : ckey) (v : V) (deps : list ckey)
| ORemove (t : ctid) (k : ckey)
| OHand (t : ctid) (k : ckey) (t' : ctid)
| OEvLock (t : ctid) (k : ckey) | OEvStart (t : ctid) | OEvWrite (t : ctid) | OEvFree (t : ctid) (rm : bool)
| OBegin | OCkPair (k : ckey) (cl : bool) | OClone (k : ckey) | OEnd.

Definition cstep (s : cst) (o : cop) : option cst :=
  match o with
  (* toku_multi_operation_client_lock / unlock (checkpoint.cc 197-206) around an
     operation of the API (src/ydb_write.cc, ydb_txn.cc, ydb_db.cc); the
     operation has no page pinned at either end *)
  | OUser t =>
      guard is_idle (c_thr s t) && holds_none s t;
      Some (mkC (c_tab s) (c_keys s) (c_cur s) (c_inp s) (c_last s) (c_ck s) (c_thr s) (t :: c_users s) (c_exps s))
  | OUserEnd t =>
      guard is_idle (c_thr s t) && holds_none s t;
      Some (mkC (c_tab s) (c_keys s) (c_cur s) (c_inp s) (c_last s) (c_ck s) (c_thr s) (del t (c_users s)) (c_exps s))
  (* write lock of a cached pair: try_pin_pair 1456-1466, maybe_get_and_pin_clean
     1825-1835, get_and_pin_nonblocking 2033-2060, cleaner 3160-3180 *)
  | OLock t k =>
      guard is_idle (c_thr s t);
      do p <- c_tab s k;
      guard (match p_lock p with None => true | Some _ => false end);
      Some (set_thr (set_pair s k (with_lock p (Some t))) t (TLock k))
  (* try_pin_pair 1533-1551, get_checkpoint_pending 1373-1380 (deps = []) *)
  | OResolve t deps =>
      match c_thr s t with
      | TLock k => do (s', todo) <- clear_bits s t (k :: deps); Some (set_thr s' t (TRun todo))
      | _ => None
      end
  (* get_and_pin_with_dep_pairs 1675-1716: not in the table: insert a clean
     locked pair, clear the bits of the dependent pairs, then fetch *)
  | OMiss t k deps =>
      guard is_idle (c_thr s t);
      guard (match c_tab s k with None => true | Some _ => false end);
      guard (match c_cur s k with None => false | Some _ => true end);
      do (s', todo) <- clear_bits (add_pair s k (mkPair None false false false (Some t) None)) t deps;
      Some (set_thr s' t (TRun todo))
  (* cachetable_fetch_pair 1330-1371: read through the current translation *)
  | OFetch t k =>
      do p <- c_tab s k;
      guard owns p t;
      match p_val p with
      | None => do v <- c_cur s k; Some (set_pair s k (mkPair (Some v) (p_dirty p) (p_nd p) (p_pend p) (p_lock p) (p_clone p)))
      | Some _ => None
      end
  (* checkpoint_pair_and_dependent_pairs 1382-1425: the next page whose bit was set *)
  | OWrite t cl =>
      match c_thr s t with
      | TRun (k :: todo) =>
          do p <- c_tab s k;
          do s' <- write_for_checkpoint s k p cl;
          Some (set_thr s' t (TRun todo))
      | _ => None
      end
  | OMod t us => guard is_idle (c_thr s t); modify s t us
  (* cachetable_unpin_internal 1890-1928 *)
  | OUnpin t k =>
      guard is_idle (c_thr s t);
      do p <- c_tab s k;
      guard owns p t;
      guard (match p_val p with None => false | Some _ => true end);
      Some (set_pair s k (with_lock (note_dirty p) None))
  (* toku_cachetable_put_with_dep_pairs 1101-1174: under the list lock, a fresh
     key, a dirty locked pair with its bit off *)
  | OPut t k v deps =>
      guard is_idle (c_thr s t);
      guard (match c_tab s k with None => true | Some _ => false end);
      guard (match c_cur s k with None => true | Some _ => false end);
      do (s', todo) <- clear_bits (add_pair s k (mkPair (Some v) true true false (Some t) None)) t deps;
      Some (set_thr s' t (TRun todo))
  (* toku_cachetable_unpin_and_remove 2577-2695: wait for the clone, free the
     block number in the checkpoint too if the bit was set *)
  | ORemove t k =>
      guard is_idle (c_thr s t);
      do p <- c_tab s k;
      guard owns p t;
      guard (match p_clone p with None => true | Some _ => false end);
      Some (rem_pair (disk_put s k None (p_pend p)) k)
  (* toku_ft_flush_node_on_background_thread (ft-flusher.cc 1859-1922): a client
     gives a pinned page to a background thread *)
  | OHand t k t' =>
      guard is_idle (c_thr s t) && is_idle (c_thr s t') && holds_none s t' && negb (mem t' (c_users s));
      do p <- c_tab s k;
      guard owns p t;
      Some (set_pair s k (with_lock p (Some t')))
  (* evictor::try_evict_pair 4156-4190 *)
  | OEvLock t k =>
      guard is_idle (c_thr s t);
      do p <- c_tab s k;
      guard (match p_lock p with None => true | Some _ => false end);
      guard (match p_val p with None => false | Some _ => true end);
      Some (set_thr (set_pair s k (with_lock p (Some t))) t (TEv k))
  (* cachetable_evicter 739-746: expensive pending lock, read and clear the bit *)
  | OEvStart t =>
      match c_thr s t with
      | TEv k =>
          do p <- c_tab s k;
          let s' := set_thr (set_pair s k (with_pend p false)) t (TEvx k (p_pend p)) in
          Some (mkC (c_tab s') (c_keys s') (c_cur s') (c_inp s') (c_last s') (c_ck s') (c_thr s') (c_users s') (t :: c_exps s'))
      | _ => None
      end
  (* evictor::evict_pair 4197-4202 *)
  | OEvWrite t =>
      match c_thr s t with
      | TEvx k fc =>
          do p <- c_tab s k;
          if p_dirty p then write_locked_pair s k p fc else None
      | _ => None
      end
  (* evictor::evict_pair 4208-4245 for a clean pair, from try_evict_pair 4171-4180
     or from the writer thread: unlock, and remove unless somebody waits for it;
     then the expensive lock is released (750) *)
  | OEvFree t rm =>
      match c_thr s t with
      | TEvx k _ | TEv k =>
          do p <- c_tab s k;
          guard negb (p_dirty p);
          guard (match p_clone p with None => true | Some _ => false end);
          let s' := if rm then rem_pair s k else set_pair s k (with_lock p None) in
          let s'' := set_thr s' t (TRun []) in
          Some (mkC (c_tab s'') (c_keys s'') (c_cur s'') (c_inp s'') (c_last s'') (c_ck s'') (c_thr s'') (c_users s'') (del t (c_exps s'')))
      | _ => None
      end
  (* checkpointer::begin_checkpoint 4514-4546, under the multi-operation lock for
     writing (checkpoint.cc 270-277) and both pending locks for writing
     (turn_on_pending_bits 4598-4625): every pair, clean or dirty, locked or not,
     becomes pending; note_start_checkpoint copies the translation *)
  | OBegin =>
      guard (match c_ck s with None => true | Some _ => false end);
      guard (match c_users s, c_exps s with [], [] => true | _, _ => false end);
      Some (mkC (fun k => option_map (fun p => with_pend p true) (c_tab s k)) (c_keys s) (c_cur s) (c_cur s) (c_last s)
                (Some (c_keys s)) (c_thr s) (c_users s) (c_exps s))
  (* checkpoint_pending_pairs 4679-4697 and write_pair_for_checkpoint_thread
     1010-1072: take a pair from the list, wait for its write lock, write or
     clone it if it is dirty and still pending.  Simplified: the pair leaves the
     list when its lock is obtained; in the code it leaves just before, and the
     checkpoint thread does nothing else while it waits *)
  | OCkPair k cl =>
      do l <- c_ck s;
      guard mem k l;
      do p <- c_tab s k;
      guard (match p_lock p with None => true | Some _ => false end);
      do s' <- (if p_pend p then write_for_checkpoint s k p cl else Some s);
      do p' <- c_tab s' k;
      let s'' := set_pair s' k (with_pend p' false) in
      Some (mkC (c_tab s'') (c_keys s'') (c_cur s'') (c_inp s'') (c_last s'') (Some (del k l)) (c_thr s'') (c_users s'') (c_exps s''))
  (* checkpoint_cloned_pair 939-958, write_pair_for_checkpoint_thread 1043-1057 *)
  | OClone k =>
      do p <- c_tab s k;
      match p_clone p with
      | Some c => Some (set_pair (disk_put s k (Some c) true) k (mkPair (p_val p) (p_dirty p) (p_nd p) (p_pend p) (p_lock p) None))
      | None => None
      end
  (* checkpoint_pending_pairs 4693 (wait for the clones), end_checkpoint 4635-4653:
     note_end_checkpoint makes the in-progress translation the checkpointed one *)
  | OEnd =>
      do l <- c_ck s;
      guard (match l with [] => true | _ => false end) && no_clones s;
      Some (mkC (c_tab s) (c_keys s) (c_cur s) (c_inp s) (c_inp s) None (c_thr s) (c_users s) (c_exps s))
  end.

Fixpoint cruns (s : cst) (os : list cop) : option cst :=
  match os with [] => Some s | o :: os' => do s' <- cstep s o; cruns s' os' end.

(** A cachetable just opened on a file with content [d] (toku_cachetable_create_ex 260-320,
    toku_cachetable_openfd_with_filenum): empty, no checkpoint. *)
Definition cinit (d : ckey -> option V) : cst :=
  mkC (fun _ => None) [] d d d None (fun _ => TRun []) [] [].

End Model.
Arguments mkPair {V}. Arguments p_val {V}. Arguments p_dirty {V}. Arguments p_nd {V}. Arguments p_pend {V}.
Arguments p_lock {V}. Arguments p_clone {V}.
Arguments mkC {V}. Arguments c_tab {V}. Arguments c_keys {V}. Arguments c_cur {V}. Arguments c_inp {V}. Arguments c_last {V}.
Arguments c_ck {V}. Arguments c_thr {V}. Arguments c_users {V}. Arguments c_exps {V}.
Arguments set_pair {V}. Arguments set_thr {V}. Arguments with_val {V}. Arguments with_lock {V}. Arguments with_pend {V}.
Arguments note_dirty {V}. Arguments cleaned {V}. Arguments add_pair {V}. Arguments rem_pair {V}. Arguments disk_put {V}.
Arguments write_locked_pair {V}. Arguments write_for_checkpoint {V}. Arguments clear_bits {V}. Arguments modify {V}.
Arguments owns {V}. Arguments holds_none {V}. Arguments no_clones {V}.
Arguments OUser {V}. Arguments OUserEnd {V}. Arguments OLock {V}. Arguments OResolve {V}. Arguments OMiss {V}. Arguments OFetch {V}.
Arguments OWrite {V}. Arguments OMod {V}. Arguments OUnpin {V}. Arguments OPut {V}. Arguments ORemove {V}. Arguments OHand {V}.
Arguments OEvLock {V}. Arguments OEvStart {V}. Arguments OEvWrite {V}. Arguments OEvFree {V}. Arguments OBegin {V}.
Arguments OCkPair {V}. Arguments OClone {V}. Arguments OEnd {V}.
Arguments cstep {V}. Arguments cruns {V}. Arguments cinit {V}.
