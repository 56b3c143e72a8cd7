(** Model of the row locks of one dictionary: the lock tree and the buffer used
    while a single transaction holds locks.

    Source: locktree/locktree.cc, locktree/txnid_set.cc and the part of
    locktree/manager.cc that counts lock memory.

    Simplification: lock memory is an unbounded number instead of uint64_t, and
    counts this dictionary only. *)
From Verif Require Import Base Bytes LtTreeModel RangeBufModel.
Open Scope N_scope.

(** struct row_lock (locktree/locktree.cc:143-146). *)
Notation rlock := (rng * txnid)%type.

(** struct locktree (locktree/locktree.h:283-400): the tree, the single
    transaction and its buffer, the score; and the lock memory counted by the
    manager (m_current_lock_memory). *)
Record lt := Lt {
  lt_tree : tree; lt_sto : txnid; lt_buf : rbuf; lt_score : Z; lt_mem : N }.

(** STO_BUFFER_MAX_SIZE and STO_SCORE_THRESHOLD (locktree/locktree.h:429-430). *)
Definition STO_BUFFER_MAX_SIZE : N := 50 * 1024.
Definition STO_SCORE_THRESHOLD : Z := 100.

(** locktree::create (locktree/locktree.cc:81-101). *)
Definition lt_init : lt := Lt E TXNID_NONE rb_empty STO_SCORE_THRESHOLD 0.

(** note_mem_released (locktree/manager.cc:299-302): releasing more than is
    counted fails an invariant. *)
Definition mem_released (m n : N) : option N := guard n <=? m; Some (m - n).

(** txnid_set (locktree/txnid_set.cc:66-105): a sorted set of ids. *)
Fixpoint set_add (x : txnid) (s : list txnid) : list txnid :=
  match s with
  | [] => [x]
  | y :: s' => if x <? y then x :: s else if x =? y then s else y :: set_add x s'
  end.

(** determine_conflicting_txnids (locktree/locktree.cc:168-187): the owners other
    than [x]; there is a conflict when the result is not empty. *)
Fixpoint conflicting (x : txnid) (locks : list rlock) (s : list txnid) : list txnid :=
  match locks with
  | [] => s
  | (_, y) :: ls => conflicting x ls (if y =? x then s else set_add y s)
  end.

(** iterate_and_get_overlapping_row_locks (locktree/locktree.cc:152-165): the
    function object that copies out every lock. *)
Definition copy_fn (a : list rlock) (g : rng) (x : txnid) : list rlock * bool :=
  (a ++ [(g, x)], true).

(** extract_first_n_row_locks (locktree/locktree.cc:583-600): the function object
    that copies out the first [n] locks. *)
Definition extract_fn (n : nat) (a : list rlock) (g : rng) (x : txnid) : list rlock * bool :=
  if (length a <? n)%nat then (a ++ [(g, x)], true) else (a, false).

(** The merging of one batch of extracted locks (locktree/locktree.cc:670-689):
    the first lock gives the left key and the owner, following locks of the same
    owner give the right key.  A single lock keeps its shared key memory. *)
Fixpoint merge_run (x : txnid) (l : ep) (same : bool) (r : ep) (ls : list rlock) : list rlock :=
  match ls with
  | [] => [(Rng l r same, x)]
  | (g, y) :: ls' =>
    if x =? y then merge_run x l false (r_r g) ls'
    else (Rng l r same, x) :: merge_run y (r_l g) (r_same g) (r_r g) ls'
  end.
Definition merge_batch (ls : list rlock) : list rlock :=
  match ls with
  | [] => []
  | (g, x) :: ls' => merge_run x (r_l g) (r_same g) (r_r g) ls'
  end.

(** The set of buffers, one per owner (struct txnid_range_buffer and its use,
    locktree/locktree.cc:623-636, 693-713).  The comparison function puts larger
    ids first. *)
Fixpoint bufs_append (x : txnid) (g : rng) (bs : list (txnid * rbuf)) : option (list (txnid * rbuf)) :=
  match bs with
  | [] => do b <- rb_append rb_empty g; Some [(x, b)]
  | (y, b) :: bs' =>
    if x <? y then do r <- bufs_append x g bs'; Some ((y, b) :: r)
    else if x =? y then do b' <- rb_append b g; Some ((y, b') :: bs')
    else do b' <- rb_append rb_empty g; Some ((x, b') :: bs)
  end.

Fixpoint bufs_append_all (ls : list rlock) (bs : list (txnid * rbuf)) : option (list (txnid * rbuf)) :=
  match ls with
  | [] => Some bs
  | (g, x) :: ls' => do bs' <- bufs_append x g bs; bufs_append_all ls' bs'
  end.

Section Lt.

Variable kcmp : bytes -> bytes -> comparison.
(** sizeof(keyrange) + sizeof(treenode), whatever they are on the machine
    (locktree/keyrange.cc:102-106, locktree/locktree.cc:190-193). *)
Variable overhead : N.

(** row_lock_size_in_tree (locktree/locktree.cc:190-193). *)
Definition lock_size (g : rng) : N := ep_size (r_l g) + ep_size (r_r g) + overhead.

(** remove_row_lock_from_tree and insert_row_lock_into_tree
    (locktree/locktree.cc:197-215). *)
Definition remove_lock (k : lkr) (m : N) (g : rng) : option (lkr * N) :=
  do k' <- lkr_remove kcmp k g;
  do m' <- mem_released m (lock_size g);
  Some (k', m').
Definition insert_lock (k : lkr) (m : N) (g : rng) (x : txnid) : option (lkr * N) :=
  do k' <- lkr_insert kcmp k g x; Some (k', m + lock_size g).

(** The loop that removes the requester's overlapping locks and widens the
    requested range (locktree/locktree.cc:360-365). *)
Fixpoint consolidate (k : lkr) (m : N) (x : txnid) (rg : rng) (ls : list rlock)
  : option (lkr * N * rng) :=
  match ls with
  | [] => Some (k, m, rg)
  | (g, y) :: ls' =>
    guard y =? x;
    let rg' := rextend kcmp rg g in
    do (k', m') <- remove_lock k m g;
    consolidate k' m' x rg' ls'
  end.

(** Result of a lock request: granted, or the conflicting owners. *)
Inductive answer := Granted | NotGranted (conflicts : list txnid).

(** acquire_lock_consolidated (locktree/locktree.cc:333-379). *)
Definition acquire_consolidated (k : lkr) (m : N) (x : txnid) (rg : rng)
  : option (answer * lkr * N) :=
  do k1 <- lkr_acquire kcmp k rg;
  let (locks, k2) := lkr_iterate kcmp k1 copy_fn [] in
  match conflicting x locks [] with
  | [] =>
    do (k3, m3, rg') <- consolidate k2 m x rg locks;
    do (k4, m4) <- insert_lock k3 m3 rg' x;
    Some (Granted, k4, m4)
  | c => Some (NotGranted c, k2, m)
  end.

(** The first loop of sto_migrate_buffer_ranges_to_tree
    (locktree/locktree.cc:273-283): fill a new tree from the buffer. *)
Fixpoint migrate_fill (t : tree) (m : N) (x : txnid) (gs : list rng) : option (tree * N) :=
  match gs with
  | [] => Some (t, m)
  | g :: gs' =>
    do (a, k, m') <- acquire_consolidated (lkr_prepare t) m x g;
    match a with
    | Granted => migrate_fill (lkr_release k) m' x gs'
    | NotGranted _ => None   (* invariant_zero(r) fails *)
    end
  end.

(** The function object that inserts into the destination
    (locktree/locktree.cc:287-294); no memory is counted for it. *)
Definition migrate_fn (a : option lkr) (g : rng) (x : txnid) : option lkr * bool :=
  (do k <- a; lkr_insert kcmp k g x, true).

(** sto_migrate_buffer_ranges_to_tree (locktree/locktree.cc:262-303). *)
Definition sto_migrate (s : lt) (k : lkr) : option (lkr * N) :=
  guard negb (rb_is_empty (lt_buf s));
  guard is_E (lt_tree s);
  do gs <- rb_records (lt_buf s);
  do (t, m) <- migrate_fill E (lt_mem s) (lt_sto s) gs;
  do k' <- fst (lkr_iterate kcmp (lkr_prepare t) migrate_fn (Some k));
  guard negb (is_E (lkr_release k'));
  Some (k', m).

(** sto_end (locktree/locktree.cc:234-242). *)
Definition sto_end (s : lt) (m : N) : option lt :=
  do m' <- mem_released m (rb_mem (lt_buf s));
  Some (Lt (lt_tree s) TXNID_NONE rb_empty (lt_score s) m').

(** sto_end_early_no_accounting (locktree/locktree.cc:244-248).  The tree itself
    is in the prepared locked_keyrange [k] until it is released. *)
Definition sto_end_early (s : lt) (k : lkr) : option (lt * lkr) :=
  do (k', m) <- sto_migrate s k;
  do s' <- sto_end s m;
  Some (Lt (lt_tree s') (lt_sto s') (lt_buf s') 0%Z (lt_mem s'), k').

(** sto_append (locktree/locktree.cc:223-232). *)
Definition sto_append (s : lt) (g : rng) : option lt :=
  do b <- rb_append (lt_buf s) g;
  Some (Lt (lt_tree s) (lt_sto s) b (lt_score s)
           (lt_mem s + (rb_mem b - rb_mem (lt_buf s)))).

(** sto_try_acquire (locktree/locktree.cc:305-328): true when the lock went to
    the buffer. *)
Definition sto_try_acquire (s : lt) (k : lkr) (x : txnid) (g : rng) : option (bool * lt * lkr) :=
  do (s1, k1) <-
    (if is_E (lt_tree s) && rb_is_empty (lt_buf s) && (STO_SCORE_THRESHOLD <=? lt_score s)%Z then
       guard lt_sto s =? TXNID_NONE;
       Some (Lt (lt_tree s) x (lt_buf s) (lt_score s) (lt_mem s), k)
     else if negb (lt_sto s =? TXNID_NONE) then
       if negb (lt_sto s =? x) || (STO_BUFFER_MAX_SIZE <? b_num (lt_buf s))
       then sto_end_early s k else Some (s, k)
     else Some (s, k));
  if negb (lt_sto s1 =? TXNID_NONE) then
    guard lt_sto s1 =? x;
    do s2 <- sto_append s1 g; Some (true, s2, k1)
  else
    guard rb_is_empty (lt_buf s1);
    Some (false, s1, k1).

Definition set_tree (s : lt) (t : tree) (m : N) : lt :=
  Lt t (lt_sto s) (lt_buf s) (lt_score s) m.

(** acquire_lock (locktree/locktree.cc:384-407). *)
Definition acquire_lock (s : lt) (x : txnid) (g : rng) : option (answer * lt) :=
  do (b, s1, k1) <- sto_try_acquire s (lkr_prepare (lt_tree s)) x g;
  if (b : bool) then Some (Granted, set_tree s1 (lkr_release k1) (lt_mem s1))
  else do (a, k2, m) <- acquire_consolidated k1 (lt_mem s1) x g;
       Some (a, set_tree s1 (lkr_release k2) m).

(** locktree::get_conflicts (locktree/locktree.cc:438-462): only the tree is
    searched. *)
Definition get_conflicts (s : lt) (x : txnid) (g : rng) : option (list txnid * lt) :=
  do k1 <- lkr_acquire kcmp (lkr_prepare (lt_tree s)) g;
  let (locks, k2) := lkr_iterate kcmp k1 copy_fn [] in
  Some (conflicting x locks [], set_tree s (lkr_release k2) (lt_mem s)).

Fixpoint remove_own (k : lkr) (m : N) (x : txnid) (ls : list rlock) : option (lkr * N) :=
  match ls with
  | [] => Some (k, m)
  | (g, y) :: ls' =>
    if y =? x then do (k', m') <- remove_lock k m g; remove_own k' m' x ls'
    else remove_own k m x ls'
  end.

(** remove_overlapping_locks_for_txnid (locktree/locktree.cc:488-519). *)
Definition remove_overlapping (s : lt) (x : txnid) (g : rng) : option lt :=
  do k1 <- lkr_acquire kcmp (lkr_prepare (lt_tree s)) g;
  let (locks, k2) := lkr_iterate kcmp k1 copy_fn [] in
  do (k3, m) <- remove_own k2 (lt_mem s) x locks;
  Some (set_tree s (lkr_release k3) m).

(** sto_try_release (locktree/locktree.cc:529-547). *)
Definition sto_try_release (s : lt) (x : txnid) : option (bool * lt) :=
  if lt_sto s =? TXNID_NONE then Some (false, s)
  else guard lt_sto s =? x; guard is_E (lt_tree s);
       do s' <- sto_end s (lt_mem s); Some (true, s').

(** The end of release_locks (locktree/locktree.cc:571-573). *)
Definition bump_score (s : lt) : lt :=
  Lt (lt_tree s) (lt_sto s) (lt_buf s)
     (if (lt_score s <? STO_SCORE_THRESHOLD)%Z then lt_score s + 1 else lt_score s)%Z
     (lt_mem s).

(** extract_first_n_row_locks (locktree/locktree.cc:579-616). *)
Fixpoint remove_all_of (k : lkr) (m : N) (ls : list rlock) : option (lkr * N) :=
  match ls with
  | [] => Some (k, m)
  | (g, _) :: ls' => do (k', m') <- remove_lock k m g; remove_all_of k' m' ls'
  end.
Definition extract_first_n (k : lkr) (m : N) (n : nat) : option (list rlock * lkr * N) :=
  let (ls, k1) := lkr_iterate kcmp k (extract_fn n) [] in
  do (k2, m2) <- remove_all_of k1 m ls;
  Some (ls, k2, m2).

(** The batch size (locktree/locktree.cc:657). *)
Definition batch_size : nat := 128.

(** The loop over batches (locktree/locktree.cc:662-721). *)
Fixpoint escalate_loop (n : nat) (k : lkr) (m : N) (bs : list (txnid * rbuf))
  : option (lkr * N * list (txnid * rbuf)) :=
  match n with
  | O => None
  | S n' =>
    do (ls, k1, m1) <- extract_first_n k m batch_size;
    match ls with
    | [] => Some (k1, m1, bs)
    | _ => do bs' <- bufs_append_all (merge_batch ls) bs; escalate_loop n' k1 m1 bs'
    end
  end.

Fixpoint insert_all (k : lkr) (m : N) (x : txnid) (gs : list rng) : option (lkr * N) :=
  match gs with
  | [] => Some (k, m)
  | g :: gs' => do (k', m') <- insert_lock k m g x; insert_all k' m' x gs'
  end.

Fixpoint rebuild (k : lkr) (m : N) (bs : list (txnid * rbuf)) : option (lkr * N) :=
  match bs with
  | [] => Some (k, m)
  | (x, b) :: bs' =>
    do gs <- rb_records b;
    do (k', m') <- insert_all k m x gs;
    rebuild k' m' bs'
  end.

(** locktree::escalate (locktree/locktree.cc:645-766).  Also returned: the owner
    and buffer pairs given to the callback. *)
Definition escalate (s : lt) : option (lt * list (txnid * rbuf)) :=
  do k <- lkr_acquire kcmp (lkr_prepare (lt_tree s)) inf_range;
  do (s1, k1) <- (if negb (lt_sto s =? TXNID_NONE) then sto_end_early s k else Some (s, k));
  do (k2, m2, bs) <- escalate_loop (S (size (lkr_release k1))) k1 (lt_mem s1) [];
  guard is_E (lkr_release k2);
  do (k3, m3) <- rebuild k2 m2 bs;
  Some (set_tree s1 (lkr_release k3) m3, bs).

End Lt.
