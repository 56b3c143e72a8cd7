(** Model of all users of one dictionary's row locks: lock requests, waiting,
    deadlock checks, the transactions' lists of ranges, release and escalation.

    Source: locktree/lock_request.cc, locktree/manager.cc:252-358,
    src/ydb_row_lock.cc, src/ydb_txn.cc:88-145.

    The steps are what the code does under one mutex: the lock tree (see
    LtTreeModel.v), the set of pending requests, a transaction's mutex.  Steps of
    different threads may come in any order.

    Simplifications:
    - one dictionary; the lock memory of other dictionaries is not counted;
    - locks belong to root transactions (txn_oldest_ancester,
      src/ydb_row_lock.cc:203); a root transaction has at most one lock request
      at a time;
    - time is not modelled: a waiting request may time out or be killed at any
      step;
    - hot indexing (toku_db_grab_write_lock) is not modelled. *)
From Verif Require Import Base Bytes LtTreeModel RangeBufModel LtModel WfgModel LtSpec.
Open Scope N_scope.

(** A lock request that is neither complete nor pending: it was not granted and
    is about to be put into the pending set (between locktree/lock_request.cc:187
    and 200); or it was granted and is about to be noted in the transaction
    (between start or wait and db_txn_note_row_lock, src/ydb_row_lock.cc:209-211,
    240-242). *)
Inductive req := RNone | RBlocked (g : rng) (cs : list txnid) | RGranted (g : rng).

(** A release in progress (locktree/locktree.cc:551-575): the ranges still to be
    released and whether the score is to be raised at the end. *)
Inductive relst := Idle | Releasing (gs : list rng) (bump : bool) | Released.

(** The transactions' ranges for this dictionary (entries of the lt_maps,
    src/ydb-internal.h txn_lt_key_ranges). *)
Definition maps := list (txnid * rbuf).

Record sys := Sys {
  s_lt : lt;
  s_maps : maps;
  s_live : list txnid;         (* the transaction manager's transactions *)
  s_last : txnid;              (* the last id given *)
  s_req : txnid -> req;
  s_rel : txnid -> relst;
  s_pend : pending }.

Definition sys_init : sys :=
  Sys lt_init [] [] 0 (fun _ => RNone) (fun _ => Idle) [].

Definition upd {A} (f : txnid -> A) (x : txnid) (a : A) : txnid -> A :=
  fun y => if y =? x then a else f y.

Fixpoint map_find (x : txnid) (m : maps) : option rbuf :=
  match m with [] => None | (y, b) :: m' => if x =? y then Some b else map_find x m' end.
Fixpoint map_put (x : txnid) (b : rbuf) (m : maps) : maps :=
  match m with
  | [] => [(x, b)]
  | (y, c) :: m' => if x =? y then (y, b) :: m' else (y, c) :: map_put x b m'
  end.
Fixpoint map_del (x : txnid) (m : maps) : maps :=
  match m with [] => [] | (y, c) :: m' => if x =? y then m' else (y, c) :: map_del x m' end.

Definition is_live (x : txnid) (l : list txnid) : bool := existsb (N.eqb x) l.

Definition set_mem (s : lt) (m : N) : lt :=
  Lt (lt_tree s) (lt_sto s) (lt_buf s) (lt_score s) m.

(** db_txn_note_row_lock (src/ydb_row_lock.cc:68-99) on the map and the lock
    memory. *)
Definition note_lock (ms : maps) (m : N) (x : txnid) (g : rng) : option (maps * N) :=
  let old := match map_find x ms with Some b => b | None => rb_empty end in
  do b <- rb_append old g;
  guard rb_mem old <? rb_mem b;
  Some (map_put x b ms, m + (rb_mem b - rb_mem old)).

(** The copying loop of the escalation callback (src/ydb_row_lock.cc:148-155). *)
Fixpoint append_all (b : rbuf) (gs : list rng) : option rbuf :=
  match gs with [] => Some b | g :: gs' => do b' <- rb_append b g; append_all b' gs' end.

(** toku_db_txn_escalate_callback (src/ydb_row_lock.cc:101-173). *)
Definition escalate_cb (live : list txnid) (ms : maps) (m : N) (x : txnid) (b : rbuf)
  : option (maps * N) :=
  if is_live x live then
    match map_find x ms with
    | Some old =>
      do m1 <- mem_released m (rb_mem old);
      do gs <- rb_records b;
      do b' <- append_all rb_empty gs;
      Some (map_put x b' ms, m1 + rb_mem b')
    | None => guard b_num b =? 1; Some (ms, m)
    end
  else Some (ms, m).

Fixpoint escalate_cbs (live : list txnid) (ms : maps) (m : N) (bs : list (txnid * rbuf))
  : option (maps * N) :=
  match bs with
  | [] => Some (ms, m)
  | (x, b) :: bs' =>
    do (ms', m') <- escalate_cb live ms m x b; escalate_cbs live ms' m' bs'
  end.

Section Sys.

Variable kcmp : bytes -> bytes -> comparison.
Variable overhead : N.
(** m_max_lock_memory. *)
Variable max : N.

(** locktree::escalate with its callback, run for this dictionary
    (locktree/manager.cc:252-293, locktree/locktree.cc:645-766).  In the code the
    callback of an owner runs right after that owner's locks are back in the
    tree; the callbacks do not touch the tree. *)
Definition do_escalate (s : sys) : option sys :=
  do (l, bs) <- escalate kcmp overhead (s_lt s);
  do (ms, m) <- escalate_cbs (s_live s) (s_maps s) (lt_mem l) bs;
  Some (Sys (set_mem l m) ms (s_live s) (s_last s) (s_req s) (s_rel s) (s_pend s)).

(** locktree_manager::check_current_lock_constraints
    (locktree/manager.cc:304-310, 342-358): false for TOKUDB_OUT_OF_LOCKS. *)
Definition over_big (s : sys) : bool := max / 2 <=? lt_mem (s_lt s).
Definition out_of_locks (s : sys) : bool := max <=? lt_mem (s_lt s).
Definition check_constraints (big : bool) (s : sys) : option (bool * sys * list event) :=
  do (r1, s1, e1) <-
    (if big && over_big s then
       do s' <- do_escalate s; Some (negb (over_big s'), s', [Escalated])
     else Some (true, s, []));
  if (r1 : bool) && out_of_locks s1 then
    do s' <- do_escalate s1; Some (negb (out_of_locks s'), s', e1 ++ [Escalated])
  else Some (r1, s1, e1).

(** The result of try_acquire_lock. *)
Inductive lock_result := LGranted | LRefused (cs : list txnid) | LOutOfLocks.

Definition set_lt (s : sys) (l : lt) : sys :=
  Sys l (s_maps s) (s_live s) (s_last s) (s_req s) (s_rel s) (s_pend s).

(** locktree::try_acquire_lock (locktree/locktree.cc:404-415).  [chk] is None
    when the check was passed in an earlier step, Some big when it is made now. *)
Definition try_acquire (s : sys) (x : txnid) (g : rng) (chk : option bool)
  : option (lock_result * sys * list event) :=
  do (ok, s1, e1) <- (match chk with
                      | None => Some (true, s, [])
                      | Some big => check_constraints big s
                      end);
  if (ok : bool) then
    do (a, l) <- acquire_lock kcmp overhead (s_lt s1) x g;
    match a with
    | Granted => Some (LGranted, set_lt s1 l, e1 ++ [Grant x g])
    | NotGranted cs => Some (LRefused cs, set_lt s1 l, e1 ++ [Refuse x g cs])
    end
  else Some (LOutOfLocks, s1, e1 ++ [OutOfLocks x g]).

Definition set_req (s : sys) (x : txnid) (r : req) : sys :=
  Sys (s_lt s) (s_maps s) (s_live s) (s_last s) (upd (s_req s) x r) (s_rel s) (s_pend s).
Definition set_pend (s : sys) (p : pending) : sys :=
  Sys (s_lt s) (s_maps s) (s_live s) (s_last s) (s_req s) (s_rel s) p.
Definition set_rel (s : sys) (l : lt) (x : txnid) (r : relst) : sys :=
  Sys l (s_maps s) (s_live s) (s_last s) (s_req s) (upd (s_rel s) x r) (s_pend s).

Inductive op :=
| Begin                                      (** a root transaction begins *)
| Start (x : txnid) (g : rng) (chk : option bool)
                                             (** lock_request::start up to the answer of the tree *)
| Enqueue (x : txnid)                        (** its second half: pending set and deadlock check *)
| Retry (x : txnid) (chk : option bool)      (** lock_request::retry of a pending request *)
| GiveUp (x : txnid)                         (** timeout or kill of a pending request *)
| Note (x : txnid)                           (** db_txn_note_row_lock *)
| End (x : txnid)                            (** commit or abort leaves the transaction manager *)
| Rel (x : txnid)                            (** release starts: sto_try_release *)
| RelNext (x : txnid)                        (** one range is released *)
| RelFin (x : txnid)                         (** the end of toku_db_release_lt_key_ranges *)
| Escalate.                                  (** escalation started for another dictionary's sake *)

(** One step; None when the process stops. *)
Definition step (s : sys) (o : op) : option (sys * list event) :=
  match o with
  | Begin =>
    (* toku_txn_manager_start_txn; see MgrModel.v *)
    let x := s_last s + 1 in
    Some (Sys (s_lt s) (s_maps s) (x :: s_live s) x (s_req s) (s_rel s) (s_pend s), [])
  | Start x g chk =>
    (* locktree/lock_request.cc:176-186 and src/ydb_row_lock.cc:199-210 *)
    do (r, s1, ev) <- try_acquire s x g chk;
    match r with
    | LGranted => Some (set_req s1 x (RGranted g), ev)
    | LRefused cs => Some (set_req s1 x (RBlocked g cs), ev)
    | LOutOfLocks => Some (s1, ev)
    end
  | Enqueue x =>
    (* locktree/lock_request.cc:190-205; conflicts.get(0) needs a conflict *)
    match s_req s x with
    | RBlocked g cs =>
      guard negb (is_nil cs);
      do p <- insert_req x g (s_pend s);
      do (d, l) <- deadlock_exists kcmp p x cs (s_lt s);
      let s1 := set_lt (set_req s x RNone) l in
      if (d : bool) then
        do p' <- remove_req x p; Some (set_pend s1 p', [Deadlock x g])
      else Some (set_pend s1 p, [])
    | _ => None
    end
  | Retry x chk =>
    (* locktree/lock_request.cc:318-349; conflicts.get(0) fails when there is no
       conflict, which is the case after TOKUDB_OUT_OF_LOCKS *)
    match find_req x (s_pend s) with
    | None => None
    | Some g =>
      do (r, s1, ev) <- try_acquire s x g chk;
      match r with
      | LGranted =>
        do p <- remove_req x (s_pend s1);
        Some (set_pend (set_req s1 x (RGranted g)) p, ev)
      | LRefused cs => guard negb (is_nil cs); Some (s1, ev)
      | LOutOfLocks => None
      end
    end
  | GiveUp x =>
    (* locktree/lock_request.cc:243-246, 262-273, 405-409 *)
    match find_req x (s_pend s) with
    | None => None
    | Some g => do p <- remove_req x (s_pend s); Some (set_pend s p, [Timeout x g])
    end
  | Note x =>
    match s_req s x with
    | RGranted g =>
      do (ms, m) <- note_lock (s_maps s) (lt_mem (s_lt s)) x g;
      Some (Sys (set_mem (s_lt s) m) ms (s_live s) (s_last s) (upd (s_req s) x RNone)
                (s_rel s) (s_pend s), [])
    | _ => None
    end
  | End x =>
    (* complete_txn (src/ydb_txn.cc:133, 182) *)
    Some (Sys (s_lt s) (s_maps s) (filter (fun y => negb (y =? x)) (s_live s)) (s_last s)
              (s_req s) (s_rel s) (s_pend s), [])
  | Rel x =>
    (* src/ydb_txn.cc:88-106, src/ydb_row_lock.cc:287-293,
       locktree/locktree.cc:551-556 *)
    match map_find x (s_maps s) with
    | None => Some (set_rel s (s_lt s) x Released, [RelStart x; RelDone x])
    | Some b =>
      do (rel, l) <- sto_try_release (s_lt s) x;
      do gs <- (if (rel : bool) then Some [] else rb_records b);
      Some (set_rel s l x (Releasing gs (negb rel)), [RelStart x])
    end
  | RelNext x =>
    (* locktree/locktree.cc:557-566 *)
    match s_rel s x with
    | Releasing (g :: gs) bump =>
      do l <- remove_overlapping kcmp overhead (s_lt s) x g;
      Some (set_rel s l x (Releasing gs bump), [])
    | _ => None
    end
  | RelFin x =>
    (* locktree/locktree.cc:571-573, src/ydb_row_lock.cc:294-296 *)
    match s_rel s x, map_find x (s_maps s) with
    | Releasing [] bump, Some b =>
      let l := if (bump : bool) then bump_score (s_lt s) else s_lt s in
      do m <- mem_released (lt_mem l) (rb_mem b);
      Some (Sys (set_mem l m) (map_del x (s_maps s)) (s_live s) (s_last s) (s_req s)
                (upd (s_rel s) x Released) (s_pend s), [RelDone x])
    | _, _ => None
    end
  | Escalate => do s' <- do_escalate s; Some (s', [Escalated])
  end.

(** A run: the final state and the history. *)
Fixpoint run (s : sys) (os : list op) : option (sys * list event) :=
  match os with
  | [] => Some (s, [])
  | o :: os' =>
    do (s1, e1) <- step s o;
    do (s2, e2) <- run s1 os';
    Some (s2, e1 ++ e2)
  end.

(** What the callers guarantee.  Keys must not be empty and must be shorter than
    2^16 bytes; a range's end points are in order; shared key memory means equal
    keys. *)
Definition good_key (e : ep) : bool :=
  match e with Fin k => negb (is_nil k) && (len k <? 65536) | _ => true end.
Definition good_range (g : rng) : Prop :=
  good_key (r_l g) = true /\ good_key (r_r g) = true /\
  ep_le kcmp (r_l g) (r_r g) /\ (r_same g = true -> r_l g = r_r g).

(** Nobody asks for a lock for [x] now. *)
Definition no_request (s : sys) (x : txnid) : Prop :=
  s_req s x = RNone /\ find_req x (s_pend s) = None.

Definition legal (s : sys) (o : op) : Prop :=
  match o with
  | Begin | Escalate => True
  | Start x g _ => In x (s_live s) /\ no_request s x /\ good_range g
  | Enqueue x => exists g cs, s_req s x = RBlocked g cs
  | Retry x _ | GiveUp x => find_req x (s_pend s) <> None
  | Note x => exists g, s_req s x = RGranted g
  | End x => In x (s_live s) /\ no_request s x
  | Rel x => x <= s_last s /\ x <> 0 /\ ~ In x (s_live s) /\ s_rel s x = Idle
  | RelNext x => exists g gs b, s_rel s x = Releasing (g :: gs) b
  | RelFin x => exists b, s_rel s x = Releasing [] b
  end.

(** A retry does not run out of lock memory. *)
Definition retry_ok (s : sys) (o : op) : Prop :=
  match o with
  | Retry x chk => forall g, find_req x (s_pend s) = Some g ->
      forall s' ev, try_acquire s x g chk <> Some (LOutOfLocks, s', ev)
  | _ => True
  end.

Inductive reach : sys -> list event -> Prop :=
| reach_init : reach sys_init []
| reach_step s h o s' ev : reach s h -> legal s o -> step s o = Some (s', ev) ->
    reach s' (h ++ ev).

End Sys.
