(** Model of the transaction manager, ft/txn/txn_manager.cc: ids, live root
    transactions, snapshots and the records of finished transactions that some
    snapshot still cannot see.

    All functions below run under txn_manager_lock, hence atomically.  OMTs are
    sorted lists, the snapshot linked list is a list from head to tail.
    Definitions only. *)
From Verif Require Import Base UleModel.
Open Scope N_scope.

(** ft/txn/txn.h:77. *)
Definition TXNID_MAX : txnid := 2 ^ 64 - 1.

(** A transaction that recorded a snapshot: its snapshot_txnid64 and
    live_root_txn_list (ft/txn/txn.h:128-150). *)
Record snap := mkSnap { s_id : txnid; s_live : list txnid }.

(** struct txn_manager, ft/txn/txn_manager.h:66-84: last_xid, live_root_ids
    (live_root_txns holds the same transactions in the same order), the
    snapshot list, referenced_xids, last_calculated_oldest_referenced_xid. *)
Record mgr := mkMgr {
  m_last : txnid;
  m_live : list txnid;
  m_snaps : list snap;
  m_ref : list rxt;
  m_oldest : txnid
}.

(** txn_manager.cc:189-205 toku_txn_manager_init, with last_xid as set from the
    log or the header at startup. *)
Definition mgr_init (last : txnid) : mgr := mkMgr last [] [] [] TXNID_NONE.

(** ++last_xid.  The code would wrap after 2^64-2 ids; the model stops there. *)
Definition next_xid (m : mgr) : option (txnid * mgr) :=
  let x := m_last m + 1 in
  guard (x <? TXNID_MAX);
  Some (x, mkMgr x (m_live m) (m_snaps m) (m_ref m) (m_oldest m)).

(** txn_manager.cc:335-363 set_oldest_referenced_xid. *)
Definition set_oldest (m : mgr) : option mgr :=
  let o := match m_live m with x :: _ => x | [] => TXNID_MAX end in
  let o := match m_ref m with
           | t :: _ => if rx_begin t <? o then rx_begin t else o
           | [] => o end in
  let o := match m_snaps m with
           | s :: _ => if s_id s <? o then s_id s else o
           | [] => o end in
  let o := if m_last m <? o then m_last m else o in
  guard negb (o =? TXNID_MAX);
  Some (mkMgr (m_last m) (m_live m) (m_snaps m) (m_ref m) o).

(** txn_manager.cc:376-396 txn_manager_create_snapshot_unlocked followed by
    setup_live_root_txn_list (314-322). *)
Definition create_snapshot (m : mgr) : option (snap * mgr) :=
  do (id, m1) <- next_xid m;
  let s := mkSnap id (m_live m1) in
  Some (s, mkMgr (m_last m1) (m_live m1) (m_snaps m1 ++ [s]) (m_ref m1) (m_oldest m1)).

(** txn_manager.cc:599-668 toku_txn_manager_start_txn: the new xid, and the
    snapshot when [records] (txn_records_snapshot, 61-71: TXN_SNAPSHOT_ROOT or
    TXN_SNAPSHOT_CHILD on a root transaction). *)
Definition start_txn (m : mgr) (read_only records : bool)
  : option (txnid * option snap * mgr) :=
  do (xid, m1) <- next_xid m;
  let m2 := if read_only then m1
            else mkMgr (m_last m1) (m_live m1 ++ [xid]) (m_snaps m1) (m_ref m1)
                       (m_oldest m1) in
  do m3 <- set_oldest m2;
  if records then
    do (s, m4) <- create_snapshot m3; Some (xid, Some s, m4)
  else Some (xid, None, m3).

(** txn_manager.cc:409-430 referenced_xids_note_snapshot_txn_end_iter: one live
    xid of the closing snapshot. *)
Fixpoint dec_ref (x : txnid) (ref : list rxt) : option (list rxt) :=
  match ref with
  | [] => Some []
  | t :: ref' =>
      if rx_begin t =? x then
        guard (0 <? rx_refs t);
        if rx_refs t - 1 =? 0 then Some ref'
        else Some (mkRxt (rx_begin t) (rx_end t) (rx_refs t - 1) :: ref')
      else do r <- dec_ref x ref'; Some (t :: r)
  end.

(** txn_manager.cc:432-438 note_snapshot_txn_end_by_ref_xids. *)
Fixpoint note_end_by_ref_xids (live : list txnid) (ref : list rxt) : option (list rxt) :=
  match live with
  | [] => Some ref
  | x :: live' => do ref' <- dec_ref x ref; note_end_by_ref_xids live' ref'
  end.

(** txn_manager.cc:447-484 note_snapshot_txn_end_by_txn_live_list: all tuples
    are visited first, then the emptied ones deleted, last index first. *)
Fixpoint note_end_by_live_list (live : list txnid) (ref : list rxt) : option (list rxt) :=
  match ref with
  | [] => Some []
  | t :: ref' =>
      if in_live_list live (rx_begin t) then
        guard (0 <? rx_refs t);
        do r <- note_end_by_live_list live ref';
        if rx_refs t - 1 =? 0 then Some r
        else Some (mkRxt (rx_begin t) (rx_end t) (rx_refs t - 1) :: r)
      else do r <- note_end_by_live_list live ref'; Some (t :: r)
  end.

(** txn_manager.cc:486-515 txn_manager_remove_snapshot_unlocked. *)
Definition remove_snapshot (m : mgr) (s : snap) : option mgr :=
  let snaps := filter (fun s' => negb (s_id s' =? s_id s)) (m_snaps m) in
  let nref := N.of_nat (length (m_ref m)) in
  let nlive := N.of_nat (length (s_live s)) in
  do ref <- (if (0 <? nref) && (0 <? nlive) then
               if (nref <? nlive) && (nref <? 2000)
               then note_end_by_live_list (s_live s) (m_ref m)
               else note_end_by_ref_xids (s_live s) (m_ref m)
             else Some (m_ref m));
  Some (mkMgr (m_last m) (m_live m) snaps ref (m_oldest m)).

(** live_root_txns.find_zero and delete_at, txn_manager.cc:715-725. *)
Fixpoint remove_live (x : txnid) (l : list txnid) : option (list txnid) :=
  match l with
  | [] => None
  | y :: l' => if y =? x then Some l' else do r <- remove_live x l'; Some (y :: r)
  end.

(** The loop txn_manager.cc:729-739, from the tail of the snapshot list. *)
Fixpoint count_younger (x : txnid) (rev_snaps : list snap) : N :=
  match rev_snaps with
  | [] => 0
  | s :: l => if x <? s_id s then 1 + count_younger x l else 0
  end.

(** omt.insert with find_tuple_by_xid: sorted insertion, an existing key is an
    error (lazy_assert_zero). *)
Fixpoint insert_ref (t : rxt) (ref : list rxt) : option (list rxt) :=
  match ref with
  | [] => Some [t]
  | u :: ref' =>
      if rx_begin u =? rx_begin t then None
      else if rx_begin t <? rx_begin u then Some (t :: ref)
      else do r <- insert_ref t ref'; Some (u :: r)
  end.

(** txn_manager.cc:694-761 toku_txn_manager_finish_txn.  [osnap] is the snapshot
    recorded by the root transaction itself; [declared_ro] is
    txn_declared_read_only; [wrote] is the negation of toku_txn_is_read_only
    (ft/txn/txn.cc:655-671); garbage_collection_debug is false. *)
Definition finish_txn (m : mgr) (xid : txnid) (osnap : option snap)
  (declared_ro wrote : bool) : option mgr :=
  do m1 <- match osnap with Some s => remove_snapshot m s | None => Some m end;
  if declared_ro then Some m1
  else
    do live <- remove_live xid (m_live m1);
    let m2 := mkMgr (m_last m1) live (m_snaps m1) (m_ref m1) (m_oldest m1) in
    if wrote then
      let refs := count_younger xid (rev (m_snaps m2)) in
      if 0 <? refs then
        do (e, m3) <- next_xid m2;
        do ref <- insert_ref (mkRxt xid e refs) (m_ref m3);
        Some (mkMgr (m_last m3) (m_live m3) (m_snaps m3) ref (m_oldest m3))
      else Some m2
    else Some m2.

(** txn_manager.cc:763-789 toku_txn_manager_clone_state_for_gc. *)
Definition clone_for_gc (m : mgr) : gc_state :=
  mkGc (map s_id (m_snaps m)) (m_ref m) (m_live m).

(** * The manager with its clients *)

(** An open root transaction (ft/txn/txn.h:120-190). *)
Record root := mkRoot {
  r_xid : txnid;
  r_ro : bool;             (* declared read only *)
  r_snap : option snap;    (* its own snapshot, if it records one *)
  r_wrote : bool           (* not toku_txn_is_read_only *)
}.

(** What happened, as seen from outside. *)
Inductive event :=
| EBegin (x : txnid) (read_only : bool)   (* a root transaction starts *)
| ESnap (s : txnid)                       (* a snapshot is taken *)
| ESnapEnd (s : txnid)                    (* a snapshot is given up *)
| EWrite (x : txnid)                      (* a root transaction (or a child) writes *)
| EFinish (x : txnid).                    (* a root transaction commits or aborts *)

(** The open roots, the open child snapshots with the root they belong to, and
    the events so far, newest first. *)
Record msys := mkMsys {
  ms_mgr : mgr;
  ms_roots : list root;
  ms_child : list (txnid * snap);
  ms_hist : list event
}.

Definition msys_init (last : txnid) : msys := mkMsys (mgr_init last) [] [] [].

Definition find_root (x : txnid) (rs : list root) : option root :=
  find (fun r => r_xid r =? x) rs.

Inductive mop :=
| MBegin (read_only records : bool)
| MChildSnap (x : txnid)      (* txn_manager.cc:523-553, a child of root x records a snapshot *)
| MChildSnapEnd (s : txnid)   (* txn_manager.cc:555-575 *)
| MWrite (x : txnid)
| MFinish (x : txnid).

(** Calls a client may make: children end before their root, a transaction
    declared read only does not write. *)
Definition mop_legal (ms : msys) (o : mop) : Prop :=
  match o with
  | MBegin _ _ => True
  | MChildSnap x => find_root x (ms_roots ms) <> None
  | MChildSnapEnd s => exists x n, In (x, n) (ms_child ms) /\ s_id n = s
  | MWrite x => exists r, find_root x (ms_roots ms) = Some r /\ r_ro r = false
  | MFinish x => find_root x (ms_roots ms) <> None
                 /\ forall n, ~ In (x, n) (ms_child ms)
  end.

Definition set_wrote (x : txnid) (rs : list root) : list root :=
  map (fun r => if r_xid r =? x then mkRoot (r_xid r) (r_ro r) (r_snap r) true else r) rs.

Definition mstep (ms : msys) (o : mop) : option msys :=
  match o with
  | MBegin ro rec =>
      do (p, m) <- start_txn (ms_mgr ms) ro rec;
      let '(x, os) := p in
      Some (mkMsys m (ms_roots ms ++ [mkRoot x ro os false]) (ms_child ms)
              (match os with Some s => [ESnap (s_id s)] | None => [] end
               ++ EBegin x ro :: ms_hist ms))
  | MChildSnap x =>
      do (s, m) <- create_snapshot (ms_mgr ms);
      Some (mkMsys m (ms_roots ms) (ms_child ms ++ [(x, s)]) (ESnap (s_id s) :: ms_hist ms))
  | MChildSnapEnd s =>
      do p <- find (fun p => s_id (snd p) =? s) (ms_child ms);
      do m <- remove_snapshot (ms_mgr ms) (snd p);
      Some (mkMsys m (ms_roots ms)
              (filter (fun p => negb (s_id (snd p) =? s)) (ms_child ms))
              (ESnapEnd s :: ms_hist ms))
  | MWrite x =>
      Some (mkMsys (ms_mgr ms) (set_wrote x (ms_roots ms)) (ms_child ms)
              (EWrite x :: ms_hist ms))
  | MFinish x =>
      do r <- find_root x (ms_roots ms);
      do m <- finish_txn (ms_mgr ms) x (r_snap r) (r_ro r) (r_wrote r);
      Some (mkMsys m (filter (fun r => negb (r_xid r =? x)) (ms_roots ms)) (ms_child ms)
              (EFinish x :: match r_snap r with Some s => [ESnapEnd (s_id s)] | None => [] end
               ++ ms_hist ms))
  end.

(** Ids are not about to run out (one operation uses at most two). *)
Definition ids_left (ms : msys) : Prop := m_last (ms_mgr ms) + 3 < TXNID_MAX.

Inductive mreach (last : txnid) : msys -> Prop :=
| mreach_init : last < TXNID_MAX -> mreach last (msys_init last)
| mreach_step ms o ms' : mreach last ms -> mop_legal ms o -> ids_left ms ->
    mstep ms o = Some ms' -> mreach last ms'.
