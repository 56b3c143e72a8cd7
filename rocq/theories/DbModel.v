(** A whole dictionary under transactions: clients begin, nest, write any keys,
    commit and abort; every message they send is injected into the tree of
    FtModel.v, whose leaf entries are those of UleModel.v; the tree flushes,
    splits, merges, writes and evicts when it likes, and the garbage collection
    information it uses is gathered as the code gathers it.

    Simplifications, besides those of MvccModel.v (one root transaction with its
    open children, rows locked exclusively) and FtModel.v:
    - A rollback entry and its message are one step (as in MvccModel.v); a
      message is injected in the step that sends it, at a place in the tree that
      is an argument of the step.
    - What an action of the tree clones from the transaction manager is from the
      moment of the action (in the code, from some moment while it holds its
      nodes locked).
    - FT_COMMIT_BROADCAST_ALL, FT_COMMIT_BROADCAST_TXN, FT_ABORT_BROADCAST_TXN and
      FT_UPDATE_BROADCAST_ALL are not sent (hot indexing, bulk loading, recovery of
      prepared transactions, DB->update_broadcast).

    Definitions only. *)
From Verif Require Import Base Bytes KOrd UleModel MgrModel MvccModel.
From Verif Require Import FtModel FtSpec OrkModel.
Open Scope nat_scope.

(** A look at the transaction manager: the number of messages sent to the
    dictionary so far, and the manager.  [lk_hist] is the history at that moment;
    no step depends on it. *)
Record look := mkLook { lk_n : nat; lk_mgr : mgr; lk_hist : list event }.

(** txn_gc_info (ft/txn/txn_manager.h:106-140) by the looks it comes from; [gi_ini]:
    the cloned state is already there (txn_manager_state::initialized). *)
Record ginfo := mkGinfo { gi_ini : bool; gi_state : look; gi_simple : look; gi_promo : look }.
Definition gi_of (g : ginfo) : gc_info :=
  mkGcInfo (Some (gi_ini g, clone_for_gc (lk_mgr (gi_state g))))
           (m_oldest (lk_mgr (gi_simple g))) (m_oldest (lk_mgr (gi_promo g))) true.

(** ** The leaf entries of the tree *)

(** What is stored for a key: a leaf entry, or [None] when an assertion has failed
    while it was made (the process is gone). *)
Definition stored := option ule.
Definition store (r : option (option ule)) : option stored :=
  match r with None => Some None | Some None => None | Some (Some u) => Some (Some u) end.

Definition mtype_of (k : kind) : mtype :=
  match k with
  | KIns _ => MInsert | KInsNo _ => MInsertNoOverwrite | KDel => MDeleteAny
  | KAbort => MAbortAny | KCommit => MCommitAny | KOpt => MOptimize | KUpd _ => MUpdate
  end.

(** The tree over the leaf entries of UleModel.v ([row_apply] is
    toku_ft_bn_apply_msg for one key, MvccModel.v).  [le_has_xids] is only used for
    the broadcasts that are not sent here. *)
Definition EV (c : bytes -> bytes -> comparison) : env := {|
  kcmp := c; L := stored; G := ginfo; A := rmsg;
  le_apply g m old :=
    match old with
    | Some None => Some None
    | Some (Some u) => store (row_apply (m_arg m) (Some u) (gi_of g))
    | None => store (row_apply (m_arg m) None (gi_of g))
    end;
  le_is_clean v := match v with Some u => is_clean u | None => false end;
  le_has_xids _ _ := false;
  le_gc g v := match v with
               | None => Some None
               | Some u => store (le_garbage_collect u (gi_of g))
               end |}.

(** ** Transactions *)

(** A level of a nested transaction with its rollback entries, newest first: the
    key, and [true] for cmddelete (ft/txn/roll.cc:345-430). *)
Definition rentry : Type := bytes * bool.
Record dlevel := mkDlevel { dl_xid : txnid; dl_ents : list rentry }.
(** As in MvccModel.v ([phase], [rtxn]), for all keys (ft/txn/rollback-apply.cc:82-151). *)
Inductive dphase := QActive | QCommit (todo : list rentry) | QAbort (todo : list rentry).
Record dtxn := mkDtxn { d_root : txnid; d_levels : list dlevel; d_last : txnid; d_phase : dphase }.

Definition dchain (t : dtxn) : xids := rev (map dl_xid (d_levels t)).
(** ft/txn/txn_child_manager.cc:79-102. *)
Definition dnext_child (t : dtxn) : txnid :=
  (let x := d_last t + 1 in if x =? d_root t then x + 1 else x)%N.

(** What happened, as seen by the users of the dictionary. *)
Inductive devent :=
| DvBegin (r : txnid)
| DvChild (r : txnid)
| DvWrite (r : txnid) (k : bytes) (w : wkind)
| DvChildCommit (r : txnid)
| DvChildAbort (r : txnid)
| DvCommit (r : txnid)
| DvAbort (r : txnid)
| DvSnap (s : txnid).

Section Db.
Context (c : bytes -> bytes -> comparison).
Local Notation E := (EV c).
Local Notation dmsg := (gmsg rmsg).

(** [d_sent]: the messages in the order of their MSNs, with the history when they
    were sent (used by no step).  [d_lock]: who holds the row lock of a key.
    [d_ork]: oldest_referenced_xid_known of every node. *)
Record db := mkDb {
  d_ms : msys;
  d_txns : list dtxn;
  d_lock : bytes -> option txnid;
  d_sent : list (dmsg * list event);
  d_looks : list look;
  d_trace : list devent;      (* newest first *)
  d_tree : FtModel.state E;
  d_ork : otree look
}.

(** TXNID_NONE is what a manager says that has not begun any transaction. *)
Definition no_look (last : txnid) : look := mkLook 0 (mgr_init last) [].
Definition db_init (last : txnid) : db :=
  mkDb (msys_init last) [] (fun _ => None) [] [no_look last] [] init (oinit (no_look last)).

Definition dfind (r : txnid) (ts : list dtxn) : option dtxn := find (fun t => d_root t =? r)%N ts.
Definition dset (t : dtxn) (ts : list dtxn) : list dtxn :=
  map (fun t' => if (d_root t' =? d_root t)%N then t else t') ts.
Definition ddel (r : txnid) (ts : list dtxn) : list dtxn := filter (fun t => negb (d_root t =? r)%N) ts.

Definition dpush (e : rentry) (ls : list dlevel) : list dlevel :=
  match ls with [] => [] | l :: ls' => mkDlevel (dl_xid l) (e :: dl_ents l) :: ls' end.
(** ft/txn/rollback-apply.cc:155-243. *)
Definition dmerge (ls : list dlevel) : list dlevel :=
  match ls with
  | a :: p :: ls' => mkDlevel (dl_xid p) (dl_ents a ++ dl_ents p) :: ls'
  | _ => ls
  end.

Definition take_lock (k : bytes) (r : txnid) (f : bytes -> option txnid) : bytes -> option txnid :=
  fun k' => if keqb c k' k then Some r else f k'.
Definition drop_locks (r : txnid) (f : bytes -> option txnid) : bytes -> option txnid :=
  fun k => match f k with Some q => if (q =? r)%N then None else Some q | None => None end.

(** ** The clients *)
Inductive cop :=
| CBegin (read_only records : bool)
| CChildSnap (r : txnid)
| CChildSnapEnd (s : txnid)
| CChild (r : txnid)
| CLock (r : txnid) (k : bytes)
| CWrite (r : txnid) (k : bytes) (w : wkind)
| CChildCommit (r : txnid)
| CAbort (r : txnid)
| CAbortMsg (r : txnid)
| CAbortDone (r : txnid)
| CCommit (r : txnid)
| CCommitMsg (r : txnid)
| CCommitDone (r : txnid)
| COptimize (i : nat).

(** What a client's action changes besides the tree, and the message it sends;
    [None] is a failed assertion.  The same steps as in MvccModel.v ([rstep]),
    where the code is cited. *)
Record clients := mkClients { c_ms : msys; c_txns : list dtxn; c_lock : bytes -> option txnid; c_trace : list devent }.

Definition key_msg (k : bytes) (m : rmsg) : dmsg := Msg (mtype_of (rm_kind m)) k m.

Definition dretire (d : db) (r : txnid) (e : devent) : option clients :=
  do ms <- mstep (d_ms d) (MFinish r);
  Some (mkClients ms (ddel r (d_txns d)) (drop_locks r (d_lock d)) (e :: d_trace d)).

Definition cstep (d : db) (o : cop) : option (clients * option dmsg) :=
  let same := mkClients (d_ms d) (d_txns d) (d_lock d) (d_trace d) in
  let with_ms ms := mkClients ms (d_txns d) (d_lock d) (d_trace d) in
  let with_txn t es := mkClients (d_ms d) (dset t (d_txns d)) (d_lock d) (es ++ d_trace d) in
  match o with
  | CBegin ro rec =>
      do ms <- mstep (d_ms d) (MBegin ro rec);
      do nr <- match rev (ms_roots ms) with r :: _ => Some r | [] => None end;
      let x := r_xid nr in
      Some (mkClients ms (d_txns d ++ [mkDtxn x [mkDlevel x []] TXNID_NONE QActive]) (d_lock d)
              (match r_snap nr with Some s => [DvSnap (s_id s)] | None => [] end ++ DvBegin x :: d_trace d), None)
  | CChildSnap r =>
      do ms <- mstep (d_ms d) (MChildSnap r);
      do p <- match rev (ms_child ms) with p :: _ => Some p | [] => None end;
      Some (mkClients ms (d_txns d) (d_lock d) (DvSnap (s_id (snd p)) :: d_trace d), None)
  | CChildSnapEnd s => do ms <- mstep (d_ms d) (MChildSnapEnd s); Some (with_ms ms, None)
  | CChild r =>
      do t <- dfind r (d_txns d);
      let x := dnext_child t in
      Some (with_txn (mkDtxn r (mkDlevel x [] :: d_levels t) x (d_phase t)) [DvChild r], None)
  | CLock r k => Some (mkClients (d_ms d) (d_txns d) (take_lock k r (d_lock d)) (d_trace d), None)
  | CWrite r k w =>
      do ms <- mstep (d_ms d) (MWrite r);
      do t <- dfind r (d_txns d);
      let t' := mkDtxn r (dpush (k, went w) (d_levels t)) (d_last t) (d_phase t) in
      Some (mkClients ms (dset t' (d_txns d)) (take_lock k r (d_lock d)) (DvWrite r k w :: d_trace d),
            Some (key_msg k (mkRmsg (wmsg w) (dchain t))))
  | CChildCommit r =>
      do t <- dfind r (d_txns d);
      Some (with_txn (mkDtxn r (dmerge (d_levels t)) (d_last t) (d_phase t)) [DvChildCommit r], None)
  | CAbort r =>
      do t <- dfind r (d_txns d);
      do l <- hd_error (d_levels t);
      Some (with_txn (mkDtxn r (d_levels t) (d_last t) (QAbort (dl_ents l))) [], None)
  | CAbortMsg r =>
      do t <- dfind r (d_txns d);
      match d_phase t with
      | QAbort ((k, _) :: todo) =>
          Some (with_txn (mkDtxn r (d_levels t) (d_last t) (QAbort todo)) [],
                Some (key_msg k (mkRmsg KAbort (dchain t))))
      | _ => None
      end
  | CAbortDone r =>
      do t <- dfind r (d_txns d);
      match d_levels t with
      | [] => None
      | [_] => do x <- dretire d r (DvAbort r); Some (x, None)
      | _ :: ls => Some (with_txn (mkDtxn r ls (d_last t) QActive) [DvChildAbort r], None)
      end
  | CCommit r =>
      do t <- dfind r (d_txns d);
      do l <- hd_error (d_levels t);
      Some (with_txn (mkDtxn r (d_levels t) (d_last t) (QCommit (dl_ents l))) [], None)
  | CCommitMsg r =>
      do t <- dfind r (d_txns d);
      match d_phase t with
      | QCommit ((k, b) :: todo) =>
          Some (with_txn (mkDtxn r (d_levels t) (d_last t) (QCommit todo)) [],
                if b then Some (key_msg k (mkRmsg KCommit (dchain t))) else None)
      | _ => None
      end
  | CCommitDone r => do x <- dretire d r (DvCommit r); Some (x, None)
  | COptimize i =>
      do l <- nth_error (d_looks d) i;
      Some (same, Some (key_msg [] (mkRmsg KOpt (optimize_xids (lk_mgr l)))))
  end.

(** ** The tree *)

(** The looks an action may choose from: the oldest referenced id estimate is one
    that was computed earlier (toku_txn_manager_get_oldest_referenced_xid_estimate,
    ft/txn/txn_manager.cc). *)
Record zsel := mkZ { z_ini : bool; z_simple : nat }.

(** Where and how a message is injected; [i_promo]: the estimate read at the start
    of the call (ft/ft-ops.cc:2310-2330, 2397-2410), compared with the node's. *)
Record inj := mkInj { i_sel : zsel; i_promo : nat; i_keep : bool; i_path : list nat }.

(** Actions of the tree other than injection; they find their garbage collection
    information themselves. *)
Inductive top :=
| TQuery (z : zsel) (k : bytes)
| TLockChain (path : list nat)
| TLockCleaner (path : list nat)
| TUnlock (path : list nat)
| TFlush (z : zsel) (path : list nat) (i : nat)
| TSplit (path : list nat) (i : nat) (w : smode)
| TMerge (z z' : zsel) (path : list nat) (i : nat) (w : how)
| TNewRoot
| TWriteLeaf (zm zd : option zsel) (path : list nat) (cuts : list nat)
| TEvict (path : list nat) (j : nat)
| TFetch (path : list nat) (j : nat)
| TMoveStale (path : list nat) (i : nat).

(** The transaction manager now, [n] messages having been sent. *)
Definition now (n : nat) (ms : msys) : look := mkLook n (ms_mgr ms) (ms_hist ms).

(** The newer of two bounds: ft/ft-ops.cc:1455-1459. *)
Definition newer (a : look) (v : look) : look :=
  if (m_oldest (lk_mgr v) <? m_oldest (lk_mgr a))%N then a else v.

(** The information for the node reached by [path]: a fresh clone, an estimate and
    the node's own bound (toku_bnc_flush_to_child, ft/ft-flusher.cc:1551-1567;
    toku_apply_ancestors_messages_to_node, ft/node.cc:588-597;
    toku_ftnode_leaf_run_gc, ft/node.cc:1991-2019). *)
Definition info (d : db) (z : zsel) (path : list nat) : res ginfo :=
  match nth_error (d_looks d) (z_simple z), onode path (d_ork d) with
  | Some a, Some o => Ok (mkGinfo (z_ini z) (now (length (d_sent d)) (d_ms d)) a (oval o))
  | _, _ => Block
  end.
Definition info_opt (d : db) (z : option zsel) (path : list nat) : res (option ginfo) :=
  match z with None => Ok None | Some z => rdo g <- info d z path; Ok (Some g) end.

Definition tree_op (d : db) (o : top) : res (FtModel.op E) :=
  match o with
  | TQuery z k =>
    rdo g <- info d z (path_to (height (s_tree (d_tree d))) k (s_tree (d_tree d))); Ok (OQuery (E:=E) g k)
  | TLockChain p => Ok (OLockChain p)
  | TLockCleaner p => Ok (OLockCleaner p)
  | TUnlock p => Ok (OUnlock p)
  | TFlush z p i => rdo g <- info d z (p ++ [i]); Ok (OFlush (E:=E) g p i)
  | TSplit p i w => Ok (OSplit p i w)
  | TMerge z z' p i w =>
    rdo g <- info d z (p ++ [i]); rdo g' <- info d z' (p ++ [S i]); Ok (OMerge (E:=E) g g' p i w)
  | TNewRoot => Ok ONewRoot
  | TWriteLeaf zm zd p cuts =>
    rdo gm <- info_opt d zm p; rdo gd <- info_opt d zd p; Ok (OWriteLeaf (E:=E) gm gd p cuts)
  | TEvict p j => Ok (OEvict p j)
  | TFetch p j => Ok (OFetch p j)
  | TMoveStale p i => Ok (OMoveStale p i)
  end.

(** ** The system *)
Inductive dop :=
| DLook                            (* an estimate is computed *)
| DClient (o : cop) (j : inj)
| DTree (o : top).

Definition none_of (d : db) : look :=
  match d_looks d with l :: _ => l | [] => mkLook 0 (mgr_init TXNID_NONE) [] end.

(** One step; for a query also what is stored for the key. *)
Definition dstep (d : db) (o : dop) : res (db * option (option stored)) :=
  match o with
  | DLook =>
    Ok (mkDb (d_ms d) (d_txns d) (d_lock d) (d_sent d)
          (d_looks d ++ [now (length (d_sent d)) (d_ms d)]) (d_trace d) (d_tree d) (d_ork d), None)
  | DClient o j =>
    rdo (x, om) <- must (cstep d o);
    match om with
    | None => Ok (mkDb (c_ms x) (c_txns x) (c_lock x) (d_sent d) (d_looks d) (c_trace x) (d_tree d) (d_ork d), None)
    | Some m =>
      (* the clone is made while the message is applied *)
      let l := now (S (length (d_sent d))) (c_ms x) in
      match nth_error (d_looks d) (z_simple (i_sel j)), nth_error (d_looks d) (i_promo j), onode (i_path j) (d_ork d) with
      | Some a, Some b, Some v =>
        let op := OInject (E:=E) (mkGinfo (z_ini (i_sel j)) l a (newer b (oval v))) m (i_keep j) (i_path j) in
        rdo (t, _) <- step op (d_tree d);
        Ok (mkDb (c_ms x) (c_txns x) (c_lock x) (d_sent d ++ [(m, ms_hist (c_ms x))]) (d_looks d ++ [l]) (c_trace x) t
              (ostep (none_of d) (newer b) op (s_tree (d_tree d)) (d_ork d)), None)
      | _, _, _ => Block
      end
    end
  | DTree o =>
    rdo op <- tree_op d o;
    rdo (t, r) <- step op (d_tree d);
    Ok (mkDb (d_ms d) (d_txns d) (d_lock d) (d_sent d) (d_looks d ++ [now (length (d_sent d)) (d_ms d)]) (d_trace d) t
          (ostep (none_of d) (fun v => v) op (s_tree (d_tree d)) (d_ork d)), r)
  end.

(** ** What clients may do: as in MvccModel.v ([rop_legal]) *)
Definition dactive (d : db) (r : txnid) : Prop := exists t, dfind r (d_txns d) = Some t /\ d_phase t = QActive.
Definition dwritable (d : db) (r : txnid) : Prop := exists rt, find_root r (ms_roots (d_ms d)) = Some rt /\ r_ro rt = false.
Definition dlockable (d : db) (r : txnid) (k : bytes) : Prop := d_lock d k = None \/ d_lock d k = Some r.
Definition dno_child_snaps (d : db) (r : txnid) : Prop := forall n, ~ In (r, n) (ms_child (d_ms d)).

Definition cop_legal (d : db) (o : cop) : Prop :=
  match o with
  | CBegin _ _ => True
  | CChildSnap r => dactive d r
  | CChildSnapEnd s => exists x n, In (x, n) (ms_child (d_ms d)) /\ s_id n = s
  | CChild r => exists t, dfind r (d_txns d) = Some t /\ d_phase t = QActive
                          /\ length (d_levels t) < MAX_NESTED_TRANSACTIONS /\ (d_last t + 2 < 2 ^ 64)%N
  | CLock r k => dactive d r /\ dlockable d r k
  | CWrite r k w => dactive d r /\ dwritable d r /\ dlockable d r k /\ wkind_ok w
  | CChildCommit r => exists t, dfind r (d_txns d) = Some t /\ d_phase t = QActive /\ 1 < length (d_levels t)
  | CAbort r => dactive d r
  | CAbortMsg r => exists t e todo, dfind r (d_txns d) = Some t /\ d_phase t = QAbort (e :: todo)
  | CAbortDone r => exists t, dfind r (d_txns d) = Some t /\ d_phase t = QAbort []
                          /\ (1 < length (d_levels t) \/ dno_child_snaps d r)
  | CCommit r => exists t, dfind r (d_txns d) = Some t /\ d_phase t = QActive /\ length (d_levels t) = 1
  | CCommitMsg r => exists t e todo, dfind r (d_txns d) = Some t /\ d_phase t = QCommit (e :: todo)
  | CCommitDone r => (exists t, dfind r (d_txns d) = Some t /\ d_phase t = QCommit []) /\ dno_child_snaps d r
  | COptimize i => exists l, nth_error (d_looks d) i = Some l
                     /\ (m_live (lk_mgr l) <> [] \/ lk_n l = length (d_sent d))
  end.
Definition dop_legal (d : db) (o : dop) : Prop := match o with DClient o _ => cop_legal d o | _ => True end.

Inductive dreach (last : txnid) : db -> Prop :=
| dreach_init : (last < TXNID_MAX)%N -> dreach last (db_init last)
| dreach_step d o d' r : dreach last d -> dop_legal d o -> ids_left (d_ms d) ->
    dstep d o = Ok (d', r) -> dreach last d'.

(** Any number of further steps. *)
Inductive dsteps : db -> db -> Prop :=
| dst_refl d : dsteps d d
| dst_step d o d1 r d' : dop_legal d o -> ids_left (d_ms d) -> dstep d o = Ok (d1, r) -> dsteps d1 d' -> dsteps d d'.

(** Reading what is stored (MvccModel.v's [row_read] of a leaf entry). *)
Definition entry (v : option stored) : option (option ule) :=
  match v with None => Some None | Some None => None | Some (Some u) => Some (Some u) end.
End Db.
Arguments d_ms {c}. Arguments d_txns {c}. Arguments d_lock {c}. Arguments d_sent {c}. Arguments d_looks {c}.
Arguments d_trace {c}. Arguments d_tree {c}. Arguments d_ork {c}.
