(** One row of a dictionary under the whole transaction machinery: transactions
    begin, nest, write, commit and abort; the messages they send are applied
    later, one by one, to copies of the leaf entry, with garbage collection
    driven by earlier looks at the transaction manager.

    Definitions only. *)
From Verif Require Import Base UleModel MgrModel.
Open Scope N_scope.

Definition val := list N.

(** * Messages for one row *)

(** The messages a transaction (or DB->optimize) sends to a row, ft/msg.h:56-76.
    [KUpd f] is FT_UPDATE: [f old] is what the user's update function does when
    called with the old value ([None] when there is none): [None] it sets no value,
    [Some None] it deletes, [Some (Some v)] it stores [v]. *)
Inductive kind :=
| KIns (v : val)
| KInsNo (v : val)
| KDel
| KAbort
| KCommit
| KOpt
| KUpd (f : option val -> option (option val)).

Record rmsg := mkRmsg { rm_kind : kind; rm_xids : xids }.

(** ft/node.cc:1334-1342: the old value handed to the update function
    (le_latest_is_del / le_latest_val_and_len look at the innermost record). *)
Definition latest_val (o : option ule) : option (option val) :=
  match o with
  | None => Some None
  | Some u => do i <- ule_innermost u;
              Some (match ux_xr i with XIns v => Some v | _ => None end)
  end.

(** ft/leafentry.cc le_is_clean, ule.cc:1218-1223: packed as LE_CLEAN. *)
Definition is_clean (u : ule) : bool := (length (cx u) =? 1)%nat && is_nil (px u).

(** ft/node.cc:1376-1590 toku_ft_bn_apply_msg for the leaf entry of one key;
    setval_fun (1257-1285) turns an update into an insert or a delete.  The row
    count delta is not kept. *)
Definition row_apply (m : rmsg) (old : option ule) (gi : gc_info) : option (option ule) :=
  let go t := do (o, _) <- le_apply_msg (mkUmsg t (rm_xids m)) old gi; Some o in
  match rm_kind m with
  | KIns v => go (FT_INSERT v)
  | KInsNo v => go (FT_INSERT_NO_OVERWRITE v)
  | KDel => if is_some old then go FT_DELETE_ANY else Some None
  | KAbort => if is_some old then go FT_ABORT_ANY else Some None
  | KCommit => if is_some old then go FT_COMMIT_ANY else Some None
  | KOpt => match old with
            | None => Some None
            | Some u => if is_clean u then Some old else go FT_OPTIMIZE
            end
  | KUpd f =>
      do v <- latest_val old;
      match f v with
      | None => Some old
      | Some (Some w) => go (FT_INSERT w)
      | Some None => go FT_DELETE_ANY
      end
  end.

(** * The system *)

(** One level of a nested transaction: its id and, newest first, its rollback
    entries for this row: [true] for cmddelete, [false] for cmdinsert and
    cmdupdate (ft/txn/roll.cc:345-430). *)
Record level := mkLevel { lv_xid : txnid; lv_ents : list bool }.

(** What a root transaction is doing.  [PCommit]: applying its rollback entries on
    commit; [PAbort n]: the innermost level is aborting, [n] entries to go
    (ft/txn/rollback-apply.cc:82-151 apply_txn). *)
Inductive phase := PActive | PCommit (todo : list bool) | PAbort (todo : nat).

(** A root transaction with its chain of open children, innermost first (a
    transaction has at most one child, src/ydb_txn.cc:421), and
    txn_child_manager::m_last_xid. *)
Record rtxn := mkRtxn {
  t_root : txnid;
  t_levels : list level;
  t_last : txnid;
  t_phase : phase
}.

(** The xids stack of a transaction, outermost first (ft/txn/xids.cc:125-138). *)
Definition chain (t : rtxn) : xids := rev (map lv_xid (t_levels t)).

(** ft/txn/txn_child_manager.cc:79-102 start_child_txn. *)
Definition next_child (t : rtxn) : txnid :=
  let x := t_last t + 1 in if x =? t_root t then x + 1 else x.

(** A look at the transaction manager: the number of messages sent to the row so
    far and the manager.  From it come the state cloned for garbage collection
    (txn_manager_state::init), the oldest referenced id estimate and the oldest
    living id.  [ob_hist] is the history at that moment; no step depends on it. *)
Record obs := mkObs { ob_n : nat; ob_mgr : mgr; ob_hist : list event }.

(** What a row write does. *)
Inductive wkind := WPut (v : val) | WPutNew (v : val) | WDel | WUpd (f : option val -> option (option val)).

(** What happened, as seen by the users of the row. *)
Inductive revent :=
| VBegin (r : txnid)
| VChild (r : txnid)
| VWrite (r : txnid) (w : wkind)
| VChildCommit (r : txnid)
| VChildAbort (r : txnid)
| VCommit (r : txnid)
| VAbort (r : txnid)
| VSnap (s : txnid).

(** [y_msgs]: every message sent to the row, in MSN order, with the history when
    it was sent (used by no step).  [y_copies]: copies of the leaf entry, in
    memory or on disk, with the number of messages each has absorbed. *)
Record rsys := mkRsys {
  y_ms : msys;
  y_txns : list rtxn;
  y_lock : option txnid;
  y_msgs : list (rmsg * list event);
  y_copies : list (nat * option ule);
  y_obs : list obs;
  y_trace : list revent       (* newest first *)
}.

Definition rsys_init (last : txnid) : rsys :=
  mkRsys (msys_init last) [] None [] [(O, None)] [mkObs 0 (mgr_init last) []] [].

(** Which looks at the transaction manager an application uses: for the cloned
    state (with the [initialized] flag of the lazily made clone), for the simple
    garbage collection bound and for the implicit promotion bound. *)
Record gcsel := mkSel { gs_state : option (bool * nat); gs_simple : nat; gs_promo : nat }.

Inductive rop :=
| OBegin (read_only records : bool)
| OChildSnap (r : txnid)
| OChildSnapEnd (s : txnid)
| OTouch (r : txnid)                    (* a write to some other row *)
| OChild (r : txnid)
| OReadLock (r : txnid)
| OWrite (r : txnid) (w : wkind)
| OChildCommit (r : txnid)
| OAbort (r : txnid)
| OAbortMsg (r : txnid)
| OAbortDone (r : txnid)
| OCommit (r : txnid)
| OCommitMsg (r : txnid)
| OCommitDone (r : txnid)
| OObserve
| OOptimize (i : nat)
| OApply (j : nat) (s : gcsel)
| OGc (j : nat) (s : gcsel).

Definition find_txn (r : txnid) (ts : list rtxn) : option rtxn :=
  find (fun t => t_root t =? r) ts.

Definition set_txn (t : rtxn) (ts : list rtxn) : list rtxn :=
  map (fun t' => if t_root t' =? t_root t then t else t') ts.

Definition del_txn (r : txnid) (ts : list rtxn) : list rtxn :=
  filter (fun t => negb (t_root t =? r)) ts.

(** The message of a write and the kind of its rollback entry:
    ft/ft-ops.cc:2379-2410 (insert), 2452-2470 (update), 2560-2575 (delete). *)
Definition wmsg (w : wkind) : kind :=
  match w with WPut v => KIns v | WPutNew v => KInsNo v | WDel => KDel | WUpd f => KUpd f end.
Definition went (w : wkind) : bool := match w with WDel => true | _ => false end.

Definition push_ent (b : bool) (ls : list level) : list level :=
  match ls with [] => [] | l :: ls' => mkLevel (lv_xid l) (b :: lv_ents l) :: ls' end.

(** ft/txn/rollback-apply.cc:155-243: the child's entries go in front of the
    parent's. *)
Definition merge_ents (ls : list level) : list level :=
  match ls with
  | c :: p :: ls' => mkLevel (lv_xid p) (lv_ents c ++ lv_ents p) :: ls'
  | _ => ls
  end.

Definition with_ms (y : rsys) (ms : msys) : rsys :=
  mkRsys ms (y_txns y) (y_lock y) (y_msgs y) (y_copies y) (y_obs y) (y_trace y).
Definition with_txn (y : rsys) (t : rtxn) : rsys :=
  mkRsys (y_ms y) (set_txn t (y_txns y)) (y_lock y) (y_msgs y) (y_copies y) (y_obs y) (y_trace y).
Definition send (y : rsys) (m : rmsg) : rsys :=
  mkRsys (y_ms y) (y_txns y) (y_lock y) (y_msgs y ++ [(m, ms_hist (y_ms y))])
         (y_copies y) (y_obs y) (y_trace y).
Definition note (y : rsys) (e : revent) : rsys :=
  mkRsys (y_ms y) (y_txns y) (y_lock y) (y_msgs y) (y_copies y) (y_obs y) (e :: y_trace y).
Definition lock (y : rsys) (o : option txnid) : rsys :=
  mkRsys (y_ms y) (y_txns y) o (y_msgs y) (y_copies y) (y_obs y) (y_trace y).

(** The root transaction is gone, its row lock with it (src/ydb_txn.cc:133-134,
    182-183: the transaction manager first, then the locks; one step here). *)
Definition retire (y : rsys) (r : txnid) : option rsys :=
  do ms <- mstep (y_ms y) (MFinish r);
  Some (mkRsys ms (del_txn r (y_txns y))
          (match y_lock y with Some q => if q =? r then None else Some q | None => None end)
          (y_msgs y) (y_copies y) (y_obs y) (y_trace y)).

(** txn_gc_info, ft/txn/txn_manager.h:106-140, from the chosen looks. *)
Definition mk_gi (os : list obs) (s : gcsel) : option gc_info :=
  do a <- nth_error os (gs_simple s);
  do b <- nth_error os (gs_promo s);
  do st <- match gs_state s with
           | None => Some None
           | Some (ini, i) => do o <- nth_error os i; Some (Some (ini, clone_for_gc (ob_mgr o)))
           end;
  Some (mkGcInfo st (m_oldest (ob_mgr a)) (m_oldest (ob_mgr b)) true).

(** ft/ft-ops.cc:2311-2330 toku_ft_optimize; oldest living id of txn_manager.cc:284-299. *)
Definition optimize_xids (m : mgr) : xids :=
  match m_live m with [] => [] | x :: _ => [x] end.

Definition rstep (y : rsys) (o : rop) : option rsys :=
  match o with
  | OBegin ro rec =>
      do ms <- mstep (y_ms y) (MBegin ro rec);
      do nr <- match rev (ms_roots ms) with r :: _ => Some r | [] => None end;
      let x := r_xid nr in
      let y1 := note (mkRsys ms (y_txns y ++ [mkRtxn x [mkLevel x []] TXNID_NONE PActive])
                        (y_lock y) (y_msgs y) (y_copies y) (y_obs y) (y_trace y)) (VBegin x) in
      Some (match r_snap nr with Some s => note y1 (VSnap (s_id s)) | None => y1 end)
  | OChildSnap r =>
      do ms <- mstep (y_ms y) (MChildSnap r);
      do p <- match rev (ms_child ms) with p :: _ => Some p | [] => None end;
      Some (note (with_ms y ms) (VSnap (s_id (snd p))))
  | OChildSnapEnd s => do ms <- mstep (y_ms y) (MChildSnapEnd s); Some (with_ms y ms)
  | OTouch r => do ms <- mstep (y_ms y) (MWrite r); Some (with_ms y ms)
  | OChild r =>
      do t <- find_txn r (y_txns y);
      let c := next_child t in
      Some (note (with_txn y (mkRtxn r (mkLevel c [] :: t_levels t) c (t_phase t))) (VChild r))
  | OReadLock r => Some (lock y (Some r))
  | OWrite r w =>
      do ms <- mstep (y_ms y) (MWrite r);
      do t <- find_txn r (y_txns y);
      let t' := mkRtxn r (push_ent (went w) (t_levels t)) (t_last t) (t_phase t) in
      Some (note (send (lock (with_txn (with_ms y ms) t') (Some r)) (mkRmsg (wmsg w) (chain t)))
                 (VWrite r w))
  | OChildCommit r =>
      do t <- find_txn r (y_txns y);
      Some (note (with_txn y (mkRtxn r (merge_ents (t_levels t)) (t_last t) (t_phase t)))
                 (VChildCommit r))
  | OAbort r =>
      do t <- find_txn r (y_txns y);
      do l <- hd_error (t_levels t);
      Some (with_txn y (mkRtxn r (t_levels t) (t_last t) (PAbort (length (lv_ents l)))))
  | OAbortMsg r =>
      do t <- find_txn r (y_txns y);
      match t_phase t with
      | PAbort (S n) =>
          Some (send (with_txn y (mkRtxn r (t_levels t) (t_last t) (PAbort n)))
                     (mkRmsg KAbort (chain t)))
      | _ => None
      end
  | OAbortDone r =>
      do t <- find_txn r (y_txns y);
      match t_levels t with
      | [] => None
      | [_] => do y' <- retire y r; Some (note y' (VAbort r))
      | _ :: ls => Some (note (with_txn y (mkRtxn r ls (t_last t) PActive)) (VChildAbort r))
      end
  | OCommit r =>
      do t <- find_txn r (y_txns y);
      do l <- hd_error (t_levels t);
      Some (with_txn y (mkRtxn r (t_levels t) (t_last t) (PCommit (lv_ents l))))
  | OCommitMsg r =>
      do t <- find_txn r (y_txns y);
      match t_phase t with
      | PCommit (b :: todo) =>
          let y' := with_txn y (mkRtxn r (t_levels t) (t_last t) (PCommit todo)) in
          Some (if b then send y' (mkRmsg KCommit (chain t)) else y')
      | _ => None
      end
  | OCommitDone r => do y' <- retire y r; Some (note y' (VCommit r))
  | OObserve =>
      Some (mkRsys (y_ms y) (y_txns y) (y_lock y) (y_msgs y) (y_copies y)
              (y_obs y ++ [mkObs (length (y_msgs y)) (ms_mgr (y_ms y)) (ms_hist (y_ms y))])
              (y_trace y))
  | OOptimize i =>
      do ob <- nth_error (y_obs y) i;
      Some (send y (mkRmsg KOpt (optimize_xids (ob_mgr ob))))
  | OApply j s =>
      do (k, le) <- nth_error (y_copies y) j;
      do (m, _) <- nth_error (y_msgs y) k;
      do gi <- mk_gi (y_obs y) s;
      do le' <- row_apply m le gi;
      Some (mkRsys (y_ms y) (y_txns y) (y_lock y) (y_msgs y) (y_copies y ++ [(S k, le')])
              (y_obs y) (y_trace y))
  | OGc j s =>
      do (k, le) <- nth_error (y_copies y) j;
      do gi <- mk_gi (y_obs y) s;
      do u <- le;
      do le' <- le_garbage_collect u gi;
      Some (mkRsys (y_ms y) (y_txns y) (y_lock y) (y_msgs y) (y_copies y ++ [(k, le')])
              (y_obs y) (y_trace y))
  end.

(** * What clients and the tree may do *)

Definition wkind_ok (w : wkind) : Prop :=
  match w with
  | WPut v | WPutNew v => N.of_nat (length v) < 2 ^ 31
  | WDel => True
  | WUpd f => forall o v, f o = Some (Some v) -> N.of_nat (length v) < 2 ^ 31
  end.

(** The looks used for a copy that has absorbed [k] messages: a cloned state was
    taken after those messages were sent (it is made while they are being applied,
    ft/ft-flusher.cc:1551-1620, ft/node.cc:560-640); when the promotion bound was
    read, no message was sent that the copy still lacks (ft/ft-ops.cc:1434-1480 and
    oldest_referenced_xid_known of the nodes). *)
Definition sel_legal (os : list obs) (k : nat) (s : gcsel) : Prop :=
  (exists a, nth_error os (gs_simple s) = Some a)
  /\ (exists b, nth_error os (gs_promo s) = Some b /\ (ob_n b <= k)%nat)
  /\ match gs_state s with
     | None => True
     | Some (_, i) => exists c, nth_error os i = Some c /\ (k <= ob_n c)%nat
     end.

Definition active (y : rsys) (r : txnid) : Prop :=
  exists t, find_txn r (y_txns y) = Some t /\ t_phase t = PActive.

Definition writable (y : rsys) (r : txnid) : Prop :=
  exists rt, find_root r (ms_roots (y_ms y)) = Some rt /\ r_ro rt = false.

(** The row lock can be had by [r]. *)
Definition lockable (y : rsys) (r : txnid) : Prop := y_lock y = None \/ y_lock y = Some r.

Definition no_child_snaps (y : rsys) (r : txnid) : Prop := forall n, ~ In (r, n) (ms_child (y_ms y)).

Definition rop_legal (y : rsys) (o : rop) : Prop :=
  match o with
  | OBegin _ _ => True
  | OChildSnap r => active y r
  | OChildSnapEnd s => exists x n, In (x, n) (ms_child (y_ms y)) /\ s_id n = s
  | OTouch r => active y r /\ writable y r
  (* toku_xids_can_create_child, ft/txn/xids.cc:92-95 *)
  | OChild r => exists t, find_txn r (y_txns y) = Some t /\ t_phase t = PActive
                          /\ (length (t_levels t) < MAX_NESTED_TRANSACTIONS)%nat
                          /\ t_last t + 2 < 2 ^ 64
  | OReadLock r => active y r /\ lockable y r
  | OWrite r w => active y r /\ writable y r /\ lockable y r /\ wkind_ok w
  | OChildCommit r => exists t, find_txn r (y_txns y) = Some t /\ t_phase t = PActive
                          /\ (1 < length (t_levels t))%nat
  | OAbort r => active y r
  | OAbortMsg r => exists t n, find_txn r (y_txns y) = Some t /\ t_phase t = PAbort (S n)
  | OAbortDone r => exists t, find_txn r (y_txns y) = Some t /\ t_phase t = PAbort 0
                          /\ ((1 < length (t_levels t))%nat \/ no_child_snaps y r)
  | OCommit r => exists t, find_txn r (y_txns y) = Some t /\ t_phase t = PActive
                          /\ length (t_levels t) = 1%nat
  | OCommitMsg r => exists t b todo, find_txn r (y_txns y) = Some t /\ t_phase t = PCommit (b :: todo)
  | OCommitDone r => (exists t, find_txn r (y_txns y) = Some t /\ t_phase t = PCommit [])
                     /\ no_child_snaps y r
  | OObserve => True
  (* the oldest living id was read while no later message was sent, or there was a
     living transaction *)
  | OOptimize i => exists ob, nth_error (y_obs y) i = Some ob
                     /\ (m_live (ob_mgr ob) <> [] \/ ob_n ob = length (y_msgs y))
  | OApply j s => exists k le, nth_error (y_copies y) j = Some (k, le)
                     /\ (k < length (y_msgs y))%nat /\ sel_legal (y_obs y) (S k) s
  | OGc j s => exists k u, nth_error (y_copies y) j = Some (k, Some u)
                     /\ sel_legal (y_obs y) k s /\ gs_state s <> None
  end.

Inductive rreach (last : txnid) : rsys -> Prop :=
| rreach_init : last < TXNID_MAX -> rreach last (rsys_init last)
| rreach_step y o y' : rreach last y -> rop_legal y o -> ids_left (y_ms y) ->
    rstep y o = Some y' -> rreach last y'.
