(** Checkpoints, the log and recovery: ft/logger/recover.cc, with the parts of the
    running system that decide what is in the log and on disk
    (ft/cachetable/cachetable.cc, ft/ft.cc, ft/txn/txn.cc, ft/txn/rollback-apply.cc,
    ft/txn/roll.cc, ft/ft-ops.cc).

    Definitions only.

    A dictionary is the list of the messages it has absorbed (what those mean for
    its rows is MvccModel.v).  An LSN is the position of a record in the log,
    counted from 1 (ft/logger/logger.cc hands them out one by one).

    Not modelled: creating, deleting, renaming and loading dictionaries; hot
    indexing; descriptors; the log records of multiple-dictionary operations and of
    broadcast updates; transactions that never log their begin (they send no
    message, ft/cachetable/cachetable.cc:2715-2717 skips them). *)
From Verif Require Import Base UleModel MgrModel MvccModel.
Open Scope N_scope.

Definition fnum := N.      (* FILENUM *)
Definition fname := N.     (* name of a dictionary in the environment *)
Definition rkey := list N.

Definition rkey_eqb (a b : rkey) : bool := if list_eq_dec N.eq_dec a b then true else false.

Definition memb (n : fnum) (l : list fnum) : bool := existsb (N.eqb n) l.

(** The messages a dictionary has absorbed, oldest first. *)
Definition mlist := list (rkey * rmsg).

(** * Transactions *)

(** A rollback entry, cmdinsert / cmdupdate ([false]) or cmddelete ([true]):
    ft/txn/roll.cc:345-430. *)
Record ent := mkEnt { en_fn : fnum; en_key : rkey; en_del : bool }.

(** One level of a transaction: its id, its rollback entries, newest first, and the
    dictionaries it has used (TOKUTXN::open_fts). *)
Record rlevel := mkRl { rl_xid : txnid; rl_ents : list ent; rl_fts : list fnum }.

(** A root transaction with its chain of children, innermost first;
    [pt_prep]: its state is TOKUTXN_PREPARING. *)
Record ptxn := mkPt { pt_root : txnid; pt_levels : list rlevel; pt_prep : bool }.

Definition pt_chain (t : ptxn) : xids := rev (map rl_xid (pt_levels t)).

(** The id of the innermost level as a TXNID_PAIR: the child part is TXNID_NONE
    for a root. *)
Definition pt_child (t : ptxn) : txnid :=
  match pt_levels t with l :: _ :: _ => rl_xid l | _ => TXNID_NONE end.

Definition find_pt (r : txnid) (ts : list ptxn) : option ptxn :=
  find (fun t => pt_root t =? r) ts.
Definition set_pt (t : ptxn) (ts : list ptxn) : list ptxn :=
  map (fun t' => if pt_root t' =? pt_root t then t else t') ts.
Definition del_pt (r : txnid) (ts : list ptxn) : list ptxn :=
  filter (fun t => negb (pt_root t =? r)) ts.

(** live_root_txns is sorted by id (ft/txn/txn_manager.cc:588-591). *)
Fixpoint ins_pt (t : ptxn) (ts : list ptxn) : list ptxn :=
  match ts with
  | [] => [t]
  | u :: ts' => if pt_root t <? pt_root u then t :: ts else u :: ins_pt t ts'
  end.

(** toku_txnid2txn (ft/txn/txn_manager.cc:850-880) for a transaction without
    children: its root with the innermost level on top. *)
Definition find_inner (r c : txnid) (ts : list ptxn) : option ptxn :=
  do t <- find_pt r ts; guard (pt_child t =? c); Some t.

(** toku_txn_maybe_note_ft, ft/txn/rollback.cc:219-236. *)
Definition note_fn (fn : fnum) (l : list fnum) : list fnum := if memb fn l then l else fn :: l.

(** Saving a rollback entry: toku_logger_save_rollback_cmd*, then maybe_note_ft. *)
Definition push_rent (e : ent) (t : ptxn) : ptxn :=
  match pt_levels t with
  | [] => t
  | l :: ls => mkPt (pt_root t)
                 (mkRl (rl_xid l) (e :: rl_ents l) (note_fn (en_fn e) (rl_fts l)) :: ls) (pt_prep t)
  end.

(** toku_rollback_commit of a child, ft/txn/rollback-apply.cc:155-236: its entries go
    in front of the parent's, its dictionaries to the parent. *)
Definition merge_child (t : ptxn) : ptxn :=
  match pt_levels t with
  | c :: p :: ls => mkPt (pt_root t)
      (mkRl (rl_xid p) (rl_ents c ++ rl_ents p) (fold_right note_fn (rl_fts p) (rl_fts c)) :: ls)
      (pt_prep t)
  | _ => t
  end.

Definition pop_level (t : ptxn) : ptxn := mkPt (pt_root t) (tl (pt_levels t)) (pt_prep t).

(** Does some transaction hold a reference on the dictionary? (ft/ft.cc:921-955) *)
Definition used_by (fn : fnum) (ts : list ptxn) : bool :=
  existsb (fun t => existsb (fun l => memb fn (rl_fts l)) (pt_levels t)) ts.

(** * Open dictionaries *)

(** [of_lsn] is h->checkpoint_lsn, [of_dirty] is h->dirty (set when a page changes). *)
Record ofile := mkOf { of_name : fname; of_msgs : mlist; of_lsn : nat; of_dirty : bool }.

Definition files := list (fnum * ofile).

Fixpoint flook (fn : fnum) (fs : files) : option ofile :=
  match fs with [] => None | (n, f) :: fs' => if n =? fn then Some f else flook fn fs' end.
Definition fset (fn : fnum) (f : ofile) (fs : files) : files :=
  map (fun p => if fst p =? fn then (fst p, f) else p) fs.
Definition fdel (fn : fnum) (fs : files) : files := filter (fun p => negb (fst p =? fn)) fs.

(** Send a message to an open dictionary.  [op] is the LSN of the record being
    recovered: a dictionary whose header is at least as new has it already
    (ft/ft-ops.cc:2425-2427, 2610-2612; ft/txn/roll.cc:307-313). *)
Definition put (op : option nat) (fn : fnum) (m : rkey * rmsg) (fs : files) : option files :=
  do f <- flook fn fs;
  let skip := match op with Some l => (l <=? of_lsn f)%nat | None => false end in
  Some (if skip then fs else fset fn (mkOf (of_name f) (of_msgs f ++ [m]) (of_lsn f) true) fs).

(** do_insertion, ft/txn/roll.cc:294-342: a dictionary the transaction has not open is
    skipped in recovery ([rc]) and an assertion failure otherwise. *)
Definition do_insertion (rc : bool) (op : option nat) (fts : list fnum) (fn : fnum)
    (k : rkey) (m : rmsg) (fs : files) : option files :=
  if memb fn fts then put op fn (k, m) fs else if rc then Some fs else None.

(** toku_commit_cmdinsert / cmdupdate do nothing, toku_commit_cmddelete sends
    FT_COMMIT_ANY (ft/txn/roll.cc:345-430, macros 59-70); newest first
    (rollback-apply.cc:82-151). *)
Fixpoint commit_ents (rc : bool) (op : option nat) (fts : list fnum) (x : xids)
    (es : list ent) (fs : files) : option files :=
  match es with
  | [] => Some fs
  | e :: es' =>
      do fs1 <- (if en_del e then do_insertion rc op fts (en_fn e) (en_key e) (mkRmsg KCommit x) fs
                 else Some fs);
      commit_ents rc op fts x es' fs1
  end.

(** toku_rollback_cmdinsert / cmdupdate / cmddelete send FT_ABORT_ANY. *)
Fixpoint abort_ents (rc : bool) (op : option nat) (fts : list fnum) (x : xids)
    (es : list ent) (fs : files) : option files :=
  match es with
  | [] => Some fs
  | e :: es' =>
      do fs1 <- do_insertion rc op fts (en_fn e) (en_key e) (mkRmsg KAbort x) fs;
      abort_ents rc op fts x es' fs1
  end.

(** toku_txn_commit_with_lsn and toku_txn_close_txn of the innermost level. *)
Definition commit_inner (rc : bool) (op : option nat) (t : ptxn) (ts : list ptxn) (fs : files)
  : option (list ptxn * files) :=
  match pt_levels t with
  | [] => None
  | [l] => do fs' <- commit_ents rc op (rl_fts l) (pt_chain t) (rl_ents l) fs;
           Some (del_pt (pt_root t) ts, fs')
  | _ => Some (set_pt (merge_child t) ts, fs)
  end.

(** toku_txn_abort_with_lsn and toku_txn_close_txn of the innermost level. *)
Definition abort_inner (rc : bool) (op : option nat) (t : ptxn) (ts : list ptxn) (fs : files)
  : option (list ptxn * files) :=
  match pt_levels t with
  | [] => None
  | l :: ls =>
      do fs' <- abort_ents rc op (rl_fts l) (pt_chain t) (rl_ents l) fs;
      Some (if is_nil ls then del_pt (pt_root t) ts else set_pt (pop_level t) ts, fs')
  end.

(** * The log *)

(** The records of ft/logger/logformat.cc:150-330 that are modelled.  Ids are
    (root, child) pairs; [LFassocRb] is the fassociate record of the rollback file;
    [LStill]'s [has] says whether the transaction has rollback nodes; [LComment true]
    is the comment "recover" (ft/logger/recover.cc:1621-1624). *)
Inductive lrec :=
| LBeginCk (last : txnid)
| LEndCk (b : nat) (nf nx : nat)
| LFassoc (fn : fnum) (nm : fname)
| LFassocRb
| LStill (r c : txnid) (par : option txnid) (has : bool) (fts : list fnum)
| LStillPrep (r : txnid) (has : bool) (fts : list fnum)
| LBegin (r c : txnid) (par : option txnid)
| LCommit (r c : txnid)
| LAbort (r c : txnid)
| LPrepare (r : txnid)
| LFopen (fn : fnum) (nm : fname)
| LFclose (fn : fnum) (nm : fname)
| LEnq (fn : fnum) (r c : txnid) (k : rkey) (w : wkind)
| LComment (recover : bool).

(** * Disk *)

(** Complete versions of a dictionary, newest first, each with the checkpoint LSN of
    its header (FtDiskModel.v is about how one becomes complete). *)
Definition ver := (nat * mlist)%type.

(** The rollback file: entries by transaction. *)
Definition rbmap := list ((txnid * txnid) * list ent).

Definition level_ids (t : ptxn) : list ((txnid * txnid) * list ent) :=
  map (fun l => ((pt_root t, rl_xid l), rl_ents l)) (pt_levels t).
Definition rb_of (ts : list ptxn) : rbmap :=
  filter (fun p => negb (is_nil (snd p))) (flat_map level_ids ts).

Definition rb_look (r x : txnid) (m : rbmap) : option (list ent) :=
  match find (fun p => (fst (fst p) =? r) && (snd (fst p) =? x)) m with
  | Some p => Some (snd p)
  | None => None
  end.

(** * The running system *)

(** A checkpoint in progress: the LSN of its begin record, the dictionaries it keeps
    open, the copies not yet written, and the copy of the rollback file if it was
    dirty. *)
Record ckst := mkCk { k_lsn : nat; k_pin : list fnum; k_todo : list (fnum * mlist);
                      k_rb : option rbmap; k_nf : nat; k_nx : nat }.

Record sys := mkSys {
  y_files : files;
  y_txns : list ptxn;
  y_locks : fname -> rkey -> option txnid;  (* row locks, by root transaction *)
  y_last : txnid;                           (* txn_manager::last_xid *)
  y_idle : list txnid;                      (* live roots whose begin is not logged *)
  y_clast : txnid -> txnid;                 (* txn_child_manager::m_last_xid by root *)
  y_log : list lrec;
  y_flushed : nat;                          (* records known to be on disk *)
  y_disk : fname -> list ver;
  y_rb : list (nat * rbmap);                (* versions of the rollback file *)
  y_rbdirty : bool;
  y_ck : option ckst
}.

Inductive sop :=
| SOpen (fn : fnum) (nm : fname)
| SClose (fn : fnum)
| SStart                                     (* a root gets its id *)
| SDrop (r : txnid)                          (* it ends without having written *)
| SBegin (r : txnid)                         (* its begin is logged *)
| SBurn (r : txnid)                          (* a child that never writes *)
| SChild (r : txnid)
| SWrite (r : txnid) (fn : fnum) (k : rkey) (w : wkind)
| SCommit (r : txnid)
| SAbort (r : txnid)
| SPrepare (r : txnid)
| SCkBegin
| SCkFile (fn : fnum)
| SCkRb
| SCkEnd
| SFlush (n : nat).

Definition upd2 {A} (f : fname -> A) (x : fname) (a : A) : fname -> A :=
  fun y => if y =? x then a else f y.

(** The open names. *)
Definition name_open (nm : fname) (fs : files) : bool :=
  existsb (fun p => of_name (snd p) =? nm) fs.

Definition newest (d : fname -> list ver) (nm : fname) : option ver := hd_error (d nm).

Definition release (r : txnid) (lk : fname -> rkey -> option txnid) : fname -> rkey -> option txnid :=
  fun n k => match lk n k with Some q => if q =? r then None else Some q | None => None end.
Definition take (r : txnid) (nm : fname) (k : rkey) (lk : fname -> rkey -> option txnid) :=
  fun n k' => if (n =? nm) && rkey_eqb k' k then Some r else lk n k'.

Definition lock_free (r : txnid) (nm : fname) (k : rkey) (lk : fname -> rkey -> option txnid) : bool :=
  match lk nm k with None => true | Some q => q =? r end.

(** ft/txn/txn_child_manager.cc:79-102. *)
Definition next_cid (r last : txnid) : txnid :=
  let x := last + 1 in if x =? r then x + 1 else x.

(** log_open_txn, ft/cachetable/cachetable.cc:2708-2768, for a root and its children,
    outermost first (txn_child_manager::iterate, ft/txn/txn_child_manager.cc:118-136);
    [ls] is outermost first, [par] the parent's child id. *)
Fixpoint still_recs (r : txnid) (par : option txnid) (ls : list rlevel) : list lrec :=
  match ls with
  | [] => []
  | l :: ls' =>
      let c := match par with None => TXNID_NONE | Some _ => rl_xid l end in
      LStill r c par (negb (is_nil (rl_ents l))) (rl_fts l) :: still_recs r (Some c) ls'
  end.
Definition still_of (t : ptxn) : list lrec :=
  match pt_levels t, pt_prep t with
  | [l], true => [LStillPrep (pt_root t) (negb (is_nil (rl_ents l))) (rl_fts l)]
  | _, _ => still_recs (pt_root t) None (rev (pt_levels t))
  end.

(** checkpointer::log_begin_checkpoint, ft/cachetable/cachetable.cc:4567-4587. *)
Definition ck_recs (last : txnid) (fs : files) (ts : list ptxn) : list lrec :=
  LBeginCk last :: LFassocRb :: map (fun p => LFassoc (fst p) (of_name (snd p))) fs
    ++ flat_map still_of ts.

Definition clean_all (fs : files) : files :=
  map (fun p => (fst p, mkOf (of_name (snd p)) (of_msgs (snd p)) (of_lsn (snd p)) false)) fs.
Definition dirty_msgs (fs : files) : list (fnum * mlist) :=
  map (fun p => (fst p, of_msgs (snd p))) (filter (fun p => of_dirty (snd p)) fs).

Definition with_txns (s : sys) (ts : list ptxn) (fs : files) (rs : list lrec) (rbd : bool) : sys :=
  mkSys fs ts (y_locks s) (y_last s) (y_idle s) (y_clast s) (y_log s ++ rs) (y_flushed s)
        (y_disk s) (y_rb s) (y_rbdirty s || rbd) (y_ck s).
Definition with_locks (s : sys) (lk : fname -> rkey -> option txnid) : sys :=
  mkSys (y_files s) (y_txns s) lk (y_last s) (y_idle s) (y_clast s) (y_log s) (y_flushed s)
        (y_disk s) (y_rb s) (y_rbdirty s) (y_ck s).

Definition has_ents (t : ptxn) : bool :=
  match pt_levels t with l :: _ => negb (is_nil (rl_ents l)) | [] => false end.

(** One step of the running system.  Each is atomic: writes, commits and aborts hold
    the multi operation lock against begin_checkpoint (ft/cachetable/checkpoint.cc:
    120-150, 255-275), writers of a row hold its row lock. *)
Definition step (s : sys) (o : sop) : option sys :=
  match o with
  | SOpen fn nm =>
      (* toku_ft_handle_open logs fopen; the newest version is read
         (ft/ft-ops.cc:3060-3110, ft/serialize/ft-serialize.cc:674-805) *)
      guard (negb (is_some (flook fn (y_files s))));
      guard (negb (name_open nm (y_files s)));
      do (v, m) <- newest (y_disk s) nm;
      Some (mkSys ((fn, mkOf nm m v false) :: y_files s) (y_txns s) (y_locks s) (y_last s) (y_idle s)
              (y_clast s) (y_log s ++ [LFopen fn nm]) (y_flushed s) (y_disk s) (y_rb s) (y_rbdirty s)
              (y_ck s))
  | SClose fn =>
      (* ft/ft.cc:228-278 ft_close, when neither a transaction nor a checkpoint holds
         a reference (ft.cc:287-330) *)
      do f <- flook fn (y_files s);
      guard (negb (used_by fn (y_txns s)));
      guard (match y_ck s with Some k => negb (memb fn (k_pin k)) | None => true end);
      let log := y_log s ++ [LFclose fn (of_name f)] in
      let d := if of_dirty f
               then upd2 (y_disk s) (of_name f) ((length log, of_msgs f) :: y_disk s (of_name f))
               else y_disk s in
      Some (mkSys (fdel fn (y_files s)) (y_txns s) (y_locks s) (y_last s) (y_idle s) (y_clast s)
              log (if of_dirty f then length log else y_flushed s) d (y_rb s) (y_rbdirty s) (y_ck s))
  | SStart =>
      (* ft/txn/txn_manager.cc:637 *)
      let x := y_last s + 1 in
      guard (x <? TXNID_MAX);
      Some (mkSys (y_files s) (y_txns s) (y_locks s) x (x :: y_idle s) (y_clast s) (y_log s)
              (y_flushed s) (y_disk s) (y_rb s) (y_rbdirty s) (y_ck s))
  | SDrop r =>
      guard (memb r (y_idle s));
      Some (mkSys (y_files s) (y_txns s) (y_locks s) (y_last s)
              (filter (fun x => negb (x =? r)) (y_idle s)) (y_clast s) (y_log s)
              (y_flushed s) (y_disk s) (y_rb s) (y_rbdirty s) (y_ck s))
  | SBegin r =>
      (* toku_maybe_log_begin_txn_for_write_operation, ft/txn/txn.cc:737-758 *)
      guard (memb r (y_idle s));
      Some (mkSys (y_files s) (ins_pt (mkPt r [mkRl r [] []] false) (y_txns s)) (y_locks s) (y_last s)
              (filter (fun x => negb (x =? r)) (y_idle s)) (y_clast s)
              (y_log s ++ [LBegin r TXNID_NONE None])
              (y_flushed s) (y_disk s) (y_rb s) (y_rbdirty s) (y_ck s))
  | SBurn r =>
      do t <- find_pt r (y_txns s);
      let c := next_cid r (y_clast s r) in
      Some (mkSys (y_files s) (y_txns s) (y_locks s) (y_last s) (y_idle s) (upd2 (y_clast s) r c)
              (y_log s) (y_flushed s) (y_disk s) (y_rb s) (y_rbdirty s) (y_ck s))
  | SChild r =>
      do t <- find_pt r (y_txns s);
      let c := next_cid r (y_clast s r) in
      guard (negb (pt_prep t));
      guard (length (pt_levels t) <? MAX_NESTED_TRANSACTIONS)%nat;
      guard (c + 2 <? 2 ^ 64);
      let t' := mkPt r (mkRl c [] [] :: pt_levels t) false in
      Some (mkSys (y_files s) (set_pt t' (y_txns s)) (y_locks s) (y_last s) (y_idle s)
              (upd2 (y_clast s) r c) (y_log s ++ [LBegin r c (Some (pt_child t))])
              (y_flushed s) (y_disk s) (y_rb s) (y_rbdirty s) (y_ck s))
  | SWrite r fn k w =>
      (* ft/ft-ops.cc:2422-2447, 2475-2520, 2600-2632 after the row lock is granted *)
      do t <- find_pt r (y_txns s);
      do f <- flook fn (y_files s);
      guard (negb (pt_prep t));
      guard (lock_free r (of_name f) k (y_locks s));
      do fs <- put None fn (k, mkRmsg (wmsg w) (pt_chain t)) (y_files s);
      Some (with_locks
              (with_txns s (set_pt (push_rent (mkEnt fn k (went w)) t) (y_txns s)) fs
                 [LEnq fn r (pt_child t) k w] true)
              (take r (of_name f) k (y_locks s)))
  | SCommit r =>
      (* ft/txn/txn.cc:386-417; a root's row locks go when it is done *)
      do t <- find_pt r (y_txns s);
      do (ts, fs) <- commit_inner false None t (y_txns s) (y_files s);
      let s' := with_txns s ts fs [LCommit r (pt_child t)] (has_ents t) in
      Some (if pt_child t =? TXNID_NONE then with_locks s' (release r (y_locks s)) else s')
  | SAbort r =>
      (* ft/txn/txn.cc:460-482 *)
      do t <- find_pt r (y_txns s);
      do (ts, fs) <- abort_inner false None t (y_txns s) (y_files s);
      let s' := with_txns s ts fs [LAbort r (pt_child t)] (has_ents t) in
      Some (if pt_child t =? TXNID_NONE then with_locks s' (release r (y_locks s)) else s')
  | SPrepare r =>
      (* ft/txn/txn.cc:493-513 *)
      do t <- find_pt r (y_txns s);
      guard (pt_child t =? TXNID_NONE);
      guard (negb (pt_prep t));
      Some (with_txns s (set_pt (mkPt r (pt_levels t) true) (y_txns s)) (y_files s) [LPrepare r] false)
  | SCkBegin =>
      (* begin_checkpoint: records, then copies of headers and pages
         (cachetable.cc:4500-4560; ft/ft.cc:143-154) *)
      match y_ck s with
      | Some _ => None
      | None =>
          let b := S (length (y_log s)) in
          Some (mkSys (clean_all (y_files s)) (y_txns s) (y_locks s) (y_last s) (y_idle s) (y_clast s)
                  (y_log s ++ ck_recs (y_last s) (y_files s) (y_txns s)) (y_flushed s) (y_disk s)
                  (y_rb s) false
                  (Some (mkCk b (map fst (y_files s)) (dirty_msgs (y_files s))
                           (if y_rbdirty s then Some (rb_of (y_txns s)) else None)
                           (S (length (y_files s))) (length (flat_map still_of (y_txns s))))))
      end
  | SCkFile fn =>
      (* ft/ft.cc:184-213 ft_checkpoint *)
      do k <- y_ck s;
      do p <- find (fun p => fst p =? fn) (k_todo k);
      do f <- flook fn (y_files s);
      let k' := mkCk (k_lsn k) (k_pin k) (filter (fun p => negb (fst p =? fn)) (k_todo k)) (k_rb k)
                     (k_nf k) (k_nx k) in
      Some (mkSys (fset fn (mkOf (of_name f) (of_msgs f) (k_lsn k) (of_dirty f)) (y_files s)) (y_txns s)
              (y_locks s) (y_last s) (y_idle s) (y_clast s) (y_log s) (Nat.max (y_flushed s) (k_lsn k))
              (upd2 (y_disk s) (of_name f) ((k_lsn k, snd p) :: y_disk s (of_name f)))
              (y_rb s) (y_rbdirty s) (Some k'))
  | SCkRb =>
      (* the same for the rollback file; its header has two slots, so two versions stay *)
      do k <- y_ck s;
      do m <- k_rb k;
      let k' := mkCk (k_lsn k) (k_pin k) (k_todo k) None (k_nf k) (k_nx k) in
      Some (mkSys (y_files s) (y_txns s) (y_locks s) (y_last s) (y_idle s) (y_clast s) (y_log s)
              (Nat.max (y_flushed s) (k_lsn k)) (y_disk s) (firstn 2 ((k_lsn k, m) :: y_rb s))
              (y_rbdirty s) (Some k'))
  | SCkEnd =>
      (* cachetable.cc:4635-4653, 4710-4721: the end record is fsynced *)
      do k <- y_ck s;
      guard (is_nil (k_todo k));
      guard (negb (is_some (k_rb k)));
      let log := y_log s ++ [LEndCk (k_lsn k) (k_nf k) (k_nx k)] in
      Some (mkSys (y_files s) (y_txns s) (y_locks s) (y_last s) (y_idle s) (y_clast s) log (length log)
              (y_disk s) (y_rb s) (y_rbdirty s) None)
  | SFlush n =>
      Some (mkSys (y_files s) (y_txns s) (y_locks s) (y_last s) (y_idle s) (y_clast s) (y_log s)
              (Nat.max (y_flushed s) (Nat.min n (length (y_log s)))) (y_disk s) (y_rb s) (y_rbdirty s)
              (y_ck s))
  end.

(** A new environment: its first checkpoint is complete, every dictionary is empty. *)
Definition sys_init : sys :=
  mkSys [] [] (fun _ _ => None) 0 [] (fun _ => 0) [LBeginCk 0; LFassocRb; LEndCk 1 1 0] 3
        (fun _ => [(0%nat, [])]) [(1%nat, [])] false None.

(** * Recovery *)

(** The backward scan, recover.cc:1488-1527 with the handlers 379-405 and 428-446.
    [rl] is the rest of the log, newest first.  The result is the LSNs of the begin
    and the end record of the last complete checkpoint; [None] is an abort or the
    failure of assert(le) (1532). *)
Fixpoint scan_back (rl : list lrec) (st : option (nat * nat)) : option (nat * nat) :=
  match rl with
  | [] => None
  | r :: rl' =>
      let l := length rl in
      match r, st with
      | LEndCk b _ _, None => scan_back rl' (Some (b, l))
      | LEndCk _ _ _, Some _ => None
      | LBeginCk _, Some (b, e) => if (l =? b)%nat then Some (b, e) else None
      | _, _ => scan_back rl' st
      end
  end.

(** struct recover_env: the file map, the transaction manager, the scan state. *)
Record rst := mkR {
  r_files : files;
  r_txns : list ptxn;
  r_last : txnid;                (* the transaction manager's last_xid *)
  r_disk : fname -> list ver;
  r_rb : option rbmap;           (* the rollback file, once opened *)
  r_newer : bool;                (* FORWARD_NEWER_CHECKPOINT_END *)
  r_sslast : txnid;              (* ss.last_xid *)
  r_nf : nat;
  r_nx : nat
}.

Definition rwith (s : rst) (fs : files) (ts : list ptxn) : rst :=
  mkR fs ts (r_last s) (r_disk s) (r_rb s) (r_newer s) (r_sslast s) (r_nf s) (r_nx s).

(** internal_recover_fopen_or_fcreate without create, recover.cc:302-348. *)
Definition r_open (s : rst) (fn : fnum) (nm : fname) : option rst :=
  match newest (r_disk s) nm with
  | None => Some s
  | Some (v, m) => Some (rwith s ((fn, mkOf nm m v false) :: r_files s) (r_txns s))
  end.

(** ft_close with a recovery LSN, ft/ft.cc:236-243 and 266-277. *)
Definition close_with (d : fname -> list ver) (f : ofile) (l : nat) : fname -> list ver :=
  if of_dirty f then upd2 d (of_name f) ((Nat.max l (of_lsn f), of_msgs f) :: d (of_name f)) else d.

(** recover_transaction, recover.cc:503-540 (ft/txn/txn.cc:200-245,
    txn_manager.cc:577-597, txn_child_manager.cc:66-77). *)
Definition recover_txn (s : rst) (r c : txnid) (par : option txnid) (ents : list ent) (fts : list fnum)
  : option rst :=
  match par with
  | None =>
      guard (c =? TXNID_NONE);
      guard (negb (is_some (find_pt r (r_txns s))));
      Some (mkR (r_files s) (ins_pt (mkPt r [mkRl r ents fts] false) (r_txns s)) (N.max (r_last s) r)
              (r_disk s) (r_rb s) (r_newer s) (r_sslast s) (r_nf s) (r_nx s))
  | Some p =>
      do t <- find_inner r p (r_txns s);
      Some (rwith s (r_files s) (set_pt (mkPt r (mkRl c ents fts :: pt_levels t) (pt_prep t)) (r_txns s)))
  end.

(** recover_xstillopen_internal between begin and end of the checkpoint,
    recover.cc:560-603: dictionaries that are not open are left out; the rollback
    entries are those of the rollback file. *)
Definition recover_still (s : rst) (r c : txnid) (par : option txnid) (has : bool) (fts : list fnum)
  : option rst :=
  guard (negb (r_sslast s =? TXNID_NONE));
  guard (r <=? r_sslast s);
  do m <- r_rb s;
  do es <- (if has then rb_look r (match par with None => r | Some _ => c end) m else Some []);
  do s' <- recover_txn s r c par es (filter (fun fn => is_some (flook fn (r_files s))) fts);
  Some (mkR (r_files s') (r_txns s') (r_last s') (r_disk s') (r_rb s') (r_newer s') (r_sslast s')
          (r_nf s') (S (r_nx s'))).

Definition set_prep (r : txnid) (s : rst) : option rst :=
  do t <- find_pt r (r_txns s);
  guard (negb (pt_prep t));
  Some (rwith s (r_files s) (set_pt (mkPt r (pt_levels t) true) (r_txns s))).

(** The forward handlers; [b], [e]: the LSNs found by the backward scan; [l]: the
    LSN of the record; [rbs]: the versions of the rollback file. *)
Definition rec_step (b e : nat) (rbs : list (nat * rbmap)) (l : nat) (s : rst) (x : lrec) : option rst :=
  match x with
  | LBeginCk last =>                               (* recover.cc:350-377 *)
      if r_newer s then
        guard (e <? l)%nat; guard (r_sslast s <=? last); guard (r_last s <=? last); Some s
      else
        guard (l =? b)%nat; guard (r_sslast s =? TXNID_NONE);
        Some (mkR (r_files s) (r_txns s) last (r_disk s) (r_rb s) (r_newer s) last (r_nf s) (r_nx s))
  | LEndCk b' nf nx =>                             (* 407-426 *)
      guard (negb (r_newer s)); guard (b' =? b)%nat; guard (l =? e)%nat;
      guard (nf =? r_nf s)%nat; guard (nx =? r_nx s)%nat;
      Some (mkR (r_files s) (r_txns s) (r_last s) (r_disk s) (r_rb s) true (r_sslast s) (r_nf s) (r_nx s))
  | LFassoc fn nm =>                               (* 448-496 *)
      if r_newer s then
        match flook fn (r_files s) with
        | Some f => guard (of_name f =? nm); Some s
        | None => Some s
        end
      else
        guard (negb (is_some (flook fn (r_files s))));
        do s' <- r_open s fn nm;
        Some (mkR (r_files s') (r_txns s') (r_last s') (r_disk s') (r_rb s') (r_newer s') (r_sslast s')
                (S (r_nf s')) (r_nx s'))
  | LFassocRb =>                                   (* 459-470 *)
      if r_newer s then Some s
      else
        do v <- find (fun v => (fst v <=? b)%nat) rbs;
        Some (mkR (r_files s) (r_txns s) (r_last s) (r_disk s) (Some (snd v)) (r_newer s) (r_sslast s)
                (S (r_nf s)) (r_nx s))
  | LStill r c par has fts =>                      (* 620-637, 542-618 *)
      if r_newer s then Some s else recover_still s r c par has fts
  | LStillPrep r has fts =>                        (* 639-674 *)
      if r_newer s then
        do t <- find_pt r (r_txns s); guard (pt_prep t); Some s
      else
        do s' <- recover_still s r TXNID_NONE None has fts; set_prep r s'
  | LBegin r c par => recover_txn s r c par [] []  (* 685-689 *)
  | LCommit r c =>                                 (* 726-741 *)
      do t <- find_inner r c (r_txns s);
      do (ts, fs) <- commit_inner true (Some l) t (r_txns s) (r_files s);
      Some (rwith s fs ts)
  | LAbort r c =>                                  (* 767-784 *)
      do t <- find_inner r c (r_txns s);
      do (ts, fs) <- abort_inner true (Some l) t (r_txns s) (r_files s);
      Some (rwith s fs ts)
  | LPrepare r => set_prep r s                     (* 748-758 *)
  | LFopen fn nm =>                                (* 833-850 *)
      guard (negb (is_some (flook fn (r_files s)))); r_open s fn nm
  | LFclose fn nm =>                               (* 894-909 *)
      match flook fn (r_files s) with
      | None => Some s
      | Some f =>
          guard (of_name f =? nm);
          (* with a transaction's reference left the dictionary would stay open
             outside the file map: not modelled, taken as a failure *)
          guard (negb (used_by fn (r_txns s)));
          Some (mkR (fdel fn (r_files s)) (r_txns s) (r_last s) (close_with (r_disk s) f l) (r_rb s)
                  (r_newer s) (r_sslast s) (r_nf s) (r_nx s))
      end
  | LEnq fn r c k w =>                             (* 1017-1033, 1040-1055, 1062-1076, 1206-1221 *)
      do t <- find_inner r c (r_txns s);
      match flook fn (r_files s) with
      | None => Some s
      | Some _ =>
          do fs <- put (Some l) fn (k, mkRmsg (wmsg w) (pt_chain t)) (r_files s);
          Some (rwith s fs (set_pt (push_rent (mkEnt fn k (went w)) t) (r_txns s)))
      end
  | LComment _ => Some s                           (* 1250-1253 *)
  end.

(** The forward scan, recover.cc:1540-1584, over the records after position [p]. *)
Fixpoint rec_run (b e : nat) (rbs : list (nat * rbmap)) (p : nat) (rs : list lrec) (s : rst) : option rst :=
  match rs with
  | [] => Some s
  | x :: rs' => do s' <- rec_step b e rbs (S p) s x; rec_run b e rbs (S p) rs' s'
  end.

(** recover_abort_live_txn, recover.cc:1380-1396: children first; toku_txn_abort_txn
    has no LSN, so no dictionary skips; the abort records are logged. *)
Fixpoint abort_levels (n : nat) (r : txnid) (ts : list ptxn) (fs : files) (out : list lrec)
  : option (list ptxn * files * list lrec) :=
  match n with
  | O => Some (ts, fs, out)
  | S n' =>
      do t <- find_pt r ts;
      do (ts', fs') <- abort_inner true None t ts fs;
      abort_levels n' r ts' fs' (out ++ [LAbort r (pt_child t)])
  end.

(** recover_abort_all_live_txns, recover.cc:1399-1418: the first unprepared one, again
    and again. *)
Fixpoint abort_all (todo : list ptxn) (ts : list ptxn) (fs : files) (out : list lrec)
  : option (list ptxn * files * list lrec) :=
  match todo with
  | [] => Some (ts, fs, out)
  | t :: todo' =>
      if pt_prep t then abort_all todo' ts fs out
      else
        do (q, out') <- abort_levels (length (pt_levels t)) (pt_root t) ts fs out;
        let (ts', fs') := q in
        abort_all todo' ts' fs' out'
  end.

(** file_map_close_dictionaries, recover.cc:165-186: with a reference left by a
    prepared transaction the dictionary stays open. *)
Fixpoint close_all (ts : list ptxn) (l : nat) (fs : files) (d : fname -> list ver)
  : files * (fname -> list ver) :=
  match fs with
  | [] => ([], d)
  | (fn, f) :: fs' =>
      let (fs1, d1) := close_all ts l fs' d in
      if used_by fn ts then ((fn, f) :: fs1, d1) else (fs1, close_with d1 f l)
  end.

(** What a crash leaves. *)
Record image := mkImg { i_log : list lrec; i_disk : fname -> list ver; i_rb : list (nat * rbmap) }.

Definition rst_init (d : fname -> list ver) : rst := mkR [] [] 0 d None false 0 0 0.

(** do_recovery up to the abort of live transactions. *)
Definition replay (im : image) : option rst :=
  do (b, e) <- scan_back (rev (i_log im)) None;
  do s <- rec_run b e (i_rb im) (pred b) (skipn (pred b) (i_log im)) (rst_init (i_disk im));
  guard (r_newer s); Some s.

(** The row locks held after the records of a log.  [o]: the names file numbers were
    last opened with.  Recovery does not take the row locks of prepared transactions
    again; here they are given back to their owners, see DESIGN.md.  No other part of
    recovery uses this. *)
Fixpoint names_run (o : list (fnum * fname)) (log : list lrec) : list (fnum * fname) :=
  match log with
  | [] => o
  | LFopen fn nm :: log' => names_run ((fn, nm) :: o) log'
  | _ :: log' => names_run o log'
  end.
Fixpoint nlook (fn : fnum) (o : list (fnum * fname)) : option fname :=
  match o with [] => None | (n, a) :: o' => if n =? fn then Some a else nlook fn o' end.
Fixpoint locks_run (o : list (fnum * fname)) (lk : fname -> rkey -> option txnid) (log : list lrec)
  : fname -> rkey -> option txnid :=
  match log with
  | [] => lk
  | x :: log' =>
      match x with
      | LFopen fn nm => locks_run ((fn, nm) :: o) lk log'
      | LEnq fn r _ k _ =>
          locks_run o (match nlook fn o with Some nm => take r nm k lk | None => lk end) log'
      | LCommit r c | LAbort r c =>
          locks_run o (if c =? TXNID_NONE then release r lk else lk) log'
      | _ => locks_run o lk log'
      end
  end.

(** do_recovery, recover.cc:1435-1651, up to its checkpoint, which is made of the
    steps SCkBegin ... SCkEnd.  The rollback file opened may differ from its newest
    version, so it is dirty; a newer version is in the header slot that is written
    next (the slot is checkpoint_count mod 2, ft/serialize/ft-serialize.cc:908), so it is
    left out here. *)
Definition recover (im : image) : option sys :=
  do s <- replay im;
  do (b, e) <- scan_back (rev (i_log im)) None;
  do (q, out) <- abort_all (r_txns s) (r_txns s) (r_files s) [];
  let (ts, fs) := q in
  let (fs', d) := close_all ts (length (i_log im)) fs (r_disk s) in
  let log := i_log im ++ out ++ [LComment true] in
  Some (mkSys fs' ts (locks_run [] (fun _ _ => None) log) (r_last s) [] (fun _ => 0) log (length log) d
          (filter (fun v => (fst v <=? b)%nat) (i_rb im)) true None).
