(** Model of the rollback logs: ft/txn/rollback.cc, ft/txn/rollback-apply.cc,
    ft/txn/rollback_log_node_cache.cc, toku_apply_rollinclude (ft/txn/roll.cc:438-486) and the
    generated toku_logger_save_rollback_* (ft/logger/logformat.cc:640-710).

    A rollback log is a chain of nodes kept in the rollback dictionary, which all
    transactions share.

    Simplifications: a node is pinned by the cachetable while it is used, so that each of the
    operations below (a save under the transaction's lock, the processing of a whole log)
    is one step; the system state is shared by any number of transactions whose operations
    interleave arbitrarily.  Eviction and fetch of a node do not change it (the node codec is
    RbCodecModel).  The block number of a new node is an input: any number that is not in
    use and is not ROLLBACK_NONE (the block table, BlkTableModel, hands those out). *)
From Verif Require Import Base Bytes LogModel.
Open Scope N_scope.

(** ROLLBACK_NONE (ft/serialize/block_table.h:74, make_blocknum(0)). *)
Definition ROLLBACK_NONE : N := 0.

(** struct roll_entry: the command byte and fields of every type but rollinclude, and
    rollinclude (logformat.cc:84-130).  [fs] is toku_logger_rollback_fsize. *)
Inductive rentry :=
| ROp (cmd : N) (vals : list fval)
| RIncl (xid : N * N) (num_nodes head tail : N).

(** The field types of the rollback entries (logformat.cc:84-130). *)
Definition rollbacks : list (N * list ftype) :=
  [ (85, [T_FILENUM]);                                (* U fdelete *)
    (70, [T_FILENUM; T_BYTESTRING]);                  (* F fcreate *)
    (110, [T_BYTESTRING; T_BYTESTRING]);              (* n frename *)
    (105, [T_FILENUM; T_BYTESTRING]);                 (* i cmdinsert *)
    (100, [T_FILENUM; T_BYTESTRING]);                 (* d cmddelete *)
    (114, [T_TXNID_PAIR; T_uint64; T_BLOCKNUM; T_BLOCKNUM]); (* r rollinclude *)
    (108, [T_FILENUM; T_BYTESTRING]);                 (* l load *)
    (104, [T_FILENUMS]);                              (* h hot_index *)
    (82, [T_FILENUM; T_FILENUM]);                     (* R dictionary_redirect *)
    (117, [T_FILENUM; T_BYTESTRING]);                 (* u cmdupdate *)
    (66, [T_FILENUM; T_bool]);                        (* B cmdupdatebroadcast *)
    (68, [T_FILENUM; T_BYTESTRING])                   (* D change_fdescriptor *)
  ].
Definition rb_fields (cmd : N) : option (list ftype) :=
  match find (fun p => fst p =? cmd) rollbacks with Some (_, ts) => Some ts | None => None end.

Definition ent_cmd (e : rentry) : N := match e with ROp cmd _ => cmd | RIncl _ _ _ _ => 114 end.
Definition ent_vals (e : rentry) : list fval :=
  match e with
  | ROp _ vs => vs
  | RIncl x n h t => [V_pair (fst x) (snd x); V_num n; V_num h; V_num t]
  end.
(** toku_logger_rollback_fsize (logformat.cc:678-703): command byte, size word, fields. *)
Definition rb_fsize (e : rentry) : option N :=
  do ts <- rb_fields (ent_cmd e); do n <- logsizes ts (ent_vals e); Some (5 + n).

(** struct rollback_log_node (rollback.h:102-121), without the in-memory bookkeeping.  The
    entries are listed newest first (newest_logentry and its prev links; oldest_logentry is
    the last one). *)
Record rnode := mkRN {
  n_xid : N * N;          (* txnid *)
  n_seq : N;              (* sequence *)
  n_prev : N;             (* previous *)
  n_ents : list rentry;
  n_bytes : N             (* rollentry_resident_bytecount *)
}.
(** rollback_empty_log_init (rollback.cc:106-122): txnid TXNID_NONE. *)
Definition empty_node : rnode := mkRN (0, 0) 0 0 [] 0.
(** rollback_log_is_unused (rollback.h:143-145). *)
Definition is_unused (n : rnode) : bool := fst (n_xid n) =? 0.

(** The rollback dictionary. *)
Definition rheap := N -> option rnode.
Definition hset (h : rheap) (b : N) (n : rnode) : rheap := fun x => if x =? b then Some n else h x.
Definition hdel (h : rheap) (b : N) : rheap := fun x => if x =? b then None else h x.

(** struct txn_roll_info (txn.h:99-128) and the transaction's identity. *)
Record rtxn := mkRT {
  t_xid : N * N;
  t_parent : option nat;
  t_num : N;              (* num_rollback_nodes *)
  t_head : N;             (* spilled_rollback_head *)
  t_tail : N;             (* spilled_rollback_tail *)
  t_cur : N;              (* current_rollback *)
  t_nents : N             (* num_rollentries *)
}.
Definition has_current (t : rtxn) : bool := negb (t_cur t =? ROLLBACK_NONE).
Definition has_spilled (t : rtxn) : bool := negb (t_tail t =? ROLLBACK_NONE).

Record rsys := mkRS {
  heap : rheap;
  cache : list N;         (* rollback_log_node_cache: available block numbers, oldest first *)
  cache_max : N;
  wbs : N;                (* logger->write_block_size *)
  txs : nat -> option rtxn
}.
Definition set_txs (s : rsys) (t : nat) (x : option rtxn) : rsys :=
  mkRS (heap s) (cache s) (cache_max s) (wbs s) (fun u => if Nat.eqb u t then x else txs s u).
Definition set_heap (s : rsys) (h : rheap) (c : list N) : rsys :=
  mkRS h c (cache_max s) (wbs s) (txs s).

(** toku_get_and_pin_rollback_log (rollback.cc:276-295); an unallocated block cannot be
    fetched. *)
Definition pin (s : rsys) (b : N) : option rnode := heap s b.

(** toku_rollback_verify_contents (rollback.cc:267-274). *)
Definition pair_eqb (a b : N * N) : bool := (fst a =? fst b) && (snd a =? snd b).
Definition verify (n : rnode) (x : N * N) (seq : N) : bool := pair_eqb (n_xid n) x && (n_seq n =? seq).

(** u64 decrement. *)
Definition pred64 (n : N) : N := (n + 2 ^ 64 - 1) mod 2 ^ 64.

(** toku_get_and_pin_rollback_log_for_new_entry (rollback.cc:297-334), with
    get_rollback_log_node (rollback_log_node_cache.cc:91-109), rollback_initialize_for_txn
    (124-138) and rollback_log_create (147-170).  [fresh]: the block number allocated if a
    node is created. *)
Definition node_for_entry (s : rsys) (t : rtxn) (fresh : N) : option (rsys * rtxn * N * rnode) :=
  if has_current t then
    do n <- pin s (t_cur t);
    guard verify n (t_xid t) (pred64 (t_num t));
    Some (s, t, t_cur t, n)
  else
    let init := mkRN (t_xid t) (t_num t) (t_tail t) [] 0 in
    let t' b := mkRT (t_xid t) (t_parent t) ((t_num t + 1) mod 2 ^ 64) (t_head t) (t_tail t) b (t_nents t) in
    match (if has_spilled t then [] else cache s) with
    | b :: rest =>
        do n <- pin s b;
        guard is_unused n;
        Some (set_heap s (hset (heap s) b init) rest, t' b, b, init)
    | [] =>
        (* the allocator's contract *)
        guard negb (fresh =? ROLLBACK_NONE) && (fresh <? 2 ^ 63) && negb (is_some (heap s fresh));
        Some (set_heap s (hset (heap s) fresh init) (cache s), t' fresh, fresh, init)
    end.

(** toku_maybe_spill_rollbacks (rollback.cc:188-202). *)
Definition maybe_spill (s : rsys) (t : rtxn) (b : N) (n : rnode) : option rtxn :=
  if wbs s <? n_bytes n then
    guard b =? t_cur t;
    Some (mkRT (t_xid t) (t_parent t) (t_num t)
               (if has_spilled t then t_head t else t_cur t) (t_cur t) ROLLBACK_NONE (t_nents t))
  else Some t.

(** toku_logger_save_rollback_<type> (logformat.cc:640-710).  [id] is the transaction. *)
Definition save_entry (s : rsys) (id : nat) (e : rentry) (fresh : N) : option rsys :=
  do t <- txs s id;
  do (s1, t1, b, n) <- node_for_entry s t fresh;
  do sz <- rb_fsize e;
  let n' := mkRN (n_xid n) (n_seq n) (n_prev n) (e :: n_ents n) (n_bytes n + sz) in
  let t2 := mkRT (t_xid t1) (t_parent t1) (t_num t1) (t_head t1) (t_tail t1) (t_cur t1) (t_nents t1 + 1) in
  do t3 <- maybe_spill s1 t2 b n';
  Some (set_txs (set_heap s1 (hset (heap s1) b n') (cache s1)) id (Some t3)).

(** give_rollback_log_node (rollback_log_node_cache.cc:66-86), else
    toku_rollback_log_unpin_and_remove (rollback.cc:51-58), on node [b]. *)
Definition give_or_remove (h : rheap) (c : list N) (cmax : N) (b : N) : rheap * list N :=
  if N.of_nat (length c) <? cmax then (hset h b empty_node, c ++ [b]) else (hdel h b, c).

(** Outcome of processing a log: the entries processed, in order.  [Fuel]: the model ran out
    of its step budget (not an outcome of the program). *)
Inductive ares (A : Type) := Done (a : A) | Fuel | Fail.
Arguments Done {A}. Arguments Fuel {A}. Arguments Fail {A}.
Definition abind {A B} (r : ares A) (f : A -> ares B) : ares B :=
  match r with Done a => f a | Fuel => Fuel | Fail => Fail end.

(** The inner loop of apply_txn and toku_apply_rollinclude (rollback-apply.cc:110-116,
    roll.cc:464-468): call the function on each entry, newest first.  toku_commit_rollinclude
    and toku_rollback_rollinclude (roll.cc:488-520) process another log. *)
Fixpoint items (incl : rheap -> N * N -> N -> N -> N -> ares (rheap * list rentry))
    (h : rheap) (l : list rentry) : ares (rheap * list rentry) :=
  match l with
  | [] => Done (h, [])
  | ROp cmd vs :: l' =>
      abind (items incl h l') (fun '(h', o) => Done (h', ROp cmd vs :: o))
  | RIncl x n hd tl :: l' =>
      abind (incl h x n hd tl) (fun '(h1, o1) =>
      abind (items incl h1 l') (fun '(h2, o2) => Done (h2, o1 ++ o2)))
  end.

(** toku_apply_rollinclude (roll.cc:438-486).  [last] is last_sequence. *)
Fixpoint incl_loop (fuel : nat) (h : rheap) (x : N * N) (head next last : N) (found : bool)
    : ares (rheap * list rentry) :=
  match fuel with
  | O => Fuel
  | S f =>
      if next =? ROLLBACK_NONE then Done (h, [])
      else
        match h next with
        | None => Fail
        | Some log =>
            if verify log x (pred64 last) then
              abind (items (fun h' x' n' hd' tl' =>
                              if tl' =? ROLLBACK_NONE then Fail
                              else incl_loop f h' x' hd' tl' n' false) h (n_ents log))
                (fun '(h1, o1) =>
                   let at_head := next =? head in
                   if at_head && (found || negb (n_seq log =? 0)) then Fail
                   else
                     let found' := found || at_head in
                     if found' && negb (n_prev log =? ROLLBACK_NONE) then Fail
                     else
                       (* spilled_head is cleared with found_head *)
                       abind (incl_loop f (hdel h1 next) x
                                (if found' then n_prev log else head) (n_prev log) (n_seq log) found')
                         (fun '(h2, o2) => Done (h2, o1 ++ o2)))
            else Fail
        end
  end.
Definition apply_incl (f : nat) (h : rheap) (x : N * N) (n hd tl : N) : ares (rheap * list rentry) :=
  if tl =? ROLLBACK_NONE then Fail else incl_loop f h x hd tl n false.

(** apply_txn (rollback-apply.cc:80-155).  Returns the dictionary, the node cache, the
    transaction's roll_info and the entries processed. *)
Fixpoint txn_loop (fuel : nat) (h : rheap) (c : list N) (cmax : N) (t : rtxn) (next last : N)
    (cur found : bool) : ares (rheap * list N * rtxn * list rentry) :=
  match fuel with
  | O => Fuel
  | S f =>
      if next =? ROLLBACK_NONE then Done (h, c, t, [])
      else
        match h next with
        | None => Fail
        | Some log =>
            if verify log (t_xid t) (pred64 last) then
              abind (items (apply_incl f) h (n_ents log)) (fun '(h1, o1) =>
                let at_head := next =? t_head t in
                if at_head && (found || negb (n_seq log =? 0)) then Fail
                else
                  let found' := found || at_head in
                  let nx := n_prev log in
                  if found' && negb (nx =? ROLLBACK_NONE) then Fail
                  else
                    let t' := mkRT (t_xid t) (t_parent t) (t_num t)
                                (if found' then nx else t_head t)
                                (if cur then t_tail t else nx)
                                (if cur then ROLLBACK_NONE else t_cur t) (t_nents t) in
                    let '(h2, c2) := if nx =? ROLLBACK_NONE then give_or_remove h1 c cmax next
                                     else (hdel h1 next, c) in
                    abind (txn_loop f h2 c2 cmax t' nx (n_seq log) false found')
                      (fun '(h3, c3, t3, o3) => Done (h3, c3, t3, o1 ++ o3)))
            else Fail
        end
  end.
Definition apply_txn (fuel : nat) (h : rheap) (c : list N) (cmax : N) (t : rtxn) :=
  let '(next, cur) := if has_current t then (t_cur t, true)
                      else if has_spilled t then (t_tail t, false) else (ROLLBACK_NONE, false) in
  txn_loop fuel h c cmax t next (t_num t) cur false.

(** The assertions of toku_txn_complete_txn (txn.cc:557-560). *)
Definition complete_ok (t : rtxn) : bool :=
  (t_head t =? ROLLBACK_NONE) && (t_tail t =? ROLLBACK_NONE) && (t_cur t =? ROLLBACK_NONE).

(** toku_rollback_commit of a transaction without parent (rollback-apply.cc:233-236) or
    toku_rollback_abort (241-246), then toku_txn_complete_txn. *)
Definition finish (fuel : nat) (s : rsys) (id : nat) : ares (rsys * list rentry) :=
  match txs s id with
  | None => Fail
  | Some t =>
      abind (apply_txn fuel (heap s) (cache s) (cache_max s) t) (fun '(h, c, t', o) =>
        if complete_ok t' then Done (set_txs (set_heap s h c) id None, o) else Fail)
  end.

(** toku_rollback_commit of a child (rollback-apply.cc:161-232).  [f1], [f2]: block numbers
    for nodes the parent may need. *)
Definition commit_child (s : rsys) (id : nat) (f1 f2 : N) : option rsys :=
  do t <- txs s id;
  do pid <- t_parent t;
  (* hand over the spilled nodes *)
  do s1 <- (if has_spilled t then
              save_entry s pid
                (RIncl (t_xid t) (if has_current t then pred64 (t_num t) else t_num t) (t_head t) (t_tail t)) f1
            else Some s);
  (* link the entries of the current node into the parent's *)
  do s2 <- (if has_current t then
              do p <- txs s1 pid;
              do (s', p1, pb, pn) <- node_for_entry s1 p f2;
              do cn <- pin s' (t_cur t);
              guard verify cn (t_xid t) (pred64 (t_num t));
              let pn' := mkRN (n_xid pn) (n_seq pn) (n_prev pn) (n_ents cn ++ n_ents pn)
                              (match n_ents cn with [] => n_bytes pn | _ => n_bytes pn + n_bytes cn end) in
              let '(h2, c2) := give_or_remove (hset (heap s') pb pn') (cache s') (cache_max s') (t_cur t) in
              do p2 <- maybe_spill s' p1 pb pn';
              Some (set_txs (set_heap s' h2 c2) pid (Some p2))
            else Some s1);
  do p <- txs s2 pid;
  let p' := mkRT (t_xid p) (t_parent p) (t_num p) (t_head p) (t_tail p) (t_cur p) (t_nents p + t_nents t) in
  Some (set_txs (set_txs s2 pid (Some p')) id None).

(** * Runs *)

(** Operations on the transactions; [o] of [Finish]: commit of a root or abort. *)
Inductive rop :=
| Begin (id : nat) (xid : N * N) (parent : option nat)
| Save (id : nat) (e : rentry) (fresh : N)
| Commit (id : nat) (f1 f2 : N)        (* of a child *)
| Finish (id : nat) (fuel : nat).      (* commit of a root, or abort *)

(** create_txn (txn.cc:203-283). *)
Definition begin_txn (s : rsys) (id : nat) (x : N * N) (p : option nat) : rsys :=
  set_txs s id (Some (mkRT x p 0 ROLLBACK_NONE ROLLBACK_NONE ROLLBACK_NONE 0)).

(** The rollback dictionary starts empty, with an empty node cache
    (logger.cc:233-237). *)
Definition rinit (cmax w : N) : rsys := mkRS (fun _ => None) [] cmax w (fun _ => None).

Definition rstep (s : rsys) (o : rop) : ares (rsys * list rentry) :=
  match o with
  | Begin id x p => Done (begin_txn s id x p, [])
  | Save id e fresh => match save_entry s id e fresh with Some s' => Done (s', []) | None => Fail end
  | Commit id f1 f2 => match commit_child s id f1 f2 with Some s' => Done (s', []) | None => Fail end
  | Finish id fuel => finish fuel s id
  end.
