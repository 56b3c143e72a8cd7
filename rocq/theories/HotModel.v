(** Model of the hot indexer's row builder, src/indexer-undo-do.cc: from the whole
    history kept in one row of the source dictionary (committed and provisional
    records) it makes the messages that give each new ("hot") dictionary the same
    history.

    Simplified: the callbacks are functions of the source value (the source key is
    fixed); the file system is never full (toku_ydb_check_avail_fs_space returns 0);
    a provisional message carries the stack of ids built here, where the code takes
    it from the transaction [curr_txn] (toku_ft_maybe_insert), which is the
    transaction of the last id pushed and so has the same ids; the write lock taken
    for each provisional message (indexer_lock_key) and the logical row count are
    not modelled.

    Definitions only. *)
From Verif Require Import Base Bytes KOrd UleModel.
Open Scope N_scope.

(** ft/txn/txn_state.h:42-50 TOKUTXN_STATE. *)
Inductive tstate := TLive | TPreparing | TCommitting | TAborting | TRetired.

(** [HErr]: a row callback returned an error, which is handed on.  [HBug]: a failed
    assert. *)
Inductive hres (A : Type) := HOk (a : A) | HErr | HBug.
Arguments HOk {A}. Arguments HErr {A}. Arguments HBug {A}.
Definition hbind {A B} (x : hres A) (f : A -> hres B) : hres B :=
  match x with HOk a => f a | HErr => HErr | HBug => HBug end.
Notation "'hdo' x <- e ; f" := (hbind e (fun x => f)) (at level 100, x pattern, e at next level, f at level 200, right associativity).
Definition hcall {A} (x : option A) : hres A := match x with Some a => HOk a | None => HErr end.

(** One message to a hot dictionary. *)
Definition hmsg : Type := bytes * umsg.

(** generate_row_for_put and generate_row_for_del for the source key of the row
    (indexer_generate_hot_keys_vals, indexer-undo-do.cc:474-500): the rows, and
    the keys of the rows, that stand for a source value in a hot dictionary. *)
Record hotdb := mkHot { gput : bytes -> option (list (bytes * bytes)); gdel : bytes -> option (list bytes) }.

Section Hot.
Variable g : hotdb.

(** indexer_set_xid, indexer-undo-do.cc:441-459. *)
Definition set_xid (x : txnid) : xids := if x =? TXNID_NONE then [] else [x].

(** "undo", indexer-undo-do.cc:169-192 and 323-362: the hot keys of the previous
    record, for which deletes are sent. *)
Definition undo_keys (prev : option xr) : hres (list bytes) :=
  match prev with
  | None => HOk []
  | Some XDel => HOk []
  | Some (XIns v) => hcall (gdel g v)
  | Some XPlace => HBug
  end.

(** "do", indexer-undo-do.cc:198-219 and 367-404: the rows to insert. *)
Definition do_rows (r : xr) : hres (list (bytes * bytes)) :=
  match r with
  | XDel => HOk []
  | XIns v => hcall (gput g v)
  | XPlace => HBug
  end.

(** indexer_ft_delete_* and indexer_ft_insert_*, indexer-undo-do.cc:530-623. *)
Definition m_del (xs : xids) (k : bytes) : hmsg := (k, mkUmsg FT_DELETE_ANY xs).
Definition m_ins (xs : xids) (kv : bytes * bytes) : hmsg := (fst kv, mkUmsg (FT_INSERT (snd kv)) xs).

(** indexer_ft_commit, indexer-undo-do.cc:630-655: nothing is sent for the root
    transaction. *)
Definition m_commit (xs : xids) (k : bytes) : list hmsg :=
  match xs with [] => [] | _ => [(k, mkUmsg FT_COMMIT_ANY xs)] end.

(** One turn of the loop of indexer_undo_do_committed, indexer-undo-do.cc:152-226. *)
Definition committed1 (prev : option xr) (r : uxr) : hres (list hmsg) :=
  let xs := set_xid (ux_xid r) in
  if is_place (ux_xr r) then HBug
  else
    hdo dk <- undo_keys prev;
    hdo rows <- do_rows (ux_xr r);
    HOk (map (m_del xs) dk ++ map (m_ins xs) rows ++ concat (map (m_commit xs) (dk ++ map fst rows))).

(** indexer_undo_do_committed, indexer-undo-do.cc:142-232, bottom to top. *)
Fixpoint committed_loop (prev : option xr) (l : list uxr) : hres (list hmsg) :=
  match l with
  | [] => HOk []
  | r :: l' =>
      hdo a <- committed1 prev r;
      hdo b <- committed_loop (Some (ux_xr r)) l';
      HOk (a ++ b)
  end.

(** The ids of the next messages, indexer-undo-do.cc:292-311. *)
Definition next_xids (first : bool) (st : tstate) (xs : xids) (x : txnid) : hres xids :=
  if first then HOk (set_xid x)
  else match st with
       | TLive => HOk (xs ++ [x])
       | TPreparing => HBug
       | _ => HOk xs
       end.

(** "If the outermost is not live, then the inner state must be retired",
    indexer-undo-do.cc:315-318. *)
Definition inner_ok (outer : tstate) (first : bool) (st : tstate) : bool :=
  match outer, first, st with
  | TLive, _, _ => true
  | _, true, _ => true
  | _, _, TRetired => true
  | _, _, _ => false
  end.

(** Deletes are committed at the end only when the outermost transaction is
    (indexer-undo-do.cc:349-354). *)
Definition is_over (outer : tstate) : bool := match outer with TCommitting | TRetired => true | _ => false end.

(** The loop of indexer_undo_do_provisional, indexer-undo-do.cc:280-408.
    [prev]: the last record before this one that is no placeholder
    (indexer_find_prev_xr, l.514-528; it looks through the committed records
    too).  Returns the messages, the ids at the end and the keys to commit. *)
Fixpoint prov_loop (outer : tstate) (first : bool) (xs : xids) (prev : xr) (ck : list bytes) (l : list (uxr * tstate))
  : hres (list hmsg * xids * list bytes) :=
  match l with
  | [] => HOk ([], xs, ck)
  | (r, TAborting) :: _ => HOk ([], xs, ck)
  | (r, st) :: l' =>
      hdo xs' <- next_xids first st xs (ux_xid r);
      if negb (inner_ok outer first st) then HBug
      else if is_place (ux_xr r) then prov_loop outer false xs' prev ck l'
      else
        hdo dk <- undo_keys (Some prev);
        hdo rows <- do_rows (ux_xr r);
        hdo p <- prov_loop outer false xs' (ux_xr r) (if is_over outer then ck ++ dk else ck) l';
        HOk (map (m_del xs') dk ++ map (m_ins xs') rows ++ fst (fst p), snd (fst p), snd p)
  end.

(** indexer_undo_do_provisional, indexer-undo-do.cc:254-423; [top] is the newest
    committed record. *)
Definition provisional (top : xr) (l : list (uxr * tstate)) : hres (list hmsg) :=
  match l with
  | [] => HOk []
  | (_, outer) :: _ =>
      hdo p <- prov_loop outer true [] top [] l;
      HOk (fst (fst p) ++ concat (map (m_commit (snd (fst p))) (snd p)))
  end.
End Hot.

(** toku_txn_pin_live_txn_unlocked and toku_txn_unpin_live_txn (ft/txn/txn.cc:689-706):
    one counter stands for the pin counts of all live transactions of the row, which
    move together. *)
Definition is_pinned (s : tstate) : bool := match s with TLive | TPreparing => true | _ => false end.
(** release_txns, indexer-undo-do.cc:234-252: [None] is the failed assert num_pin > 0. *)
Definition release (st : list tstate) (pins : nat) : option nat :=
  if existsb is_pinned st then match pins with O => None | S p => Some p end else Some pins.

Definition newest (u : ule) : xr := match cx u with [] => XDel | c :: _ => ux_xr c end.

(** The loop over the hot dictionaries, src/indexer.cc:573-586, each turn
    indexer_undo_do (indexer-undo-do.cc:425-437).  The second result is the pin
    count that is left. *)
Fixpoint index_dbs (dbs : list hotdb) (u : ule) (st : list tstate) (pins : nat) : hres (list (list hmsg)) * nat :=
  match dbs with
  | [] => (HOk [], pins)
  | g :: dbs' =>
      match committed_loop g None (rev (cx u)) with
      | HErr => (HErr, pins)
      | HBug => (HBug, pins)
      | HOk a =>
          match provisional g (newest u) (combine (px u) st) with
          | HBug => (HBug, pins)
          | r =>
              match (match px u with [] => Some pins | _ => release st pins end) with
              | None => (HBug, pins)
              | Some pins' =>
                  match r with
                  | HOk b =>
                      let p := index_dbs dbs' u st pins' in
                      (hdo rest <- fst p; HOk ((a ++ b) :: rest), snd p)
                  | _ => (HErr, pins')
                  end
              end
          end
      end
  end.

(** One turn of build_index, src/indexer.cc:540-600: indexer_fill_prov_info
    (l.396-483) pins the live transactions of the row once. *)
Definition index_row (dbs : list hotdb) (u : ule) (st : list tstate) : hres (list (list hmsg)) * nat :=
  index_dbs dbs u st (if existsb is_pinned st then 1%nat else 0%nat).

(** No transaction id is below any bound: nothing is promoted or collected while
    the messages arrive.  Garbage collection is what C02, C03 and C44 are about. *)
Definition gi_keep : gc_info := mkGcInfo None 0 0 true.

(** Messages for one key, each applied by toku_le_apply_msg (ft/ule.cc:484-577). *)
Fixpoint apply_all (ms : list umsg) (o : option ule) : option (option ule) :=
  match ms with
  | [] => Some o
  | m :: ms' => do (o', _) <- le_apply_msg m o gi_keep; apply_all ms' o'
  end.

(** What the messages leave in row [hk] of the hot dictionary, which is empty
    before.  (That a dictionary is this, key by key, is C20 and C47.) *)
Definition hot_row (c : bytes -> bytes -> comparison) (hk : bytes) (ms : list hmsg) : option (option ule) :=
  apply_all (map snd (filter (fun m => keqb c hk (fst m)) ms)) None.
