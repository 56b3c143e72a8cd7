(** Model of the unpacked leaf entry of ft/ule.cc: how one row of a dictionary
    absorbs messages, promotes provisional values and collects garbage.

    Definitions only; the statements are in [Props*.v]. *)
From Verif Require Import Base.
Open Scope N_scope.

(** ft/ule-internal.h:55-57 (XR_INSERT, XR_DELETE, XR_PLACEHOLDER) together
    with the value of the record: an insert carries its bytes (valp/vallen). *)
Inductive xr := XIns (v : list N) | XDel | XPlace.

(** ft/ule-internal.h:59-66, struct uxr. *)
Record uxr := mkUxr { ux_xid : txnid; ux_xr : xr }.

(** ft/ule-internal.h:71-77, struct ule.  The C array [uxrs] is
    [rev cx ++ px]: [cx] is the committed stack, newest first (uxrs[num_cuxrs-1]
    is the head, uxrs[0] the last element); [px] is the provisional stack,
    outermost first (uxrs[num_cuxrs] is the head).  [ucap] is the number of
    elements the array was allocated with; a push at or above it is undefined
    behaviour ([None]). *)
Record ule := mkUle { cx : list uxr; px : list uxr; ucap : nat }.

(** ft/txn/xids.h:63-66. *)
Definition MAX_NESTED_TRANSACTIONS : nat := 253.
Definition MAX_TRANSACTION_RECORDS : nat := 254.

(** The stack of nested transaction ids carried by a message, outermost first
    (ft/txn/xids.h:76-81). *)
Definition xids := list txnid.

(** ft/txn/xids.cc:181-191 toku_xids_get_innermost_xid. *)
Definition xids_innermost (xs : xids) : txnid := last xs TXNID_NONE.

(** ft/ule.cc:2061-2086 uxr_is_insert, uxr_is_delete, uxr_is_placeholder. *)
Definition is_ins (r : xr) : bool := match r with XIns _ => true | _ => false end.
Definition is_del (r : xr) : bool := match r with XDel => true | _ => false end.
Definition is_place (r : xr) : bool := match r with XPlace => true | _ => false end.

(** ft/ule.cc:1586-1591 ule_init_empty_ule: one committed delete, static array
    of 2*MAX_TRANSACTION_RECORDS (ule-internal.h:74). *)
Definition ule_init_empty : ule :=
  mkUle [mkUxr TXNID_NONE XDel] [] (2 * MAX_TRANSACTION_RECORDS).

(** Capacity chosen by le_unpack, ft/ule.cc:832-839. *)
Definition unpack_cap (num_cuxrs : nat) : nat :=
  if (num_cuxrs <? MAX_TRANSACTION_RECORDS)%nat
  then (2 * MAX_TRANSACTION_RECORDS)%nat
  else (num_cuxrs + 1 + MAX_TRANSACTION_RECORDS)%nat.

(** ft/ule.cc:1937-1941 ule_get_innermost_uxr. *)
Definition ule_innermost (u : ule) : option uxr :=
  match cx u with
  | [] => None
  | c :: _ => Some (last (px u) c)
  end.

(** ft/ule.cc:1966-1975 ule_get_innermost_xid / ule_get_xid (for an empty stack
    the index wraps and the invariant fails). *)
Definition ule_innermost_xid (u : ule) : option txnid :=
  do r <- ule_innermost u; Some (ux_xid r).

(** ft/ule.cc:1944-1948 ule_get_first_empty_uxr, and the write through the
    pointer it returns. *)
Definition first_empty_ok (u : ule) : bool :=
  (length (px u) <? MAX_TRANSACTION_RECORDS - 1)%nat
  && (length (cx u) + length (px u) <? ucap u)%nat.

(** ft/ule.cc:1892-1924 ule_push_insert_uxr and ule_push_delete_uxr. *)
Definition ule_push (u : ule) (is_committed : bool) (xid : txnid) (r : xr)
  : option ule :=
  guard first_empty_ok u;
  if is_committed then
    guard is_nil (px u);
    Some (mkUle (mkUxr xid r :: cx u) (px u) (ucap u))
  else Some (mkUle (cx u) (px u ++ [mkUxr xid r]) (ucap u)).

(** ft/ule.cc:1928-1934 ule_push_placeholder_uxr. *)
Definition ule_push_placeholder (u : ule) (xid : txnid) : option ule :=
  guard negb (is_nil (cx u));
  guard first_empty_ok u;
  Some (mkUle (cx u) (px u ++ [mkUxr xid XPlace]) (ucap u)).

(** ft/ule.cc:1952-1964 ule_remove_innermost_uxr. *)
Definition ule_remove_innermost (u : ule) : option ule :=
  match cx u with
  | [] => None
  | c :: rest =>
      if negb (is_nil (px u)) then
        Some (mkUle (cx u) (removelast (px u)) (ucap u))
      else
        guard is_nil rest;
        guard (ux_xid c =? TXNID_NONE);
        Some (mkUle [] [] (ucap u))
  end.

(** ft/ule.cc:1981-1988 ule_remove_innermost_placeholders.  The loop removes one
    record per turn; the fuel is the number of provisional records plus one, and
    running out of it is [None]. *)
Fixpoint ule_remove_innermost_placeholders (fuel : nat) (u : ule) : option ule :=
  match fuel with
  | O => None
  | S fuel =>
      do r <- ule_innermost u;
      if is_place (ux_xr r) then
        guard negb (is_nil (px u));
        do u' <- ule_remove_innermost u;
        ule_remove_innermost_placeholders fuel u'
      else Some u
  end.

(** The debug loop of ft/ule.cc:2006-2010: the provisional xids are a prefix of
    the message's xids (num_xids >= num_puxrs is checked before it, l.2003). *)
Fixpoint xids_match_prefix (p : list uxr) (xs : xids) : bool :=
  match p, xs with
  | [], _ => true
  | r :: p', x :: xs' => (ux_xid r =? x) && xids_match_prefix p' xs'
  | _ :: _, [] => false
  end.

(** The loop of ft/ule.cc:2011-2014. *)
Fixpoint push_placeholders (u : ule) (xs : xids) : option ule :=
  match xs with
  | [] => Some u
  | x :: xs' => do u' <- ule_push_placeholder u x; push_placeholders u' xs'
  end.

(** ft/ule.cc:1995-2015 ule_add_placeholders.  With an empty [xs] the bound
    [num_xids-1] wraps to 2^32-1 and the first toku_xids_get_xid fails its
    invariant (ft/txn/xids.cc:166-172): [None]. *)
Definition ule_add_placeholders (u : ule) (xs : xids) : option ule :=
  guard negb (is_nil (cx u));
  guard xids_match_prefix (px u) xs;
  guard negb (is_nil xs);
  push_placeholders u (skipn (length (px u)) (removelast xs)).

(** ft/ule.cc:1782-1796 ule_prepare_for_new_uxr. *)
Definition ule_prepare_for_new_uxr (u : ule) (xs : xids) : option ule :=
  let this_xid := xids_innermost xs in
  do ixid <- ule_innermost_xid u;
  if (this_xid =? TXNID_NONE) && (ixid =? TXNID_NONE) then
    ule_remove_innermost u
  else if negb (is_nil (px u)) && (ixid =? this_xid) then
    ule_remove_innermost u
  else ule_add_placeholders u xs.

(** ft/ule.cc:1652-1674 ule_promote_provisional_innermost_to_committed. *)
Definition ule_promote_to_committed (u : ule) : option ule :=
  match px u with
  | [] => None
  | outer :: _ =>
      do inner <- ule_innermost u;
      guard negb (is_place (ux_xr inner));
      ule_push (mkUle (cx u) [] (ucap u)) true (ux_xid outer) (ux_xr inner)
  end.

(** ft/ule.cc:1690-1713 ule_promote_provisional_innermost_to_index; [i] is
    index - num_cuxrs. *)
Definition ule_promote_to_index (u : ule) (i : nat) : option ule :=
  guard (i <? length (px u) - 1)%nat;
  do inner <- ule_innermost u;
  guard negb (is_place (ux_xr inner));
  do r <- nth_error (px u) i;
  ule_push (mkUle (cx u) (firstn i (px u)) (ucap u)) false
           (ux_xid r) (ux_xr inner).

(** Length of the common prefix of the two xid stacks: the loop of
    ft/ule.cc:1630-1638 sets ica_index = num_cuxrs + common - 1. *)
Fixpoint common_prefix (p : list uxr) (xs : xids) : nat :=
  match p, xs with
  | r :: p', x :: xs' => if x =? ux_xid r then S (common_prefix p' xs') else O
  | _, _ => O
  end.

(** ft/ule.cc:1621-1651 ule_do_implicit_promotions. *)
Definition ule_do_implicit_promotions (u : ule) (xs : xids) : option ule :=
  if is_nil (px u) then Some u
  else
    guard negb (is_nil xs);
    match common_prefix (px u) xs with
    | O => ule_promote_to_committed u
    | S ica =>
        if (ica <? length (px u) - 1)%nat then ule_promote_to_index u ica
        else Some u
    end.

(** ft/ule.cc:1676-1685 ule_try_promote_provisional_outermost. *)
Definition ule_try_promote_outermost (u : ule) (oldest : txnid) : option ule :=
  match px u with
  | [] => Some u
  | outer :: _ =>
      if ux_xid outer <? oldest then ule_promote_to_committed u else Some u
  end.

(** ft/ule.cc:1721-1740 ule_apply_insert_no_overwrite.  IS_VALID_LEN is
    vallen < 2^31 (ule.cc:115). *)
Definition ule_apply_insert_no_overwrite (u : ule) (xs : xids) (v : list N)
  : option (ule * Z) :=
  guard (N.of_nat (length v) <? 2^31);
  do old <- ule_innermost u;
  if is_ins (ux_xr old) then Some (u, -1)%Z
  else
    do u1 <- ule_prepare_for_new_uxr u xs;
    let this_xid := xids_innermost xs in
    do u2 <- ule_push u1 (this_xid =? TXNID_NONE) this_xid (XIns v);
    Some (u2, 0%Z).

(** ft/ule.cc:1743-1761 ule_apply_insert. *)
Definition ule_apply_insert (u : ule) (xs : xids) (v : list N)
  : option (ule * Z) :=
  guard (N.of_nat (length v) <? 2^31);
  do old <- ule_innermost u;
  let retval := if is_ins (ux_xr old) then (-1)%Z else 0%Z in
  do u1 <- ule_prepare_for_new_uxr u xs;
  let this_xid := xids_innermost xs in
  do u2 <- ule_push u1 (this_xid =? TXNID_NONE) this_xid (XIns v);
  Some (u2, retval).

(** ft/ule.cc:1764-1775 ule_apply_delete. *)
Definition ule_apply_delete (u : ule) (xs : xids) : option (ule * Z) :=
  do old <- ule_innermost u;
  let retval := if is_del (ux_xr old) then 1%Z else 0%Z in
  do u1 <- ule_prepare_for_new_uxr u xs;
  let this_xid := xids_innermost xs in
  do u2 <- ule_push u1 (this_xid =? TXNID_NONE) this_xid XDel;
  Some (u2, retval).

(** ft/ule.cc:1806-1842 ule_apply_abort. *)
Definition ule_apply_abort (u : ule) (xs : xids) : option (ule * Z) :=
  let this_xid := xids_innermost xs in
  guard negb (this_xid =? TXNID_NONE);
  do inner <- ule_innermost u;
  if negb (is_nil (px u)) && (ux_xid inner =? this_xid) then
    let single := ((length (px u) =? 1)%nat && (length (cx u) =? 1)%nat) in
    let bottom := match cx u with c :: _ => ux_xr c | [] => XPlace end in
    let retval :=
      match ux_xr inner with
      | XDel => if single && is_del bottom then 0%Z else 1%Z
      | XIns _ => if single && is_ins bottom then 0%Z else (-1)%Z
      | XPlace => 0%Z
      end in
    do u1 <- ule_remove_innermost u;
    do u2 <- ule_remove_innermost_placeholders (S (length (px u1))) u1;
    guard negb (is_nil (cx u2));
    Some (u2, retval)
  else
    guard negb (is_nil (cx u));
    Some (u, 0%Z).

(** ft/ule.cc:1844-1849 ule_apply_broadcast_commit_all. *)
Definition ule_apply_broadcast_commit_all (u : ule) : option ule :=
  do inner <- ule_innermost u;
  Some (mkUle [mkUxr TXNID_NONE (ux_xr inner)] [] (ucap u)).

(** ft/ule.cc:1859-1885 ule_apply_commit. *)
Definition ule_apply_commit (u : ule) (xs : xids) : option ule :=
  let this_xid := xids_innermost xs in
  guard negb (this_xid =? TXNID_NONE);
  if is_nil (px u) then Some u
  else
    do ixid <- ule_innermost_xid u;
    if ixid =? this_xid then
      if (length (px u) =? 1)%nat then ule_promote_to_committed u
      else ule_promote_to_index u (length (px u) - 2)
    else Some u.

(** ft/ule.cc:774-790 ule_optimize. *)
Definition ule_optimize (u : ule) (xs : xids) : option ule :=
  match px u with
  | [] => Some u
  | outer :: _ =>
      match xs with
      | [] => ule_promote_to_committed u
      | [oldest] =>
          if (oldest =? TXNID_NONE) || (ux_xid outer <? oldest)
          then ule_promote_to_committed u else Some u
      | _ => None
      end
  end.

(** Message types, ft/msg.h:56-76 (enum ft_msg_type), with the value carried
    by inserts.  FT_NONE has no constructor: it is never sent. *)
Inductive msg_type :=
| FT_INSERT (v : list N)
| FT_INSERT_NO_OVERWRITE (v : list N)
| FT_DELETE_ANY
| FT_ABORT_ANY
| FT_ABORT_BROADCAST_TXN
| FT_COMMIT_BROADCAST_ALL
| FT_COMMIT_ANY
| FT_COMMIT_BROADCAST_TXN
| FT_OPTIMIZE
| FT_OPTIMIZE_FOR_UPGRADE
| FT_UPDATE
| FT_UPDATE_BROADCAST_ALL.

Record umsg := mkUmsg { um_type : msg_type; um_xids : xids }.

Definition is_optimize (t : msg_type) : bool :=
  match t with FT_OPTIMIZE | FT_OPTIMIZE_FOR_UPGRADE => true | _ => false end.

(** ft/ule.cc:713-768 msg_modify_ule; the integer is the returned logical row
    count delta. *)
Definition msg_modify_ule (u : ule) (m : umsg) : option (ule * Z) :=
  let xs := um_xids m in
  guard (length xs <? MAX_TRANSACTION_RECORDS)%nat;
  do u1 <- (if is_optimize (um_type m) then Some u
            else ule_do_implicit_promotions u xs);
  match um_type m with
  | FT_INSERT_NO_OVERWRITE v => ule_apply_insert_no_overwrite u1 xs v
  | FT_INSERT v => ule_apply_insert u1 xs v
  | FT_DELETE_ANY => ule_apply_delete u1 xs
  | FT_ABORT_ANY | FT_ABORT_BROADCAST_TXN => ule_apply_abort u1 xs
  | FT_COMMIT_BROADCAST_ALL =>
      do u2 <- ule_apply_broadcast_commit_all u1; Some (u2, 0%Z)
  | FT_COMMIT_ANY | FT_COMMIT_BROADCAST_TXN =>
      do u2 <- ule_apply_commit u1 xs; Some (u2, 0%Z)
  | FT_OPTIMIZE | FT_OPTIMIZE_FOR_UPGRADE =>
      do u2 <- ule_optimize u1 xs; Some (u2, 0%Z)
  | FT_UPDATE | FT_UPDATE_BROADCAST_ALL => None
  end.

(** * Garbage collection *)

(** ft/txn/txn_manager.h:60-64 referenced_xid_tuple. *)
Record rxt := mkRxt { rx_begin : txnid; rx_end : txnid; rx_refs : N }.

(** The OMTs cloned by txn_manager_state::init (ft/txn/txn_manager.h:85-117),
    as sorted lists.  The searches below are the OMT searches of util/omt.cc
    on a sorted sequence. *)
Record gc_state := mkGc {
  g_snapshots : list txnid;     (* snapshot_xids *)
  g_referenced : list rxt;      (* referenced_xids *)
  g_live : list txnid           (* live_root_txns *)
}.

(** omt.find<_, toku_find_xid_by_xid>(x, -1, ..): the last element smaller
    than x in a sorted OMT; TXNID_NONE stands for DB_NOTFOUND.
    ft/ule.cc:236-248 get_next_older_txnid. *)
Definition find_older (l : list txnid) (x : txnid) : txnid :=
  last (filter (fun e => e <? x) l) TXNID_NONE.

(** ft/txn/txn_manager.cc:670-692 toku_get_youngest_live_list_txnid_for. *)
Definition youngest_live_list_for (xc : txnid) (snaps : list txnid)
  (refd : list rxt) : txnid :=
  match find (fun t => rx_begin t =? xc) refd with
  | None => TXNID_NONE
  | Some t =>
      let live := find_older snaps (rx_end t) in
      if rx_begin t <? live then live else TXNID_NONE
  end.

(** ft/ule.cc:253-283 xid_reads_committed_xid. *)
Definition xid_reads_committed_xid (tl1 xc : txnid) (snaps : list txnid)
  (refd : list rxt) : bool :=
  if tl1 <? xc then false
  else
    let x := youngest_live_list_for xc snaps refd in
    if x =? TXNID_NONE then true else x <? tl1.

(** toku_is_txn_in_live_root_txn_list, ft/txn/txn.cc:612-624. *)
Definition in_live_list (l : list txnid) (x : txnid) : bool :=
  existsb (N.eqb x) l.

(** "New 'bottom of stack' loses its TXNID", ft/ule.cc:324 and 427. *)
Fixpoint zero_bottom (c : list uxr) : list uxr :=
  match c with
  | [] => []
  | [r] => [mkUxr TXNID_NONE (ux_xr r)]
  | r :: c' => r :: zero_bottom c'
  end.

(** The two nested loops of ft/ule.cc:347-411 on the committed stack, newest
    first.  [search = None] is the outer loop (the head is necessary);
    [search = Some tl1] is the inner loop looking for the first record tl1
    reads.  The result keeps exactly the records marked necessary. *)
Fixpoint gc_walk (g : gc_state) (search : option txnid) (c : list uxr)
  : option (list uxr) :=
  match c with
  | [] => Some []
  | r :: rest =>
      let necessary :=
        match search with
        | None => true
        | Some tl1 =>
            is_nil rest
            || xid_reads_committed_xid tl1 (ux_xid r) (g_snapshots g) (g_referenced g)
        end in
      if necessary then
        if is_nil rest then Some [r]
        else if in_live_list (g_live g) (ux_xid r) then
          do k <- gc_walk g None rest; Some (r :: k)
        else
          let tl := youngest_live_list_for (ux_xid r) (g_snapshots g) (g_referenced g) in
          guard negb (tl =? ux_xid r);
          let tl1 := if tl =? TXNID_NONE
                     then find_older (g_snapshots g) (ux_xid r) else tl in
          if tl1 =? TXNID_NONE then Some [r]
          else do k <- gc_walk g (Some tl1) rest; Some (r :: k)
      else gc_walk g search rest
  end.

(** ft/ule.cc:331-437 ule_garbage_collect. *)
Definition ule_garbage_collect (u : ule) (g : gc_state) : option ule :=
  match cx u with
  | [] => None
  | [_] => Some u
  | _ =>
      do k <- gc_walk g None (cx u);
      guard negb (is_nil k);
      Some (mkUle (zero_bottom k) (px u) (ucap u))
  end.

(** Keep the stack down to the first record (from the top) whose xid is below
    [oldest]; the loop of ft/ule.cc:303-309. *)
Fixpoint keep_until_older (oldest : txnid) (c : list uxr) : list uxr :=
  match c with
  | [] => []
  | r :: c' => if ux_xid r <? oldest then [r] else r :: keep_until_older oldest c'
  end.

(** ft/ule.cc:292-330 ule_simple_garbage_collection.  When no record qualifies
    the loop ends at index 0 and nothing is removed. *)
Definition ule_simple_gc (u : ule) (mvcc_needed : bool) (oldest : txnid) : ule :=
  match cx u with
  | [] | [_] => u
  | c :: rest =>
      let k := if mvcc_needed then keep_until_older oldest (c :: rest) else [c] in
      if (length k =? length (cx u))%nat then u
      else mkUle (zero_bottom k) (px u) (ucap u)
  end.

(** * Packed size (used by the heuristics) *)

Definition xr_len (r : xr) : N :=
  match r with XIns v => N.of_nat (length v) | _ => 0 end.

Fixpoint sumN {A} (f : A -> N) (l : list A) : N :=
  match l with [] => 0 | a :: l' => f a + sumN f l' end.

(** ft/ule.cc:1175-1215 le_memsize_from_ule.  The 32-bit products
    4*num_cuxrs and 8*(..) are written without wrap-around; they cannot wrap
    below 2^29 records. *)
Definition le_memsize_from_ule (u : ule) : option N :=
  match cx u, px u with
  | [], _ => None
  | [c], [] => guard is_ins (ux_xr c); Some (1 + 4 + xr_len (ux_xr c))
  | _, _ =>
      let nc := N.of_nat (length (cx u)) in
      let np := N.of_nat (length (px u)) in
      let base := 1 + 4 + 1 + 4 * nc + 8 * (nc + np - 1)
                  + sumN (fun r => xr_len (ux_xr r)) (cx u) in
      match ule_innermost u with
      | None => None
      | Some inner =>
          if is_nil (px u) then Some base
          else Some (base + xr_len (ux_xr inner) + 4 + (np - 1)
                     + sumN (fun r => if is_ins (ux_xr r)
                                      then 4 + xr_len (ux_xr r) else 0)
                            (removelast (px u)))
      end
  end.

(** ft/ule.cc:439-450 ule_packed_memsize. *)
Definition ule_packed_memsize (u : ule) : option N :=
  match cx u, px u with
  | [c], [] => if is_del (ux_xr c) then Some 0 else le_memsize_from_ule u
  | _, _ => le_memsize_from_ule u
  end.

(** ft/ule.cc:454-457. *)
Definition ULE_MIN_STACK_SIZE_TO_FORCE_GC : nat := 5.
Definition ULE_MIN_MEMSIZE_TO_FORCE_GC : N := 1024 * 1024.

(** ft/txn/txn_manager.h:120-148 txn_gc_info.  [gi_state] is txn_state_for_gc:
    [None] for a null pointer, otherwise the [initialized] flag and the state
    it holds or would hold after init(). *)
Record gc_info := mkGcInfo {
  gi_state : option (bool * gc_state);
  gi_oldest_simple : txnid;
  gi_oldest_promo : txnid;
  gi_mvcc : bool
}.

(** ft/ule.cc:1016-1036: le_pack stores nothing when no record is an insert. *)
Definition has_insert (u : ule) : bool :=
  existsb (fun r => is_ins (ux_xr r)) (cx u)
  || existsb (fun r => is_ins (ux_xr r)) (px u).

(** The checks of le_pack, ft/ule.cc:1007-1008, 1065; [None] inside the result
    is a destroyed leaf entry (new_leafentry_p set to NULL). *)
Definition le_pack_check (u : ule) : option (option ule) :=
  match cx u with
  | [] => None
  | c :: _ =>
      guard (ux_xid (last (cx u) c) =? TXNID_NONE);
      if has_insert u then
        guard (length (px u) <? MAX_TRANSACTION_RECORDS)%nat;
        Some (Some u)
      else Some None
  end.

(** What le_unpack rebuilds from a packed entry (the packing itself is in
    [LeCodec]): the same stacks in a freshly sized array. *)
Definition ule_reload (u : ule) : ule :=
  mkUle (cx u) (px u) (unpack_cap (length (cx u))).

(** The part of toku_le_apply_msg after msg_modify_ule, ft/ule.cc:516-551. *)
Definition ule_post_process (u : ule) (gi : gc_info) : option ule :=
  do u1 <- ule_try_promote_outermost u (gi_oldest_promo gi);
  let u2 := ule_simple_gc u1 (gi_mvcc gi) (gi_oldest_simple gi) in
  match gi_state gi with
  | None => Some u2
  | Some (initialized, g) =>
      if (1 <? length (cx u2))%nat then
        if initialized || (ULE_MIN_STACK_SIZE_TO_FORCE_GC <=? length (cx u2))%nat
        then ule_garbage_collect u2 g
        else
          do sz <- ule_packed_memsize u2;
          if ULE_MIN_MEMSIZE_TO_FORCE_GC <=? sz then ule_garbage_collect u2 g
          else Some u2
      else Some u2
  end.

(** ft/ule.cc:484-577 toku_le_apply_msg on unpacked entries: [None] as the old
    entry is a key that is not stored. *)
Definition le_apply_msg (m : umsg) (old : option ule) (gi : gc_info)
  : option (option ule * Z) :=
  let u := match old with None => ule_init_empty | Some u => ule_reload u end in
  do (u1, delta) <- msg_modify_ule u m;
  do u2 <- ule_post_process u1 gi;
  do le <- le_pack_check u2;
  Some (le, delta).

(** ft/ule.cc:623-694 toku_le_garbage_collect. *)
Definition le_garbage_collect (old : ule) (gi : gc_info) : option (option ule) :=
  match gi_state gi with
  | None => None
  | Some (_, g) =>
      do u1 <- ule_try_promote_outermost (ule_reload old) (gi_oldest_promo gi);
      do u2 <- (if (1 <? length (cx u1))%nat then ule_garbage_collect u1 g
                else Some u1);
      le_pack_check u2
  end.

(** ft/ule.cc:579-602 toku_le_worth_running_garbage_collection. *)
Definition le_worth_gc (u : ule) (gi : gc_info) : bool :=
  match cx u, px u with
  | [_], [] => false                    (* packed as LE_CLEAN *)
  | _ :: _ :: _, _ => true
  | _, outer :: _ => ux_xid outer <? gi_oldest_promo gi
  | _, _ => false
  end.

(** * Readers *)

(** What a reader needs of its transaction (ft/txn/txn.h:128-170): the snapshot
    id, the list of root transactions live at the snapshot (sorted), and its own
    root id. *)
Record reader := mkReader {
  rd_snapshot : txnid;
  rd_live : list txnid;
  rd_root : txnid
}.

(** toku_get_oldest_in_live_root_txn_list, ft/txn/txn.cc:600-610. *)
Definition oldest_in_live (l : list txnid) : txnid := hd TXNID_NONE l.

(** ft/txn/txn.cc:727-743 toku_txn_reads_txnid (force_recovery is 0). *)
Definition txn_reads_txnid (x : txnid) (rd : reader) : bool :=
  let oldest := oldest_in_live (rd_live rd) in
  if (oldest =? TXNID_NONE) && (x <? rd_snapshot rd) then true
  else if (x <? oldest) || (x =? rd_root rd) then true
  else if (rd_snapshot rd <? x) || in_live_list (rd_live rd) x then false
  else true.

(** The committed part of le_iterate_get_accepted_index, ft/ule.cc:2101-2125:
    the bottom record is accepted without a test. *)
Fixpoint accepted_committed (f : txnid -> bool) (c : list uxr) : option xr :=
  match c with
  | [] => None
  | [r] => Some (ux_xr r)
  | r :: c' => if f (ux_xid r) then Some (ux_xr r) else accepted_committed f c'
  end.

(** le_iterate_val / le_iterate_is_del, ft/ule.cc:2157-2238, 2295-2414: the outermost
    provisional xid is tested first and stands for the innermost provisional
    value; [fp] and [fc] are the callback's answers for a provisional and for a
    committed xid. *)
Definition le_iterate (fp fc : txnid -> bool) (u : ule) : option xr :=
  match px u with
  | [] => accepted_committed fc (cx u)
  | outer :: _ =>
      if fp (ux_xid outer) then do i <- ule_innermost u; Some (ux_xr i)
      else accepted_committed fc (cx u)
  end.

Inductive read_type := C_READ_ANY | C_READ_SNAPSHOT | C_READ_COMMITTED.

(** le_val_is_del / le_extract_val, ft/ule.cc:2254-2274, 2416-2440: the value a
    cursor sees in a stored row: [Some None] is "no such key". *)
Definition le_read (rt : read_type) (rd : reader) (u : ule)
  : option (option (list N)) :=
  do r <- (match rt with
           | C_READ_SNAPSHOT =>
               le_iterate (fun x => txn_reads_txnid x rd)
                          (fun x => txn_reads_txnid x rd) u
           | C_READ_COMMITTED =>
               le_iterate (fun x => txn_reads_txnid x rd) (fun _ => true) u
           | C_READ_ANY => do i <- ule_innermost u; Some (ux_xr i)
           end);
  Some (match r with XIns v => Some v | _ => None end).

(** A missing leaf entry reads as "no such key". *)
Definition row_read (rt : read_type) (rd : reader) (o : option ule)
  : option (option (list N)) :=
  match o with None => Some None | Some u => le_read rt rd u end.
