(** Model of the transaction id stacks, ft/txn/xids.cc and ft/txn/xids.h.

    toku_htod64/toku_dtoh64 are the identity on the supported little-endian machines. *)
From Verif Require Import Base Bytes WbufModel.
Open Scope N_scope.

(** xids.h:62-65: MAX_NESTED_TRANSACTIONS and MAX_TRANSACTION_RECORDS. *)
Definition MAX_NESTED_TRANSACTIONS : N := 253.
Definition MAX_TRANSACTION_RECORDS : N := MAX_NESTED_TRANSACTIONS + 1.
Definition EINVAL : N := 22.

(** struct XIDS_S (xids.h:72-77): [x_num] is the uint8_t num_xids, [x_ids] the allocated
    array ids, outermost first.  The array may be longer than [x_num] says. *)
Record xids := mkXids { x_num : N; x_ids : list N }.

(** toku_xids_get_root_xids (81-89). *)
Definition root_xids : xids := mkXids 0 [].

(** toku_xids_can_create_child (91-95). *)
Definition can_create_child (x : xids) : option bool :=
  guard x_num x <? MAX_TRANSACTION_RECORDS;
  Some (negb (x_num x + 1 =? MAX_TRANSACTION_RECORDS)).

(** toku_xids_create_unknown_child (97-114): a copy with room for one more id; what the
    new memory holds is [junk]. *)
Definition create_unknown_child (junk : N) (x : xids) : option xids :=
  guard x_num x + 1 <? MAX_TRANSACTION_RECORDS;
  Some (mkXids (x_num x) (firstn (N.to_nat (x_num x)) (x_ids x) ++ [junk])).

(** Storing into the array at an index: out of the allocated array is undefined. *)
Fixpoint store (l : list N) (i : nat) (v : N) : option (list N) :=
  match l, i with
  | [], _ => None
  | _ :: l', O => Some (v :: l')
  | a :: l', S i' => do l'' <- store l' i' v; Some (a :: l'')
  end.

(** toku_xids_finalize_with_child (116-123); num_xids is a uint8_t. *)
Definition finalize_with_child (x : xids) (this_xid : N) : option xids :=
  let num := (x_num x + 1) mod 256 in
  guard 0 <? num;
  do ids <- store (x_ids x) (N.to_nat (num - 1)) this_xid;
  Some (mkXids num ids).

(** toku_xids_create_child (127-138): the return value, and *xids_p when it was set. *)
Definition create_child (junk : N) (parent : xids) (this_xid : N) : option (N * option xids) :=
  do can <- can_create_child parent;
  if negb can then Some (EINVAL, None) else
  do u <- create_unknown_child junk parent;
  do x <- finalize_with_child u this_xid;
  Some (0, Some x).

(** toku_txn_begin_with_xid, the part about ids (txn.cc:134-139, 180-183) with
    txn_create_xids (103-117).  The parent's ids are [None] for a root transaction.  A
    read only transaction has no ids. *)
Definition txn_begin_xids (junk : N) (read_only : bool) (parent : option xids) (this_xid : N)
  : option (N * option xids) :=
  do can <- (if read_only then Some true else match parent with None => Some true | Some p => can_create_child p end);
  if negb can then Some (EINVAL, None) else
  if read_only then Some (0, None) else
  do u <- create_unknown_child junk (match parent with None => root_xids | Some p => p end);
  do x <- finalize_with_child u this_xid;
  Some (0, Some x).

(** toku_xids_get_xid (163-169). *)
Definition get_xid (x : xids) (i : N) : option N :=
  guard i <? x_num x;
  nth_error (x_ids x) (N.to_nat i).
(** toku_xids_get_innermost_xid (178-187). *)
Definition innermost_xid (x : xids) : option N :=
  if x_num x =? 0 then Some TXNID_NONE else get_xid x ((x_num x - 1) mod 256).
(** toku_xids_get_outermost_xid (189-196). *)
Definition outermost_xid (x : xids) : option N :=
  if x_num x =? 0 then Some TXNID_NONE else get_xid x 0.

(** toku_xids_get_size (205-211): sizeof XIDS_S is 1, the struct is packed.
    toku_xids_get_serialize_size (213-220). *)
Definition xids_size (x : xids) : N := 1 + x_num x * 8.
Definition xids_serialize_size (x : xids) : N := 1 + 8 * x_num x.

(** wbuf_nocrc_xids (228-234): the loop over the index. *)
Fixpoint wput_ids (w : wbuf) (x : xids) (i : nat) (n : nat) : option wbuf :=
  match n with
  | O => Some w
  | S n' =>
      do id <- nth_error (x_ids x) i;
      do w1 <- wbuf_nocrc_ull w id;
      wput_ids w1 x (S i) n'
  end.
Definition wbuf_nocrc_xids (w : wbuf) (x : xids) : option wbuf :=
  do w1 <- wbuf_nocrc_char w (x_num x);
  wput_ids w1 x 0 (N.to_nat (x_num x)).

(** toku_xids_create_from_buffer (140-152). *)
Fixpoint rget_ids (r : rbuf) (n : nat) : option (list N * rbuf) :=
  match n with
  | O => Some ([], r)
  | S n' =>
      do (id, r1) <- rbuf_ull r;
      do (ids, r2) <- rget_ids r1 n';
      Some (id :: ids, r2)
  end.
Definition create_from_buffer (r : rbuf) : option (xids * rbuf) :=
  do (num, r1) <- rbuf_char r;
  guard num <? MAX_TRANSACTION_RECORDS;
  do (ids, r2) <- rget_ids r1 (N.to_nat num);
  Some (mkXids num ids, r2).
