(** Model of the packed leaf entry of ft/ule.cc and ft/leafentry.h: packing,
    unpacking and the accessors that read the packed bytes directly.

    A read past the end of the byte string is undefined behaviour: [None].
    Values are byte lists; a pointer to a value is modelled by the bytes it
    points to. *)
From Verif Require Import Base Bytes UleModel.
Open Scope N_scope.

(** * Reading *)

(** Load a [k]-byte little-endian integer and advance. *)
Definition rd (k : nat) (bs : bytes) : option (N * bytes) :=
  if (length bs <? k)%nat then None
  else Some (le_val (firstn k bs), skipn k bs).

Definition rd_bytes (n : N) (bs : bytes) : option (bytes * bytes) :=
  if len bs <? n then None
  else Some (firstn (N.to_nat n) bs, skipn (N.to_nat n) bs).

(** p += n *)
Definition skip (n : N) (bs : bytes) : option bytes :=
  do (_, bs') <- rd_bytes n bs; Some bs'.

Fixpoint rd_list {A} (p : bytes -> option (A * bytes)) (n : nat) (bs : bytes)
  : option (list A * bytes) :=
  match n with
  | O => Some ([], bs)
  | S n' => do (a, bs1) <- p bs; do (l, bs2) <- rd_list p n' bs1; Some (a :: l, bs2)
  end.

(** ft/ule.cc:111-114 INSERT_LENGTH, DELETE_LENGTH, IS_INSERT, GET_LENGTH. *)
Definition length_and_bit (r : xr) : N :=
  match r with XIns v => N.lor (2 ^ 31) (len v) | _ => 0 end.
Definition dec_length_and_bit (x : N) : option N :=
  if N.land x (2 ^ 31) =? 0 then None else Some (N.land x (2 ^ 31 - 1)).

(** ft/ule.cc:906-909 uxr_pack_txnid, 941-944 uxr_unpack_txnid. *)
Definition pack_txnid (x : txnid) : bytes := le_enc 8 x.
Definition rd_txnid (bs : bytes) : option (txnid * bytes) := rd 8 bs.

(** ft/ule.cc:911-919 uxr_pack_type_and_length. *)
Definition pack_type_and_length (r : xr) : bytes :=
  match r with
  | XIns v => 1 :: le_enc 4 (len v)
  | XDel => [2]
  | XPlace => [3]
  end.

(** ft/ule.cc:921-930 uxr_pack_length_and_bit. *)
Definition pack_length_and_bit (r : xr) : bytes := le_enc 4 (length_and_bit r).

(** ft/ule.cc:932-938 uxr_pack_data. *)
Definition pack_data (r : xr) : bytes := match r with XIns v => v | _ => [] end.

(** ft/ule.cc:956-966 uxr_unpack_length_and_bit: [None] is a delete, [Some n]
    an insert of n bytes. *)
Definition rd_length_and_bit (bs : bytes) : option (option N * bytes) :=
  do (x, bs') <- rd 4 bs; Some (dec_length_and_bit x, bs').

(** ft/ule.cc:968-974 uxr_unpack_data after uxr_unpack_length_and_bit. *)
Definition rd_data (l : option N) (bs : bytes) : option (xr * bytes) :=
  match l with
  | None => Some (XDel, bs)
  | Some n => do (v, bs') <- rd_bytes n bs; Some (XIns v, bs')
  end.

(** uxr_unpack_data for a list of records. *)
Fixpoint rd_datas (ls : list (option N)) (bs : bytes) : option (list xr * bytes) :=
  match ls with
  | [] => Some ([], bs)
  | l :: ls' => do (r, bs1) <- rd_data l bs; do (rs, bs2) <- rd_datas ls' bs1;
                Some (r :: rs, bs2)
  end.

(** ft/ule.cc:946-954 uxr_unpack_type_and_length followed by uxr_unpack_data.
    A type byte other than the three of ule-internal.h:55-57 is not a leaf
    entry the code writes; it is [None] here. *)
Definition rd_type_length_data (bs : bytes) : option (xr * bytes) :=
  do (t, bs1) <- rd 1 bs;
  if t =? 1 then
    do (n, bs2) <- rd 4 bs1; do (v, bs3) <- rd_bytes n bs2; Some (XIns v, bs3)
  else if t =? 2 then Some (XDel, bs1)
  else if t =? 3 then Some (XPlace, bs1)
  else None.

(** The provisional records between outermost and innermost, ft/ule.cc:886-891. *)
Definition rd_middle (bs : bytes) : option (uxr * bytes) :=
  do (x, bs1) <- rd_txnid bs; do (r, bs2) <- rd_type_length_data bs1;
  Some (mkUxr x r, bs2).

Definition LE_CLEAN : N := 0.
Definition LE_MVCC : N := 1.

Definition mk_committed (xs : list txnid) (rs : list xr) : list uxr :=
  map (fun p => mkUxr (fst p) (snd p)) (combine (xs ++ [TXNID_NONE]) rs).

(** ft/ule.cc:810-904 le_unpack; also returns the bytes after the entry. *)
Definition le_unpack (bs : bytes) : option (ule * bytes) :=
  do (t, bs) <- rd 1 bs;
  if t =? LE_CLEAN then
    do (n, bs) <- rd 4 bs; do (v, bs) <- rd_bytes n bs;
    Some (mkUle [mkUxr TXNID_NONE (XIns v)] [] (2 * MAX_TRANSACTION_RECORDS), bs)
  else if t =? LE_MVCC then
    do (nc, bs) <- rd 4 bs;
    guard negb (nc =? 0);
    do (np, bs) <- rd 1 bs;
    let ncn := N.to_nat nc in
    let cap := unpack_cap ncn in
    if np =? 0 then
      do (xs, bs) <- rd_list rd_txnid (ncn - 1) bs;
      do (ls, bs) <- rd_list rd_length_and_bit ncn bs;
      do (rs, bs) <- rd_datas ls bs;
      Some (mkUle (mk_committed xs rs) [] cap, bs)
    else
      do (xout, bs) <- rd_txnid bs;
      do (xs, bs) <- rd_list rd_txnid (ncn - 1) bs;
      do (lin, bs) <- rd_length_and_bit bs;
      do (ls, bs) <- rd_list rd_length_and_bit ncn bs;
      do (rin, bs) <- rd_data lin bs;
      do (rs, bs) <- rd_datas ls bs;
      if np =? 1 then
        Some (mkUle (mk_committed xs rs) [mkUxr xout rin] cap, bs)
      else
        do (rout, bs) <- rd_type_length_data bs;
        do (mid, bs) <- rd_list rd_middle (N.to_nat np - 2) bs;
        do (xin, bs) <- rd_txnid bs;
        Some (mkUle (mk_committed xs rs)
                    (mkUxr xout rout :: mid ++ [mkUxr xin rin]) cap, bs)
  else None.

(** * Packing *)

Definition pack_middle (u : uxr) : bytes :=
  pack_txnid (ux_xid u) ++ pack_type_and_length (ux_xr u) ++ pack_data (ux_xr u).

(** The provisional tail, ft/ule.cc:1107-1132. *)
Definition pack_prov_tail (p : list uxr) : bytes :=
  match p with
  | outer :: (_ :: _) as rest =>
      pack_type_and_length (ux_xr outer) ++ pack_data (ux_xr outer)
      ++ concat (map pack_middle (removelast (tl p)))
      ++ pack_txnid (ux_xid (last p outer))
  | _ => []
  end.

(** The bytes written by le_pack, ft/ule.cc:1047-1133. *)
Definition le_pack_bytes (u : ule) : option bytes :=
  match cx u, px u with
  | [], _ => None
  | [c], [] =>
      match ux_xr c with
      | XIns v => Some (LE_CLEAN :: le_enc 4 (len v) ++ v)
      | _ => None
      end
  | c, p =>
      guard (length p <? MAX_TRANSACTION_RECORDS)%nat;
      let inner := match ule_innermost u with Some i => ux_xr i | None => XPlace end in
      Some (LE_MVCC :: le_enc 4 (N.of_nat (length c)) ++ [N.of_nat (length p)]
            ++ match p with [] => [] | o :: _ => pack_txnid (ux_xid o) end
            ++ concat (map (fun r => pack_txnid (ux_xid r)) (removelast c))
            ++ (if is_nil p then [] else pack_length_and_bit inner)
            ++ concat (map (fun r => pack_length_and_bit (ux_xr r)) c)
            ++ (if is_nil p then [] else pack_data inner)
            ++ concat (map (fun r => pack_data (ux_xr r)) c)
            ++ pack_prov_tail p)
  end.

(** ft/ule.cc:995-1168 le_pack: the leaf entry bytes, or [Some None] when there is no
    insert (the entry is destroyed); includes the check that exactly
    le_memsize_from_ule bytes were written (l.1138-1140). *)
Definition le_pack (u : ule) : option (option bytes) :=
  match cx u with
  | [] => None
  | c :: _ =>
      guard (ux_xid (last (cx u) c) =? TXNID_NONE);
      if has_insert u then
        do memsize <- le_memsize_from_ule u;
        do bs <- le_pack_bytes u;
        guard (len bs =? memsize);
        Some (Some bs)
      else Some None
  end.

(** * Accessors on packed bytes *)

(** Header of an MVCC entry: num_cxrs, num_pxrs and the bytes [xrs]. *)
Definition mvcc_header (bs : bytes) : option (N * N * bytes) :=
  do (nc, bs) <- rd 4 bs; do (np, bs) <- rd 1 bs; Some (nc, np, bs).

(** The txnids at the front: (num_cuxrs-1) plus one if there are provisionals. *)
Definition has_p (np : N) : N := if np =? 0 then 0 else 1.

(** ft/ule.cc:1315-1329 le_is_clean. *)
Definition le_is_clean (bs : bytes) : option bool :=
  do (t, _) <- rd 1 bs;
  if t =? LE_CLEAN then Some true else if t =? LE_MVCC then Some false else None.

(** ft/ule.cc:1331-1372 le_latest_is_del. *)
Definition le_latest_is_del (bs : bytes) : option bool :=
  do (t, bs) <- rd 1 bs;
  if t =? LE_CLEAN then Some false
  else if t =? LE_MVCC then
    do (h, p) <- mvcc_header bs;
    let '(nc, np) := h in
    guard negb (nc =? 0);
    do p <- skip (8 * has_p np) p;
    do p <- skip ((nc - 1) * 8) p;
    do (l, _) <- rd_length_and_bit p;
    Some (negb (is_some l))
  else None.

(** ft/ule.cc:1396-1448 le_latest_val_and_len: the value, [None] for a null
    pointer. *)
Definition le_latest_val_and_len (bs : bytes) : option (N * option bytes) :=
  do (t, bs) <- rd 1 bs;
  if t =? LE_CLEAN then
    do (n, bs) <- rd 4 bs; do (v, _) <- rd_bytes n bs; Some (n, Some v)
  else if t =? LE_MVCC then
    do (h, p) <- mvcc_header bs;
    let '(nc, np) := h in
    guard negb (nc =? 0);
    do p <- skip (8 * has_p np) p;
    do p <- skip ((nc - 1) * 8) p;
    do (l, p) <- rd_length_and_bit p;
    match l with
    | Some n =>
        do p <- skip ((nc - 1 + has_p np) * 4) p;
        do (v, _) <- rd_bytes n p;
        Some (n, Some v)
    | None => Some (0, None)
    end
  else None.

(** ft/ule.cc:1466-1511 le_latest_vallen. *)
Definition le_latest_vallen (bs : bytes) : option N :=
  do (t, bs) <- rd 1 bs;
  if t =? LE_CLEAN then do (n, _) <- rd 4 bs; Some n
  else if t =? LE_MVCC then
    do (h, p) <- mvcc_header bs;
    let '(nc, np) := h in
    guard negb (nc =? 0);
    do p <- skip (8 * has_p np) p;
    do p <- skip ((nc - 1) * 8) p;
    do (l, _) <- rd_length_and_bit p;
    Some (match l with Some n => n | None => 0 end)
  else None.

(** ft/ule.cc:1513-1542 le_outermost_uncommitted_xid. *)
Definition le_outermost_uncommitted_xid (bs : bytes) : option txnid :=
  do (t, bs) <- rd 1 bs;
  if t =? LE_MVCC then
    do (h, p) <- mvcc_header bs;
    let '(nc, np) := h in
    if np =? 0 then Some TXNID_NONE
    else do (x, _) <- rd_txnid p; Some x
  else Some TXNID_NONE.

(** ft/ule.cc:1383-1394 le_has_xids. *)
Definition le_has_xids (bs : bytes) (xs : xids) : option bool :=
  match xs with
  | [] => None
  | x :: _ =>
      guard negb (x =? TXNID_NONE);
      do o <- le_outermost_uncommitted_xid bs; Some (o =? x)
  end.

Definition lab_sum (ls : list (option N)) : N :=
  sumN (fun l => match l with Some n => n | None => 0 end) ls.

(** ft/ule.cc:1218-1270 leafentry_rest_memsize: number of bytes after the MVCC
    header. *)
Definition leafentry_rest_memsize (np nc : N) (start : bytes) : option N :=
  do p <- skip (8 * has_p np) start;
  do p <- skip ((nc - 1) * 8) p;
  do (ls, p) <- rd_list rd_length_and_bit (N.to_nat (has_p np + nc)) p;
  do p <- skip (lab_sum ls) p;
  do p <- (if 1 <? np then
             do (_, p) <- rd_type_length_data p;
             do (_, p) <- rd_list rd_middle (N.to_nat np - 2) p;
             do (_, p) <- rd_txnid p; Some p
           else Some p);
  Some (len start - len p).

(** ft/ule.cc:1272-1310 leafentry_memsize. *)
Definition leafentry_memsize (bs : bytes) : option N :=
  do (t, bs) <- rd 1 bs;
  if t =? LE_CLEAN then do (n, _) <- rd 4 bs; Some (1 + 4 + n)
  else if t =? LE_MVCC then
    do (h, p) <- mvcc_header bs;
    let '(nc, np) := h in
    guard negb (nc =? 0);
    do r <- leafentry_rest_memsize np nc p;
    Some (1 + 4 + 1 + r)
  else None.

(** ft/ule.cc:2101-2125 le_iterate_get_accepted_index: reads up to [n] txnids
    (n = num_xids-1) from [p]; the callback [f] gets the xid and whether it is
    provisional (a callback never fails: txn.cc:727-743). *)
Fixpoint accepted_index (f : txnid -> bool -> bool) (n : nat) (prov : bool)
  (p : bytes) : option N :=
  match n with
  | O => Some 0
  | S n' =>
      do (x, p') <- rd_txnid p;
      if f x prov then Some 0
      else do i <- accepted_index f n' false p'; Some (i + 1)
  end.

(** ft/ule.cc:2157-2238 le_iterate_is_del. *)
Definition le_iterate_is_del (f : txnid -> bool -> bool) (bs : bytes) : option bool :=
  do (t, bs) <- rd 1 bs;
  if t =? LE_CLEAN then Some false
  else if t =? LE_MVCC then
    do (h, p) <- mvcc_header bs;
    let '(nc, np) := h in
    let n := nc + has_p np in
    do i <- accepted_index f (N.to_nat (n - 1)) (negb (np =? 0)) p;
    guard (i <? n);
    do p <- skip ((n - 1) * 8) p;
    do p <- skip (4 * i) p;
    do (l, _) <- rd_length_and_bit p;
    Some (negb (is_some l))
  else None.

(** ft/ule.cc:2295-2414 le_iterate_val. *)
Definition le_iterate_val (f : txnid -> bool -> bool) (bs : bytes)
  : option (N * option bytes) :=
  do (t, bs) <- rd 1 bs;
  if t =? LE_CLEAN then
    do (n, bs) <- rd 4 bs; do (v, _) <- rd_bytes n bs; Some (n, Some v)
  else if t =? LE_MVCC then
    do (h, p) <- mvcc_header bs;
    let '(nc, np) := h in
    let n := nc + has_p np in
    do i <- accepted_index f (N.to_nat (n - 1)) (negb (np =? 0)) p;
    guard (i <? n);
    do p <- skip ((n - 1) * 8) p;
    do (ls, p1) <- rd_list rd_length_and_bit (N.to_nat i) p;
    do (l, _) <- rd_length_and_bit p1;
    match l with
    | None => Some (0, None)
    | Some vallen =>
        do p <- skip (n * 4) p;
        do p <- skip (lab_sum ls) p;
        do (v, _) <- rd_bytes vallen p;
        Some (vallen, Some v)
    end
  else None.

(** ft/ule.cc:484-577 toku_le_apply_msg on packed entries. *)
Definition le_apply_msg_bytes (m : umsg) (old : option bytes) (gi : gc_info)
  : option (option bytes * Z) :=
  do u <- (match old with
           | None => Some ule_init_empty
           | Some bs => do (u, _) <- le_unpack bs; Some u
           end);
  do (u1, delta) <- msg_modify_ule u m;
  do u2 <- ule_post_process u1 gi;
  do le <- le_pack u2;
  Some (le, delta).

(** ft/ule.cc:623-694 toku_le_garbage_collect on packed entries. *)
Definition le_garbage_collect_bytes (old : bytes) (gi : gc_info)
  : option (option bytes) :=
  match gi_state gi with
  | None => None
  | Some (_, g) =>
      do (u, _) <- le_unpack old;
      do u1 <- ule_try_promote_outermost u (gi_oldest_promo gi);
      do u2 <- (if (1 <? length (cx u1))%nat then ule_garbage_collect u1 g
                else Some u1);
      le_pack u2
  end.
