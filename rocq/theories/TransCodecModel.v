(** Model of writing and reading the block translation, ft/serialize/block_table.cc.

    DISKOFF and the fields of BLOCKNUM are int64_t; wbuf_DISKOFF/wbuf_BLOCKNUM and
    rbuf_DISKOFF/rbuf_blocknum convert to and from uint64_t
    (ft/serialize/wbuf.h:183-190, rbuf.h:120-128, ft-internal.h wbuf_BLOCKNUM). *)
From Verif Require Import Base Bytes X1764Model WbufModel BlkAllocModel BlkTableModel.
Open Scope N_scope.

(** toku_x1764_memory takes an int length (util/x1764.h:49): a length that does not fit
    becomes negative (or wraps), and no byte of a negative length is read. *)
Definition x1764_memory_int (bs : bytes) (n : N) : option N :=
  let m := n mod 2 ^ 32 in
  if m <? 2 ^ 31 then
    guard m <=? len bs;
    Some (x1764_memory (firstn (N.to_nat m) bs))
  else Some (x1764_memory []).

(** roundup_to_multiple (portability: toku_stdint / util). *)
Definition roundup (a x : N) : N := (x + a - 1) / a * a.

(** The loop of serialize_translation_to_wbuf (594-603). *)
Fixpoint ser_pairs (w : wbuf) (l : list pair) : option wbuf :=
  match l with
  | [] => Some w
  | p :: l' =>
    do w1 <- wbuf_ull w (to_u64 (p_off p));
    do w2 <- wbuf_ull w1 (to_u64 (p_size p));
    ser_pairs w2 l'
  end.
(** serialize_translation_to_wbuf (560-611) after the allocation: the padded buffer, the
    address and the size. *)
Definition ser_trans (t : trans) : option (bytes * N * N) :=
  do p <- get (t_arr t) B_TRANS;
  let size := to_u64 (size_on_disk t) in
  let aligned := roundup 512 size in
  guard Z.eqb (to_i64 size) (p_size p);
  let w0 := wbuf_init aligned in
  do w1 <- wbuf_ull w0 (to_u64 (t_snub t));
  do w2 <- wbuf_ull w1 (to_u64 (t_head t));
  guard Z.leb (t_snub t) (t_len t);
  do w3 <- ser_pairs w2 (firstn (Z.to_nat (t_snub t)) (t_arr t));
  do w4 <- wbuf_uint w3 (x1764_finish (w_crc w3));
  let address := p_off p in
  guard Z.eqb (Z.rem address 512) 0;
  Some (w_out w4 ++ repeat 0 (N.to_nat (aligned - size)), to_u64 address, size).

(** The loop of _translation_deserialize_from_buffer (924-927). *)
Fixpoint deser_pairs (n : nat) (r : rbuf) : option (list pair) :=
  match n with
  | O => Some []
  | S n' =>
    do (o, r1) <- rbuf_ull r;
    do (s, r2) <- rbuf_ull r1;
    do l <- deser_pairs n' r2;
    Some (mkP (to_i64 o) (to_i64 s) :: l)
  end.
(** _translation_deserialize_from_buffer (893-938).  [None]: an invariant fails or the
    buffer is overrun; [Some None]: TOKUDB_BAD_CHECKSUM.  rb.size is an unsigned int; a
    claimed number of blocks that the buffer cannot hold fails in rbuf_int. *)
Definition deser_trans (location size : N) (buf : bytes) : option (option trans) :=
  guard negb (location =? 0);
  guard (4 <=? size) && (size <=? len buf);
  do crc <- x1764_memory_int buf (size - 4);
  let stored := le_val (firstn 4 (skipn (N.to_nat (size - 4)) buf)) in
  if negb (crc =? stored) then Some None
  else
    let r := firstn (N.to_nat ((size - 4) mod 2 ^ 32)) buf in
    do (snub, r1) <- rbuf_ull r;
    guard Z.leb RESERVED (to_i64 snub);
    do (head, r2) <- rbuf_ull r1;
    guard snub <=? len r2;
    do l <- deser_pairs (N.to_nat snub) r2;
    let t := mkT (to_i64 snub) (to_i64 head) l in
    guard Z.eqb (size_on_disk t) (to_i64 size);
    do p <- get l B_TRANS;
    guard Z.eqb (p_size p) (to_i64 size);
    guard Z.eqb (p_off p) (to_i64 location);
    Some (Some t).
