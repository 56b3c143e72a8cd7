(** Model of the write and read buffers, ft/serialize/wbuf.h and ft/serialize/rbuf.h.

    toku_htod32/64 are the identity on the supported little-endian machines. *)
From Verif Require Import Base Bytes X1764Model.
Open Scope N_scope.

(** struct wbuf (wbuf.h:52-58): [w_out] is buf[0..ndone), [w_size] the unsigned int size. *)
Record wbuf := mkW { w_size : N; w_out : bytes; w_crc : x1764 }.

(** wbuf_nocrc_init, wbuf_init (61-70); size is an unsigned int. *)
Definition wbuf_init (size : N) : wbuf := mkW (size mod 2 ^ 32) [] x1764_init.

(** The common part of the writers: assert(w->ndone + n <= w->size), then copy
    (76-80, 104-127, 141-156).  The sum is not reduced modulo 2^32: a sum that wraps
    writes past the buffer. *)
Definition wput_nocrc (w : wbuf) (bs : bytes) : option wbuf :=
  guard len (w_out w) + len bs <=? w_size w;
  Some (mkW (w_size w) (w_out w ++ bs) (w_crc w)).
Definition wput (w : wbuf) (bs : bytes) : option wbuf :=
  guard len (w_out w) + len bs <=? w_size w;
  Some (mkW (w_size w) (w_out w ++ bs) (x1764_add (w_crc w) bs)).

(** wbuf_nocrc_char/uint8_t/char (76-92). *)
Definition wbuf_nocrc_char (w : wbuf) (c : N) : option wbuf := wput_nocrc w [c].
Definition wbuf_char (w : wbuf) (c : N) : option wbuf := wput w [c].
(** wbuf_nocrc_int/uint, wbuf_int/uint (104-138). *)
Definition wbuf_nocrc_uint (w : wbuf) (i : N) : option wbuf := wput_nocrc w (le_enc 4 i).
Definition wbuf_uint (w : wbuf) (i : N) : option wbuf := wput w (le_enc 4 i).
(** wbuf_nocrc_literal_bytes, wbuf_literal_bytes (147-161). *)
Definition wbuf_nocrc_literal (w : wbuf) (bs : bytes) : option wbuf := wput_nocrc w bs.
Definition wbuf_literal (w : wbuf) (bs : bytes) : option wbuf := wput w bs.
(** wbuf_nocrc_bytes, wbuf_bytes (163-171); the length is a uint32_t. *)
Definition wbuf_nocrc_bytes (w : wbuf) (bs : bytes) : option wbuf :=
  do w1 <- wbuf_nocrc_uint w (len bs); wbuf_nocrc_literal w1 bs.
Definition wbuf_bytes (w : wbuf) (bs : bytes) : option wbuf :=
  do w1 <- wbuf_uint w (len bs); wbuf_literal w1 bs.
(** wbuf_nocrc_ulonglong, wbuf_ulonglong (173-181); also uint64_t, LSN, MSN, TXNID,
    BLOCKNUM and DISKOFF (183-190; fttypes and block_table writers). *)
Definition wbuf_nocrc_ull (w : wbuf) (x : N) : option wbuf :=
  do w1 <- wbuf_nocrc_uint w (x / 2 ^ 32 mod 2 ^ 32); wbuf_nocrc_uint w1 (x mod 2 ^ 32).
Definition wbuf_ull (w : wbuf) (x : N) : option wbuf :=
  do w1 <- wbuf_uint w (x / 2 ^ 32 mod 2 ^ 32); wbuf_uint w1 (x mod 2 ^ 32).

(** struct rbuf (rbuf.h:52-56): the bytes from ndone to size. *)
Notation rbuf := bytes.
(** rbuf_char (66-69). *)
Definition rbuf_char (r : rbuf) : option (N * rbuf) :=
  match r with [] => None | b :: r' => Some (b, r') end.
(** rbuf_literal_bytes (107-111): assert(r->ndone <= r->size). *)
Definition rbuf_literal (r : rbuf) (n : N) : option (bytes * rbuf) :=
  guard n <=? len r;
  Some (firstn (N.to_nat n) r, skipn (N.to_nat n) r).
(** rbuf_int (89-105). *)
Definition rbuf_int (r : rbuf) : option (N * rbuf) :=
  do (bs, r') <- rbuf_literal r 4; Some (le_val bs, r').
(** rbuf_bytes (114-118). *)
Definition rbuf_bytes (r : rbuf) : option (bytes * rbuf) :=
  do (n, r') <- rbuf_int r; rbuf_literal r' n.
(** rbuf_ulonglong (120-124). *)
Definition rbuf_ull (r : rbuf) : option (N * rbuf) :=
  do (i0, r1) <- rbuf_int r;
  do (i1, r2) <- rbuf_int r1;
  Some (N.lor (N.shiftl i0 32) i1, r2).
