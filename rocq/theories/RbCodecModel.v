(** Model of the on-disk form of a rollback log node, before compression:
    serialize_rollback_log_size, serialize_rollback_log_node_to_buf and
    deserialize_rollback_log_from_rbuf (ft/serialize/ft_node-serialize.cc:2749-2793, 2918-2985),
    and the generated toku_logger_rollback_wbuf_nocrc_write and toku_parse_rollback
    (ft/logger/logformat.cc:706-776).

    Simplifications: allocation succeeds; None is a failed assertion or DB_BADFORMAT; the
    compression into sub blocks is not modelled. *)
From Verif Require Import Base Bytes X1764Model WbufModel LogModel RbModel.
Open Scope N_scope.

(** FT_LAYOUT_VERSION (ft/serialize/ft_layout_version.h:71-73). *)
Definition FT_LAYOUT_VERSION : N := 29.
(** The magic string. *)
Definition tokuroll : bytes := [116; 111; 107; 117; 114; 111; 108; 108].

(** toku_logger_rollback_wbuf_nocrc_write_<type> (logformat.cc:706-735); the size is an
    uint32_t. *)
Definition rb_put (w : wbuf) (e : rentry) : option wbuf :=
  do ts <- rb_fields (ent_cmd e);
  do n <- rb_fsize e;
  do w1 <- wbuf_nocrc_uint w n;
  do w2 <- wbuf_nocrc_char w1 (ent_cmd e);
  put_fields w2 ts (ent_vals e).
Fixpoint rb_puts (w : wbuf) (l : list rentry) : option wbuf :=
  match l with [] => Some w | e :: l' => do w1 <- rb_put w e; rb_puts w1 l' end.

(** serialize_rollback_log_size (ft_node-serialize.cc:2749-2760). *)
Definition rb_size (n : rnode) : N := 20 + 16 + 8 + 8 + 8 + 8 + 8 + n_bytes n.

(** What the node's header holds beside [rnode]: layout_version, layout_version_original,
    BUILD_ID and the arena's size. *)
Record rhead := mkRH { rh_version : N; rh_original : N; rh_build : N; rh_arena : N }.

(** serialize_rollback_log_node_to_buf (2762-2793). *)
Definition rb_serialize (rh : rhead) (b : N) (n : rnode) : option bytes :=
  let w0 := wbuf_init (rb_size n) in
  do w1 <- wbuf_nocrc_literal w0 tokuroll;
  guard rh_version rh =? FT_LAYOUT_VERSION;
  do w2 <- wbuf_nocrc_uint w1 (rh_version rh);
  do w3 <- wbuf_nocrc_uint w2 (rh_original rh);
  do w4 <- wbuf_nocrc_uint w3 (rh_build rh);
  do w5 <- wbuf_nocrc_ull w4 (fst (n_xid n));
  do w6 <- wbuf_nocrc_ull w5 (snd (n_xid n));
  do w7 <- wbuf_nocrc_ull w6 (n_seq n);
  do w8 <- wbuf_nocrc_ull w7 b;
  do w9 <- wbuf_nocrc_ull w8 (n_prev n);
  do w10 <- wbuf_nocrc_ull w9 (n_bytes n);
  do w11 <- wbuf_nocrc_ull w10 (rh_arena rh);
  do w12 <- rb_puts w11 (n_ents n);
  guard len (w_out w11) + n_bytes n =? len (w_out w12);
  guard len (w_out w12) =? w_size w12;
  guard rb_size n =? len (w_out w12);
  Some (w_out w12).

(** rbuf_ma_* (rbuf.h:71-78, 130-156; logger.h:255-275; txn.h:346-357; block_table.h:331-340). *)
Fixpoint rb_get_nums (k : nat) (r : rbuf) : option (list N * rbuf) :=
  match k with
  | O => Some ([], r)
  | S k' => do (x, r1) <- rbuf_int r; do (l, r2) <- rb_get_nums k' r1; Some (x :: l, r2)
  end.
Definition rb_get_field (t : ftype) (r : rbuf) : option (fval * rbuf) :=
  match t with
  | T_uint8 => do (x, r1) <- rbuf_char r; Some (V_num x, r1)
  | T_bool => do (x, r1) <- rbuf_char r; Some (V_bool (negb (x =? 0)), r1)
  | T_uint32 | T_FILENUM => do (x, r1) <- rbuf_int r; Some (V_num x, r1)
  | T_uint64 | T_BLOCKNUM | T_LSN | T_TXNID => do (x, r1) <- rbuf_ull r; Some (V_num x, r1)
  | T_TXNID_PAIR => do (p, r1) <- rbuf_ull r; do (q, r2) <- rbuf_ull r1; Some (V_pair p q, r2)
  | T_FILENUMS =>
      do (k, r1) <- rbuf_int r;
      (* the loop asserts when the input ends *)
      guard 4 * k <=? len r1;
      do (l, r2) <- rb_get_nums (N.to_nat k) r1; Some (V_nums l, r2)
  | T_BYTESTRING => do (bs, r1) <- rbuf_bytes r; Some (V_bytes bs, r1)
  | T_XIDP => None (* no rollback entry has one *)
  end.
Fixpoint rb_get_fields (ts : list ftype) (r : rbuf) : option (list fval * rbuf) :=
  match ts with
  | [] => Some ([], r)
  | t :: ts' => do (v, r1) <- rb_get_field t r; do (vs, r2) <- rb_get_fields ts' r1; Some (v :: vs, r2)
  end.

(** toku_parse_rollback (logformat.cc:755-776): what follows the last field is ignored. *)
Definition rb_parse (buf : bytes) : option rentry :=
  do (cmd, r) <- rbuf_char buf;
  do ts <- rb_fields cmd;
  do (vs, _) <- rb_get_fields ts r;
  if cmd =? 114 then
    match vs with
    | [V_pair p q; V_num n; V_num h; V_num t] => Some (RIncl (p, q) n h t)
    | _ => None
    end
  else Some (ROp cmd vs).

(** The loop of deserialize_rollback_log_from_rbuf (2962-2981).  Every turn reads at least
    four bytes: [k] is at least a quarter of the input's length. *)
Fixpoint rb_ents (k : nat) (r : rbuf) : option (list rentry) :=
  match r with
  | [] => Some []
  | _ =>
      match k with
      | O => None
      | S k' =>
          do (fs, r1) <- rbuf_int r;
          (* rollback_fsize - 4 wraps to a huge literal when it is below 4 *)
          do (item, r2) <- rbuf_literal r1 ((fs + 2 ^ 32 - 4) mod 2 ^ 32);
          do e <- rb_parse item;
          do l <- rb_ents k' r2;
          Some (e :: l)
      end
  end.

(** deserialize_rollback_log_from_rbuf (2918-2985): entries are linked newest first. *)
Definition rb_deserialize (b : N) (buf : bytes) : option (rhead * rnode) :=
  do (magic, r0) <- rbuf_literal buf 8;
  guard bytes_eqb magic tokuroll;
  do (v, r1) <- rbuf_int r0;
  guard ((25 <=? v) && (v <=? 27)) || (v =? FT_LAYOUT_VERSION);
  do (vo, r2) <- rbuf_int r1;
  do (bi, r3) <- rbuf_int r2;
  do (x, r4) <- rbuf_ull r3;
  do (y, r5) <- rbuf_ull r4;
  do (sq, r6) <- rbuf_ull r5;
  do (bn, r7) <- rbuf_ull r6;
  guard bn =? b;
  do (pv, r8) <- rbuf_ull r7;
  do (bc, r9) <- rbuf_ull r8;
  do (ar, r10) <- rbuf_ull r9;
  guard 4 <? len buf;
  do l <- rb_ents (length r10) r10;
  Some (mkRH v vo bi ar, mkRN (x, y) sq pv l bc).
