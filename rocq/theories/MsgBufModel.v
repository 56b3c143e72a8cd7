(** Model of the message buffer of one child of an internal node: ft/msg.cc, ft/msg_buffer.cc,
    ft/msg_buffer.h, the message trees of ft/node.cc, and the codec of one partition of an
    internal node in ft/serialize/ft_node-serialize.cc.

    The OMTs that hold offsets into the buffer are plain lists here (the trees are treated in
    OmtModel.v); the fresh message tree's mark bits are part of its elements. *)
From Verif Require Import Base Bytes X1764Model WbufModel XidsModel.
Open Scope N_scope.

(** ft_msg (ft/msg.h:138-187, ft/msg.cc:45-50). *)
Record msg := mkMsg { m_type : N; m_msn : N; m_xids : xids; m_key : bytes; m_val : bytes }.

(** enum ft_msg_type and ft_msg_type_applies_once (msg.h:64-108): [None] is the assert(false)
    for an unknown type. *)
Definition applies_once (t : N) : option bool :=
  if existsb (N.eqb t) [11; 1; 2; 4; 6; 14] then Some true else
  if existsb (N.eqb t) [8; 9; 10; 12; 13; 15; 0] then Some false else None.
(** ft_msg_type_applies_all (110-136). *)
Definition applies_all (t : N) : option bool :=
  if existsb (N.eqb t) [0; 11; 1; 2; 4; 6; 14] then Some false else
  if existsb (N.eqb t) [8; 9; 10; 12; 13; 15] then Some true else None.
(** ft_msg_type_does_nothing (138-142). *)
Definition does_nothing (t : N) : bool := t =? 0.

(** ft_msg::serialize_to_wbuf (msg.cc:111-118). *)
Definition msg_write (w : wbuf) (m : msg) (fresh : bool) : option wbuf :=
  do w1 <- wbuf_nocrc_char w (m_type m);
  do w2 <- wbuf_nocrc_char w1 (if fresh then 1 else 0);
  do w3 <- wbuf_ull w2 (m_msn m);
  do w4 <- wbuf_nocrc_xids w3 (m_xids m);
  do w5 <- wbuf_nocrc_bytes w4 (m_key m);
  wbuf_nocrc_bytes w5 (m_val m).
(** ft_msg::deserialize_from_rbuf (msg.cc:51-63). *)
Definition msg_read (r : rbuf) : option (msg * bool * rbuf) :=
  do (t, r) <- rbuf_char r;
  do (f, r) <- rbuf_char r;
  do (n, r) <- rbuf_ull r;
  do (x, r) <- create_from_buffer r;
  do (k, r) <- rbuf_bytes r;
  do (v, r) <- rbuf_bytes r;
  Some (mkMsg t n x k v, negb (f =? 0), r).
(** ft_msg::total_size (msg.cc:97-109). *)
Definition msg_total_size (m : msg) : N :=
  (8 + (2 + 8)) + (len (m_key m) + len (m_val m)) + xids_serialize_size (m_xids m).

(** message_buffer (msg_buffer.h:44-140): [b_mem] is _memory[0 .. _memory_used), [b_size] the
    int _memory_size. *)
Record mbuf := mkBuf { b_num : N; b_mem : bytes; b_size : Z }.
(** create (msg_buffer.cc:40-46). *)
Definition mbuf_empty : mbuf := mkBuf 0 [] 0%Z.

(** msg_memsize_in_buffer (324-329): the packed struct buffer_entry has 4+4+1+1+8+1 bytes. *)
Definition sizeof_buffer_entry : N := 19.
Definition memsize_in_buffer (m : msg) : N :=
  sizeof_buffer_entry + len (m_key m) + len (m_val m) + xids_size (m_xids m) - 1.

(** next_power_of_two (156-163) in int arithmetic: doubling 2^30 overflows. *)
Fixpoint pow2_loop (fuel : nat) (r n : N) : option N :=
  if r <? n then
    match fuel with
    | O => None
    | S f => if 2 ^ 31 <=? r * 2 then None else pow2_loop f (r * 2) n
    end
  else Some r.
Definition next_power_of_two (n : N) : option N := pow2_loop 32 4096 n.

(** size_t to int. *)
Definition to_int (n : N) : Z :=
  let w := n mod 2 ^ 32 in
  if w <? 2 ^ 31 then Z.of_N w else (Z.of_N w - 2 ^ 32)%Z.

(** struct buffer_entry (msg_buffer.h:121-129) followed by the ids, the key and the value,
    as enqueue lays them out (msg_buffer.cc:178-193); toku_xids_cpy copies num_xids ids. *)
Definition entry_bytes (m : msg) (fresh : bool) : bytes :=
  le_enc 4 (len (m_key m)) ++ le_enc 4 (len (m_val m)) ++ [m_type m mod 256] ++ [if fresh then 1 else 0] ++
  le_enc 8 (m_msn m) ++ [x_num (m_xids m)] ++
  concat (map (le_enc 8) (firstn (N.to_nat (x_num (m_xids m))) (x_ids (m_xids m)))) ++ m_key m ++ m_val m.

(** enqueue (169-198); gives the offset too.  _memory == nullptr holds only for a buffer whose
    size is 0, and then need_space_total > _memory_size as well.  int overflow is undefined. *)
Definition enqueue (b : mbuf) (m : msg) (fresh : bool) : option (mbuf * N) :=
  let total := len (b_mem b) + memsize_in_buffer m in
  guard total <? 2 ^ 31;
  do size <- (if (b_size b <? Z.of_N total)%Z
              then do p <- next_power_of_two total; Some (to_int p)
              else Some (b_size b));
  Some (mkBuf (b_num b + 1) (b_mem b ++ entry_bytes m fresh) size, len (b_mem b)).

(** Reading the buffer's memory at an offset. *)
Definition rd (mem : bytes) (off n : N) : option bytes :=
  guard off + n <=? len mem;
  Some (firstn (N.to_nat n) (skipn (N.to_nat off) mem)).
Fixpoint words8 (n : nat) (bs : bytes) : list N :=
  match n with O => [] | S n' => le_val (firstn 8 bs) :: words8 n' (skipn 8 bs) end.

(** get_message (210-220). *)
Definition get_message (mem : bytes) (off : N) : option msg :=
  do kl <- rd mem off 4;
  do vl <- rd mem (off + 4) 4;
  do t <- rd mem (off + 8) 1;
  do n <- rd mem (off + 10) 8;
  do c <- rd mem (off + 18) 1;
  let num := le_val c in
  do ids <- rd mem (off + 19) (8 * num);
  do k <- rd mem (off + 19 + 8 * num) (le_val kl);
  do v <- rd mem (off + 19 + 8 * num + le_val kl) (le_val vl);
  Some (mkMsg (le_val t) (le_val n) (mkXids num (words8 (N.to_nat num) ids)) k v).
(** get_message_key_msn (222-230). *)
Definition get_key_msn (mem : bytes) (off : N) : option (bytes * N) :=
  do kl <- rd mem off 4;
  do n <- rd mem (off + 10) 8;
  do c <- rd mem (off + 18) 1;
  do k <- rd mem (off + 19 + 8 * le_val c) (le_val kl);
  Some (k, le_val n).
(** get_freshness (205-208). *)
Definition get_freshness (mem : bytes) (off : N) : option bool :=
  do f <- rd mem (off + 9) 1; Some (negb (le_val f =? 0)).
(** set_freshness (200-203). *)
Definition set_freshness (mem : bytes) (off : N) (fresh : bool) : option bytes :=
  guard off + 10 <=? len mem;
  Some (firstn (N.to_nat (off + 9)) mem ++ [if fresh then 1 else 0] ++ skipn (N.to_nat (off + 10)) mem).

(** iterate (msg_buffer.h:97-110), collecting what the callback is given. *)
Fixpoint iterate_from (fuel : nat) (mem : bytes) (off : N) : option (list (msg * bool)) :=
  if off <? len mem then
    match fuel with
    | O => None
    | S f =>
        do m <- get_message mem off;
        do fr <- get_freshness mem off;
        do l <- iterate_from f mem (off + memsize_in_buffer m);
        Some ((m, fr) :: l)
    end
  else Some [].
Definition iterate (b : mbuf) : option (list (msg * bool)) := iterate_from (length (b_mem b)) (b_mem b) 0.

(** serialize_to_wbuf (298-311). *)
Fixpoint write_all (w : wbuf) (l : list (msg * bool)) : option wbuf :=
  match l with
  | [] => Some w
  | (m, f) :: l' => do w1 <- msg_write w m f; write_all w1 l'
  end.
Definition mbuf_write (w : wbuf) (b : mbuf) : option wbuf :=
  do w1 <- wbuf_nocrc_uint w (b_num b);
  do l <- iterate b;
  write_all w1 l.

(** Where an entry's offset goes, by type and freshness (deserialize_from_rbuf 86-98,
    bnc_insert_msg node.cc:1714-1731). *)
Inductive class := Fresh | Stale | Bcast.
Definition classify (t : N) (fresh : bool) : option class :=
  do once <- applies_once t;
  if once then Some (if fresh then Fresh else Stale) else
  do all <- applies_all t;
  guard all || does_nothing t;
  Some Bcast.

(** The loop of deserialize_from_rbuf (81-102): the buffer and the three arrays of offsets. *)
Record offsets := mkOffs { o_fresh : list N; o_stale : list N; o_bcast : list N }.
Fixpoint read_all (n : nat) (r : rbuf) (b : mbuf) (o : offsets) : option (mbuf * offsets * rbuf) :=
  match n with
  | O => Some (b, o, r)
  | S n' =>
      do (m, fresh, r1) <- msg_read r;
      do c <- classify (m_type m) fresh;
      do (b1, off) <- enqueue b m fresh;
      read_all n' r1 b1
        match c with
        | Fresh => mkOffs (o_fresh o ++ [off]) (o_stale o) (o_bcast o)
        | Stale => mkOffs (o_fresh o) (o_stale o ++ [off]) (o_bcast o)
        | Bcast => mkOffs (o_fresh o) (o_stale o) (o_bcast o ++ [off])
        end
  end.
(** deserialize_from_rbuf (64-105) into a fresh buffer; [rsize] is the rbuf's whole size.  A
    negative count makes the loop do nothing and the last invariant fail. *)
Definition mbuf_read (r : rbuf) (rsize : N) : option (mbuf * offsets * rbuf) :=
  do (n, r1) <- rbuf_int r;
  guard n <? 2 ^ 31;
  do (b, o, r2) <- read_all (N.to_nat n) r1 (mkBuf 0 [] (to_int (rsize + 64))) (mkOffs [] [] []);
  guard b_num b =? n;
  Some (b, o, r2).

Section Trees.
(** The dictionary's comparison function. *)
Variable cmp : bytes -> bytes -> comparison.

(** key_msn_cmp (node.cc:1677-1690). *)
Definition key_msn_cmp (a b : bytes * N) : comparison :=
  match cmp (fst a) (fst b) with Eq => N.compare (snd a) (snd b) | c => c end.

(** struct ftnode_nonleaf_childinfo (node.h:254-260): the buffer, the fresh message tree with
    its mark bits, the stale message tree, the broadcast list. *)
Record bnc := mkBnc { n_buf : mbuf; n_fresh : list (N * bool); n_stale : list N; n_bcast : list N }.
(** toku_create_empty_nl (node.cc). *)
Definition bnc_empty : bnc := mkBnc mbuf_empty [] [] [].

(** omt::insert with toku_msg_buffer_key_msn_heaviside (util/omt.cc:237-261, node.cc:1692-1697):
    before the first element that is larger; DB_KEYEXIST, and then the caller's assert_zero,
    when an element is equal. *)
Fixpoint tree_insert {A} (off_of : A -> N) (mem : bytes) (q : bytes * N) (x : A) (l : list A) : option (list A) :=
  match l with
  | [] => Some [x]
  | y :: l' =>
      do p <- get_key_msn mem (off_of y);
      match key_msn_cmp p q with
      | Lt => do l'' <- tree_insert off_of mem q x l'; Some (y :: l'')
      | Eq => None
      | Gt => Some (x :: l)
      end
  end.

(** bnc_insert_msg (node.cc:1710-1732). *)
Definition bnc_insert_msg (b : bnc) (m : msg) (fresh : bool) : option bnc :=
  do (buf, off) <- enqueue (n_buf b) m fresh;
  do c <- classify (m_type m) fresh;
  let q := (m_key m, m_msn m) in
  match c with
  | Fresh => do t <- tree_insert fst (b_mem buf) q (off, false) (n_fresh b);
             Some (mkBnc buf t (n_stale b) (n_bcast b))
  | Stale => do t <- tree_insert (fun o => o) (b_mem buf) q off (n_stale b);
             Some (mkBnc buf (n_fresh b) t (n_bcast b))
  | Bcast => Some (mkBnc buf (n_fresh b) (n_stale b) (n_bcast b ++ [off]))
  end.

(** omt::find in direction +1 (util/omt.cc:1263-1330): the first index whose element is larger
    than the query; [None] inside is DB_NOTFOUND. *)
Fixpoint find_larger (mem : bytes) (q : bytes * N) (l : list N) : option (option (nat * N)) :=
  match l with
  | [] => Some None
  | o :: l' =>
      do p <- get_key_msn mem o;
      match key_msn_cmp p q with
      | Gt => Some (Some (O, o))
      | _ => do r <- find_larger mem q l';
             Some match r with None => None | Some (i, o') => Some (S i, o') end
      end
  end.
Definition MAX_MSN : N := 2 ^ 64 - 1.
(** find_bounds_within_message_tree (node.cc:305-375): the lower bound is exclusive, the
    upper one inclusive, [None] is an infinite bound. *)
Definition find_bounds (mem : bytes) (t : list N) (lbe ubi : option bytes) : option (nat * nat) :=
  let upper :=
    match ubi with
    | None => Some (length t)
    | Some u => do r <- find_larger mem (u, MAX_MSN) t;
                Some match r with None => length t | Some (i, _) => i end
    end in
  match lbe with
  | None => do u <- upper; Some (O, u)
  | Some l =>
      do r <- find_larger mem (l, MAX_MSN) t;
      match r with
      | None => Some (O, O)
      | Some (i, o) =>
          match ubi with
          | None => do u <- upper; Some (i, u)
          | Some u =>
              do (k, _) <- get_key_msn mem o;
              match cmp k u with Gt => Some (O, O) | _ => do u <- upper; Some (i, u) end
          end
      end
  end.

(** set_freshness( offset, false) for each of the offsets (do_bn_apply_msg, node.cc:252). *)
Fixpoint clear_all (mem : bytes) (offs : list N) : option bytes :=
  match offs with [] => Some mem | o :: l => do m <- set_freshness mem o false; clear_all m l end.
Definition mark_range (i j : nat) (l : list (N * bool)) : list (N * bool) :=
  firstn i l ++ map (fun x => (fst x, true)) (firstn (j - i) (skipn i l)) ++ skipn (j - i) (skipn i l).

(** What bnc_apply_messages_to_basement_node (node.cc:384-529) does to the buffer: the fresh
    messages within the bounds are marked; these, the stale ones within the bounds when they
    are looked at ([look_stale]) and, if there are any, all broadcast messages are handed to
    do_bn_apply_msg, which clears their freshness.  What it does to the basement node is in
    FtModel.v; the order in which the messages are handed over does not matter here. *)
Definition bnc_apply (look_stale : bool) (b : bnc) (lbe ubi : option bytes) : option bnc :=
  let mem := b_mem (n_buf b) in
  do (si, sj) <- (if look_stale then find_bounds mem (n_stale b) lbe ubi else Some (O, O));
  do (fi, fj) <- find_bounds mem (map fst (n_fresh b)) lbe ubi;
  let fresh := firstn (fj - fi) (skipn fi (map fst (n_fresh b))) in
  let stale := firstn (sj - si) (skipn si (n_stale b)) in
  do mem' <- clear_all mem (stale ++ fresh ++ n_bcast b);
  Some (mkBnc (mkBuf (b_num (n_buf b)) mem' (b_size (n_buf b))) (mark_range fi fj (n_fresh b)) (n_stale b) (n_bcast b)).

(** toku_ft_bnc_move_messages_to_stale (node.cc:772-794). *)
Fixpoint copy_to_stale (mem : bytes) (offs : list N) (stale : list N) : option (list N) :=
  match offs with
  | [] => Some stale
  | o :: l =>
      do q <- get_key_msn mem o;
      do s <- tree_insert (fun o => o) mem q o stale;
      copy_to_stale mem l s
  end.
Definition move_to_stale (b : bnc) : option bnc :=
  do s <- copy_to_stale (b_mem (n_buf b)) (map fst (filter snd (n_fresh b))) (n_stale b);
  Some (mkBnc (n_buf b) (filter (fun x => negb (snd x)) (n_fresh b)) s (n_bcast b)).

(** serialize_ftnode_partition_size (ft_node-serialize.cc:244-266), in uint32_t. *)
Definition partition_size (b : bnc) : N :=
  (1 + (4 + len (b_mem (n_buf b))) + (4 + 4 * N.of_nat (length (n_fresh b))) +
   (4 + 4 * N.of_nat (length (n_stale b))) + (4 + 4 * N.of_nat (length (n_bcast b))) + 4) mod 2 ^ 32.

Fixpoint write_offsets (w : wbuf) (l : list N) : option wbuf :=
  match l with [] => Some w | o :: l' => do w1 <- wbuf_nocrc_uint w o; write_offsets w1 l' end.
(** One message tree: number of entries, then the offsets (297-321). *)
Definition write_tree (w : wbuf) (l : list N) : option wbuf :=
  do w1 <- wbuf_nocrc_uint w (N.of_nat (length l)); write_offsets w1 l.
(** serialize_child_buffer (297-321). *)
Definition FTNODE_PARTITION_MSG_BUFFER : N := 187.
Definition child_buffer_write (w : wbuf) (b : bnc) : option wbuf :=
  do w1 <- wbuf_nocrc_char w FTNODE_PARTITION_MSG_BUFFER;
  do w2 <- mbuf_write w1 (n_buf b);
  do w3 <- write_tree w2 (map fst (n_fresh b));
  do w4 <- write_tree w3 (n_stale b);
  write_tree w4 (n_bcast b).
(** serialize_ftnode_partition (323-358) for a node with height > 0. *)
Definition partition_write (b : bnc) : option bytes :=
  let w := wbuf_init (partition_size b) in
  do w1 <- child_buffer_write w b;
  do w2 <- wbuf_nocrc_uint w1 (x1764_memory (w_out w1));
  guard len (w_out w2) =? w_size w2;
  Some (w_out w2).

Fixpoint read_ints (n : nat) (r : rbuf) : option (list N * rbuf) :=
  match n with
  | O => Some ([], r)
  | S n' => do (x, r1) <- rbuf_int r; do (l, r2) <- read_ints n' r1; Some (x :: l, r2)
  end.
Definition read_tree (r : rbuf) : option (list N * rbuf) :=
  do (n, r1) <- rbuf_int r;
  guard n <? 2 ^ 31;
  read_ints (N.to_nat n) r1.
(** deserialize_child_buffer (924-957). *)
Definition child_buffer_read (r : rbuf) (rsize : N) : option (bnc * rbuf) :=
  do (b, _, r1) <- mbuf_read r rsize;
  do (f, r2) <- read_tree r1;
  do (s, r3) <- read_tree r2;
  do (c, r4) <- read_tree r3;
  Some (mkBnc b (map (fun o => (o, false)) f) s c, r4).

(** sort_and_steal_offset_arrays (840-869): toku::sort::mergesort_r by key and msn, modelled
    by insertion (equal elements keep their order in both). *)
Fixpoint sort_insert (mem : bytes) (q : bytes * N) (x : N) (l : list N) : option (list N) :=
  match l with
  | [] => Some [x]
  | y :: l' =>
      do p <- get_key_msn mem y;
      match key_msn_cmp p q with
      | Gt => Some (x :: l)
      | _ => do l'' <- sort_insert mem q x l'; Some (y :: l'')
      end
  end.
Fixpoint sort_offsets (mem : bytes) (l acc : list N) : option (list N) :=
  match l with
  | [] => Some acc
  | x :: l' => do q <- get_key_msn mem x; do a <- sort_insert mem q x acc; sort_offsets mem l' a
  end.
(** deserialize_child_buffer_v26 (898-921) with a valid comparison function. *)
Definition child_buffer_read_v26 (r : rbuf) (rsize : N) : option (bnc * rbuf) :=
  do (b, o, r1) <- mbuf_read r rsize;
  do f <- sort_offsets (b_mem b) (o_fresh o) [];
  do s <- sort_offsets (b_mem b) (o_stale o) [];
  Some (mkBnc b (map (fun o => (o, false)) f) s (o_bcast o), r1).

(** deserialize_ftnode_partition (1375-1470) of the current version for a node with height > 0,
    after decompression; verify_ftnode_sub_block (1161-1184). *)
Inductive read_result := BadChecksum | Read (b : bnc).
Definition partition_read (bs : bytes) : option read_result :=
  guard 4 <=? len bs;
  let data := firstn (length bs - 4) bs in
  if negb (le_val (skipn (length bs - 4) bs) =? x1764_memory data) then Some BadChecksum else
  do (ch, r) <- rbuf_char data;
  guard ch =? FTNODE_PARTITION_MSG_BUFFER;
  do (b, r1) <- child_buffer_read r (len data);
  guard is_nil r1;
  Some (Read b).
End Trees.
