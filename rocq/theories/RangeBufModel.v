(** Model of the list of key ranges a transaction keeps, as bytes in memory.

    Source: locktree/range_buffer.cc, locktree/range_buffer.h, util/memarena.cc.

    Simplification: a chunk of the arena is the byte string written into it so
    far together with its allocated size; malloc and the writing of the bytes of
    one record are one operation (every record fills what it allocates). *)
From Verif Require Import Base Bytes LtTreeModel.
Open Scope N_scope.

(** ** memarena *)

(** memarena::arena_chunk (util/memarena.h:125-130): [c_bytes] are the used
    bytes. *)
Record chunk := Chunk { c_bytes : bytes; c_size : N }.

(** memarena (util/memarena.h:132-136): the chunk being filled (None: buf is
    null) and the full chunks. *)
Record arena := Arena { a_cur : option chunk; a_others : list chunk }.

Definition arena_empty : arena := Arena None [].

(** round_to_page (util/memarena.cc:87-94); the size is never 0 here. *)
Definition round_to_page (s : N) : N := 4096 + (s - 1) / 4096 * 4096.

(** MEMARENA_MAX_CHUNK_SIZE (util/memarena.cc:96). *)
Definition MAX_CHUNK : N := 64 * 1024 * 1024.

Definition cur_size (a : arena) : N :=
  match a_cur a with Some c => c_size c | None => 0 end.
Definition cur_used (a : arena) : N :=
  match a_cur a with Some c => len (c_bytes c) | None => 0 end.

(** memarena::malloc_from_arena (util/memarena.cc:98-130), then writing [b]
    into the allocated space. *)
Definition arena_put (a : arena) (b : bytes) : arena :=
  let fresh others :=
    let new := N.min MAX_CHUNK (2 * cur_size a) in
    let new := if new <? len b then len b else new in
    Arena (Some (Chunk b (round_to_page new))) others in
  match a_cur a with
  | None => fresh (a_others a)
  | Some c =>
    if c_size c <? len (c_bytes c) + len b then fresh (a_others a ++ [c])
    else Arena (Some (Chunk (c_bytes c ++ b) (c_size c))) (a_others a)
  end.

(** memarena::total_size_in_use (util/memarena.cc:158-160): the full chunks count
    with their allocated size. *)
Definition arena_in_use (a : arena) : N :=
  fold_right N.add 0 (map c_size (a_others a)) + cur_used a.

(** chunk_iterator (util/memarena.cc:171-195): the chunk being filled comes
    first, then the full ones in the order they were filled. *)
Definition arena_chunks (a : arena) : list bytes :=
  match a_cur a with
  | None => []
  | Some c => c_bytes c :: map c_bytes (a_others a)
  end.

(** ** range_buffer *)

(** record_header (locktree/range_buffer.h:73-86): four bools and two uint16_t,
    as laid out in memory on a little-endian machine; 8 bytes
    (static_assert, range_buffer.h:87). *)
Definition b2n (b : bool) : N := if b then 1 else 0.
Definition is_neg (e : ep) : bool := match e with NegInf => true | _ => false end.
Definition is_pos (e : ep) : bool := match e with PosInf => true | _ => false end.
Definition ep_bytes (e : ep) : bytes := match e with Fin k => k | _ => [] end.

(** record_header::init (locktree/range_buffer.cc:67-80); [r] is None for a point.
    The sizes are stored in 16 bits. *)
Definition rec_header (l : ep) (r : option ep) : bytes :=
  let e := match r with Some e => e | None => l end in
  [b2n (is_neg l); b2n (is_pos l); b2n (is_pos e); b2n (is_neg e)]
  ++ le_enc 2 (ep_size l)
  ++ le_enc 2 (match r with Some e => ep_size e | None => 0 end).

(** append_point and append_range (locktree/range_buffer.cc:213-256). *)
Definition rec_bytes (g : rng) : bytes :=
  if dbt_equals g then rec_header (r_l g) None ++ ep_bytes (r_l g)
  else rec_header (r_l g) (Some (r_r g)) ++ ep_bytes (r_l g) ++ ep_bytes (r_r g).

(** range_buffer (locktree/range_buffer.h:163-165). *)
Record rbuf := Rbuf { b_arena : arena; b_num : N }.

(** range_buffer::create (locktree/range_buffer.cc:177-182). *)
Definition rb_empty : rbuf := Rbuf arena_empty 0.

(** MAX_KEY_SIZE (locktree/range_buffer.h:71). *)
Definition MAX_KEY_SIZE : N := 65536.

(** range_buffer::append (locktree/range_buffer.cc:184-195). *)
Definition rb_append (b : rbuf) (g : rng) : option rbuf :=
  guard ep_size (r_l g) <=? MAX_KEY_SIZE;
  guard dbt_equals g || (ep_size (r_r g) <=? MAX_KEY_SIZE);
  Some (Rbuf (arena_put (b_arena b) (rec_bytes g)) (b_num b + 1)).

(** total_memory_size and is_empty (locktree/range_buffer.cc:197-203). *)
Definition rb_mem (b : rbuf) : N := arena_in_use (b_arena b).
Definition rb_is_empty (b : rbuf) : bool := rb_mem b =? 0.

(** iterator::record::deserialize with record::size and get_left_key/right_key
    (locktree/range_buffer.cc:82-134): the range read at the front of [b] and the
    size of the record.  [stale] is the content of the record object's _left_key,
    which survives from the record read before (None: never set; using it is
    undefined).  Reading past the end of the chunk is undefined. *)
Definition rec_decode (stale : option bytes) (b : bytes) : option (rng * option bytes * nat) :=
  match b with
  | ln :: lp :: rp :: rn :: s0 :: s1 :: t0 :: t1 :: b1 =>
    let lsz := N.to_nat (s0 + 256 * s1) in
    let rsz := N.to_nat (t0 + 256 * t1) in
    let linf := negb (ln =? 0) || negb (lp =? 0) in
    let rinf := negb (rn =? 0) || negb (rp =? 0) in
    do (lk, b2) <- (if linf then Some (stale, b1)
                    else guard (lsz <=? length b1)%nat;
                         Some (Some (firstn lsz b1), skipn lsz b1));
    do (rk, same) <- (if rinf then Some (None, false)
                      else if (rsz =? 0)%nat then do k <- lk; Some (Some k, negb linf)
                      else guard (rsz <=? length b2)%nat;
                           Some (Some (firstn rsz b2), false));
    do l <- (if negb (ln =? 0) then Some NegInf
             else if negb (lp =? 0) then Some PosInf
             else do k <- lk; Some (Fin k));
    do r <- (if negb (rn =? 0) then Some NegInf
             else if negb (rp =? 0) then Some PosInf
             else do k <- rk; Some (Fin k));
    Some (Rng l r same, lk, (8 + lsz + rsz)%nat)
  | _ => None
  end.

(** range_buffer::iterator over one chunk (locktree/range_buffer.cc:145-175).
    Every record is at least 8 bytes, so [length b] bounds the loop. *)
Fixpoint chunk_records (n : nat) (stale : option bytes) (b : bytes)
  : option (list rng * option bytes) :=
  match n with
  | O => match b with [] => Some ([], stale) | _ => None end
  | S n' =>
    match b with
    | [] => Some ([], stale)
    | _ => do (g, st, sz) <- rec_decode stale b;
           do (gs, st') <- chunk_records n' st (skipn sz b);
           Some (g :: gs, st')
    end
  end.

(** The iterator over all chunks with one record object. *)
Fixpoint chunks_records (stale : option bytes) (cs : list bytes) : option (list rng) :=
  match cs with
  | [] => Some []
  | c :: cs' =>
    do (gs, st) <- chunk_records (length c) stale c;
    do gs' <- chunks_records st cs';
    Some (gs ++ gs')
  end.

(** The ranges that iterating over a buffer with a fresh record yields. *)
Definition rb_records (b : rbuf) : option (list rng) :=
  chunks_records None (arena_chunks (b_arena b)).
