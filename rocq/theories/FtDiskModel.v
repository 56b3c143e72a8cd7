(** Model of one dictionary file: the block table, the bytes on disk, the two header
    slots, checkpoints, and what reopening after a crash finds.

    Source: ft/ft.cc (ft_begin_checkpoint, ft_checkpoint, ft_end_checkpoint),
    ft/serialize/ft-serialize.cc (toku_serialize_ft_to, toku_deserialize_ft_from),
    ft/serialize/ft_node-serialize.cc (toku_serialize_ftnode_to),
    ft/serialize/block_table.cc.

    The operating system: a write changes what later reads see at once; what it changed
    survives a crash for certain only after the next fsync of the file.  Until then each
    byte of it may have any value after a crash.  A header slot whose write was not yet
    followed by an fsync may hold the old header, the new one, or bytes that no checksum
    accepts; that the checksum tells those apart is assumed.

    Simplified: the contents of a header are its checkpoint count, its LSN, the address and
    size of its translation and one string [hd_user] for everything else that was fixed when
    the checkpoint began (root block number, flags, ...); the fields that ft_checkpoint
    refreshes while writing (modification time, row count) are left out, so are the layout
    versions (all equal).  The mutexes that make begin, realloc, free and end atomic, and the
    one that keeps writers away from a file being truncated, are not modelled. *)
From Verif Require Import Base Bytes MhsModel BlkAllocModel BlkTableModel TransCodecModel.
Open Scope N_scope.

(** The fields of struct ft_header that matter (ft-internal.h:136-219). *)
Record hdr := mkHd { hd_count : N; hd_lsn : N; hd_toff : N; hd_tsize : N; hd_user : bytes }.

(** How far the checkpoint of the file is:
    none in progress; begun (ft.cc:140-152); translation written (ft-serialize.cc:898-901);
    first fsync done (909-913); header written (917-921); second fsync done (ft.cc:204-207);
    skipped because the header was clean (208-210). *)
Inductive phase := PIdle | PStarted | PTrans | PSynced | PHdr | PDone | PSkip.

(** A node write between realloc_on_disk and the end of the pwrite
    (ft_node-serialize.cc:818-823): block number, offset, the bytes. *)
Record out := mkO { o_blk : nat; o_off : N; o_data : bytes }.

Record fts := mkF {
  f_bt : btab;
  f_disk : N -> N;             (* what a read returns *)
  f_touch : N -> bool;         (* written since the last fsync *)
  f_slot : bool -> option hdr; (* the header at offset 0 (true) and at 4096 (false) *)
  f_old : option hdr;          (* PHdr: what the slot being written held before *)
  f_count : N;                 (* ft->h->checkpoint_count *)
  f_lsn : N;                   (* ft->h->checkpoint_lsn *)
  f_user : bytes;              (* the rest of ft->h *)
  f_ilsn : N; f_iuser : bytes; (* ft->checkpoint_header *)
  f_pend : nat -> bool;        (* PAIRs with a pending checkpoint, by block number *)
  f_out : list out;
  f_phase : phase }.

Definition with_bt (f : fts) (s : btab) : fts :=
  mkF s (f_disk f) (f_touch f) (f_slot f) (f_old f) (f_count f) (f_lsn f) (f_user f) (f_ilsn f) (f_iuser f)
      (f_pend f) (f_out f) (f_phase f).
Definition with_pend (f : fts) (p : nat -> bool) : fts :=
  mkF (f_bt f) (f_disk f) (f_touch f) (f_slot f) (f_old f) (f_count f) (f_lsn f) (f_user f) (f_ilsn f) (f_iuser f)
      p (f_out f) (f_phase f).
Definition with_out (f : fts) (o : list out) : fts :=
  mkF (f_bt f) (f_disk f) (f_touch f) (f_slot f) (f_old f) (f_count f) (f_lsn f) (f_user f) (f_ilsn f) (f_iuser f)
      (f_pend f) o (f_phase f).
Definition with_phase (f : fts) (p : phase) : fts :=
  mkF (f_bt f) (f_disk f) (f_touch f) (f_slot f) (f_old f) (f_count f) (f_lsn f) (f_user f) (f_ilsn f) (f_iuser f)
      (f_pend f) (f_out f) p.

Definition unpend (p : nat -> bool) (b : nat) : nat -> bool := fun i => if Nat.eqb i b then false else p i.

(** pwrite *)
Definition in_range (off n x : N) : bool := (off <=? x) && (x <? off + n).
Definition put_bytes (d : N -> N) (off : N) (bs : bytes) : N -> N :=
  fun x => if in_range off (len bs) x then nth (N.to_nat (x - off)) bs 0 else d x.
Definition pwrite (f : fts) (off : N) (bs : bytes) : fts :=
  mkF (f_bt f) (put_bytes (f_disk f) off bs) (fun x => in_range off (len bs) x || f_touch f x)
      (f_slot f) (f_old f) (f_count f) (f_lsn f) (f_user f) (f_ilsn f) (f_iuser f) (f_pend f) (f_out f) (f_phase f).
(** toku_cachefile_fsync *)
Definition fsync (f : fts) : fts :=
  mkF (f_bt f) (f_disk f) (fun _ => false)
      (f_slot f) (f_old f) (f_count f) (f_lsn f) (f_user f) (f_ilsn f) (f_iuser f) (f_pend f) (f_out f) (f_phase f).
(** pread of [n] bytes *)
Definition pread (d : N -> N) (off n : N) : bytes := map (fun k => d (off + N.of_nat k)) (seq 0 (N.to_nat n)).

(** Reading a block through the current translation
    (translate_blocknum_to_offset_size, block_table.cc:619-638). *)
Definition read_block (f : fts) (b : nat) : option bytes :=
  match nth_error (t_arr (b_cur (f_bt f))) b with
  | Some p => if (0 <? p_size p)%Z then Some (pread (f_disk f) (to_u64 (p_off p)) (to_u64 (p_size p))) else None
  | None => None
  end.

(** A new file (toku_ft_create, ft.cc:404-419): no header yet, one block number for the
    root, which dirties the header. *)
Definition f_init (user : bytes) : option fts :=
  do s0 <- bt_create;
  do (s, _) <- alloc_blocknum s0;
  Some (mkF s (fun _ => 0) (fun _ => false) (fun _ => None) None 0 0 user 0 [] (fun _ => false) [] PIdle).

(** The slot a header with this count is written to (ft-serialize.cc:917-920). *)
Definition slot_of (count : N) : bool := N.odd count.
Definition set_slot (f : bool -> option hdr) (k : bool) (h : option hdr) : bool -> option hdr :=
  fun j => if Bool.eqb j k then h else f j.

(** A node is written: realloc_on_disk, then pwrite by [OPwrite] (ft_node-serialize.cc:818-823).
    The descriptor likewise (ft.cc:867-876), padded to a multiple of 512 bytes
    (ft-serialize.cc:72-96); node buffers already are such a multiple. *)
Definition pad (bs : bytes) : bytes := bs ++ repeat 0 (N.to_nat (roundup 512 (len bs) - len bs)).

Definition do_write (f : fts) (b : nat) (d : bytes) (ck : bool) : option fts :=
  do (s, off) <- realloc (f_bt f) (Z.of_nat b) (Z.of_N (len d)) ck;
  Some (with_pend (with_out (with_bt f s) (mkO b (Z.to_N off) d :: f_out f)) (unpend (f_pend f) b)).
Definition do_desc (f : fts) (d : bytes) : option fts :=
  do (s, off) <- realloc_desc (f_bt f) (Z.of_N (len d));
  Some (with_out (with_bt f s) (mkO 2 (Z.to_N off) d :: f_out f)).
Fixpoint take_out (l : list out) (b : nat) : option (out * list out) :=
  match l with
  | [] => None
  | o :: l' => if Nat.eqb (o_blk o) b then Some (o, l') else do (x, r) <- take_out l' b; Some (x, o :: r)
  end.
Definition do_pwrite (f : fts) (b : nat) : option fts :=
  do (o, l) <- take_out (f_out f) b;
  Some (with_out (pwrite f (o_off o) (pad (o_data o))) l).

(** toku_allocate_blocknum and toku_free_blocknum. *)
Definition do_alloc (f : fts) : option fts :=
  do (s, b) <- alloc_blocknum (f_bt f);
  Some (with_pend (with_bt f s) (unpend (f_pend f) (Z.to_nat b))).
Definition do_free (f : fts) (b : nat) (ck : bool) : option fts :=
  do s <- free_blocknum (f_bt f) (Z.of_nat b) ck;
  Some (with_pend (with_bt f s) (unpend (f_pend f) b)).

(** Any other change of the header, e.g. toku_ft_set_new_root_blocknum: dirties it. *)
Definition do_user (f : fts) (u : bytes) : option fts :=
  do s <- set_dirty (f_bt f) false;
  Some (mkF s (f_disk f) (f_touch f) (f_slot f) (f_old f) (f_count f) (f_lsn f) u (f_ilsn f) (f_iuser f)
            (f_pend f) (f_out f) (f_phase f)).

(** ft_begin_checkpoint; the PAIR of every block in use may become pending. *)
Definition blocks_in_use (t : trans) (b : nat) : bool :=
  (3 <=? b)%nat && (Z.of_nat b <? t_snub t)%Z &&
  match nth_error (t_arr t) b with Some p => negb (p_size p =? size_is_free)%Z | None => false end.
Definition do_start (f : fts) (lsn : N) : option fts :=
  match f_phase f with
  | PIdle =>
    do s <- start_ckpt (f_bt f);
    Some (mkF s (f_disk f) (f_touch f) (f_slot f) (f_old f) (f_count f) (f_lsn f) (f_user f) lsn (f_user f)
              (blocks_in_use (b_cur s)) (f_out f) PStarted)
  | _ => None
  end.

(** ft_checkpoint (ft.cc:183-212), cut at its system calls.
    Lines 183-197 with ft-serialize.cc:856-901: the translation, or nothing to do. *)
Definition do_trans (f : fts) : option fts :=
  match f_phase f with
  | PStarted =>
    if ch_dirty (f_bt f) then
      do s <- alloc_trans (f_bt f);
      do ip <- b_ip s;
      do (r, _) <- ser_trans ip;
      let '(buf, addr) := r in
      Some (with_phase (pwrite (with_bt f s) addr buf) PTrans)
    else Some (with_phase (with_bt f (skip_ckpt (f_bt f))) PSkip)
  | _ => None
  end.
(** ft-serialize.cc:903-913. *)
Definition do_sync (f : fts) : option fts :=
  match f_phase f with PTrans => Some (with_phase (fsync f) PSynced) | _ => None end.
(** ft-serialize.cc:915-921; ch->checkpoint_count was incremented at ft.cc:195. *)
Definition do_hdr (f : fts) : option fts :=
  match f_phase f with
  | PSynced =>
    do ip <- b_ip (f_bt f);
    do p <- get (t_arr ip) B_TRANS;
    let h := mkHd (f_count f + 1) (f_ilsn f) (to_u64 (p_off p)) (to_u64 (p_size p)) (f_iuser f) in
    let k := slot_of (f_count f + 1) in
    Some (mkF (f_bt f) (f_disk f) (f_touch f) (set_slot (f_slot f) k (Some h)) (f_slot f k) (f_count f) (f_lsn f)
              (f_user f) (f_ilsn f) (f_iuser f) (f_pend f) (f_out f) PHdr)
  | _ => None
  end.
(** ft.cc:204-207. *)
Definition do_hdr_sync (f : fts) : option fts :=
  match f_phase f with
  | PHdr =>
    let g := fsync f in
    Some (mkF (f_bt g) (f_disk g) (f_touch g) (f_slot g) None (f_count f + 1) (f_ilsn f) (f_user g) (f_ilsn g)
              (f_iuser g) (f_pend g) (f_out g) PDone)
  | _ => None
  end.
(** ft_end_checkpoint: free the blocks of the previous checkpoint, truncate the file.
    [junk] is what the bytes past the new end will read as; they count as unsynced. *)
Definition cut_off (f : fts) (limit : N) (junk : N -> N) : fts :=
  mkF (f_bt f) (fun x => if limit <=? x then junk x else f_disk f x) (fun x => (limit <=? x) || f_touch f x)
      (f_slot f) (f_old f) (f_count f) (f_lsn f) (f_user f) (f_ilsn f) (f_iuser f) (f_pend f) (f_out f) (f_phase f).
Definition do_end (f : fts) (junk : N -> N) : option fts :=
  match f_phase f with
  | PDone | PSkip =>
    do s <- end_ckpt (f_bt f);
    do limit <- ba_limit (b_ba s);
    Some (with_phase (cut_off (with_bt f s) limit junk) PIdle)
  | _ => None
  end.

(** A crash: unsynced bytes take the values [junk], a header slot that was being written
    holds what [torn] says. *)
Inductive torn := TOld | TNew | TBad.
Definition crash_disk (f : fts) (junk : N -> N) : N -> N := fun x => if f_touch f x then junk x else f_disk f x.
Definition crash_slot (f : fts) (t : torn) : bool -> option hdr :=
  match f_phase f with
  | PHdr =>
    let k := slot_of (f_count f + 1) in
    match t with TOld => set_slot (f_slot f) k (f_old f) | TNew => f_slot f | TBad => set_slot (f_slot f) k None end
  | _ => f_slot f
  end.

(** toku_deserialize_ft_from (ft-serialize.cc:674-805): which header to use.
    [Some None]: neither is readable and acceptable. *)
Definition acceptable (h : option hdr) (max : N) : bool :=
  match h with Some h => hd_lsn h <=? max | None => false end.
Definition choose (h0 h1 : option hdr) (max : N) : option (option hdr) :=
  let a0 := acceptable h0 max in
  let a1 := acceptable h1 max in
  if negb (a0 || a1) then
    guard negb (is_some h0 && is_some h1);
    Some None
  else if a0 && a1 then
    match h0, h1 with
    | Some x0, Some x1 =>
      if hd_count x1 <? hd_count x0 then guard hd_count x0 =? hd_count x1 + 1; Some h0
      else guard hd_count x1 =? hd_count x0 + 1; Some h1
    | _, _ => None
    end
  else if a0 then Some h0
  else Some h1.

(** deserialize_ft_versioned (ft-serialize.cc:188-230) and create_from_buffer.  The outer
    option: a failed invariant; the inner one: an error code. *)
Definition reopen (disk : N -> N) (slot : bool -> option hdr) (max : N) : option (option fts) :=
  do c <- choose (slot true) (slot false) max;
  match c with
  | None => Some None
  | Some h =>
    guard negb (hd_toff h =? 0);
    guard negb (hd_tsize h =? 0);
    do r <- deser_trans (hd_toff h) (hd_tsize h) (pread disk (hd_toff h) (hd_tsize h));
    match r with
    | None => Some None
    | Some t =>
      do s <- bt_open t;
      Some (Some (mkF s disk (fun _ => false) slot None (hd_count h) (hd_lsn h) (hd_user h) 0 []
                      (fun _ => false) [] PIdle))
    end
  end.
Definition do_crash (f : fts) (junk : N -> N) (t : torn) (max : N) : option (option fts) :=
  reopen (crash_disk f junk) (crash_slot f t) max.

Inductive op :=
| OAlloc | OFree (b : nat) (ck : bool)
| OWrite (b : nat) (d : bytes) (ck : bool) | ODesc (d : bytes) | OPwrite (b : nat)
| OUser (u : bytes) | OFsync
| OStart (lsn : N) | OTrans | OSync | OHdr | OHdrSync | OEnd (junk : N -> N)
| OCrash (junk : N -> N) (t : torn) (max : N).

Definition step (f : fts) (o : op) : option fts :=
  match o with
  | OAlloc => do_alloc f
  | OFree b ck => do_free f b ck
  | OWrite b d ck => do_write f b d ck
  | ODesc d => do_desc f d
  | OPwrite b => do_pwrite f b
  | OUser u => do_user f u
  | OFsync => match f_phase f with PHdr => None | _ => Some (fsync f) end
  | OStart lsn => do_start f lsn
  | OTrans => do_trans f
  | OSync => do_sync f
  | OHdr => do_hdr f
  | OHdrSync => do_hdr_sync f
  | OEnd junk => do_end f junk
  | OCrash junk t max => do r <- do_crash f junk t max; r
  end.
