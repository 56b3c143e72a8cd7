(** Model of the block table: the three translations from block numbers to disk extents,
    checkpoints and the dirty bits of the dictionary header that go with them.

    Source: ft/serialize/block_table.h, ft/serialize/block_table.cc, ft/ft.cc.

    [None] is a failed invariant, an access outside an array or through a null pointer.
    Every function runs under the table's mutex and is atomic here.  paranoid_invariant
    is compiled out of release builds and is not modelled. *)
From Verif Require Import Base MhsModel BlkAllocModel.
Open Scope Z_scope.

(** Constants (block_table.cc:62-70, block_table.h:58-63, block_allocator.h:64-77). *)
Definition freelist_null : Z := -1.
Definition size_is_free : Z := -1.
Definition diskoff_unused : Z := -2.
Definition B_TRANS : Z := 1.
Definition B_DESC : Z := 2.
Definition RESERVED : Z := 3.
Definition HDR_RESERVE : N := 4096%N.
Definition TOTAL_RESERVE : N := 8192%N.
Definition BALIGN : N := 4096%N.

(** int64_t and uint64_t. *)
Definition to_i64 (n : N) : Z := if (n <? 2 ^ 63)%N then Z.of_N n else Z.of_N n - 2 ^ 64.
Definition to_u64 (z : Z) : N := Z.to_N (z mod 2 ^ 64).

(** struct block_translation_pair (block_table.h:180-189).  [p_off] is the union: the
    disk offset, or, when the block number is on the free list, the next free one. *)
Record pair := mkP { p_off : Z; p_size : Z }.

(** struct translation (block_table.h:201-217): smallest_never_used_blocknum,
    blocknum_freelist_head, the array.  length_of_array is its length. *)
Record trans := mkT { t_snub : Z; t_head : Z; t_arr : list pair }.
Definition t_len (t : trans) : Z := Z.of_nat (length (t_arr t)).

Definition get (l : list pair) (b : Z) : option pair :=
  guard 0 <=? b; nth_error l (Z.to_nat b).
Fixpoint set_nth (l : list pair) (n : nat) (p : pair) : option (list pair) :=
  match l, n with
  | [], _ => None
  | _ :: l', O => Some (p :: l')
  | x :: l', S n' => do l'' <- set_nth l' n' p; Some (x :: l'')
  end.
Definition set (l : list pair) (b : Z) (p : pair) : option (list pair) :=
  guard 0 <=? b; set_nth l (Z.to_nat b) p.
Definition t_set (t : trans) (b : Z) (p : pair) : option trans :=
  do l <- set (t_arr t) b p; Some (mkT (t_snub t) (t_head t) l).

(** class block_table (block_table.h:278-305), together with the dirty bits of ft->h and
    ft->checkpoint_header (ft-internal.h:89-102).  [b_ip] is None when
    _inprogress.block_translation is null; ft->checkpoint_header exists exactly then
    (ft.cc:142-152, 217-224). *)
Record btab := mkB {
  b_cur : trans; b_ip : option trans; b_cp : trans; b_skip : bool; b_ba : alloc;
  h_dirty : bool; ch_dirty : bool }.

Definition with_cur (s : btab) (t : trans) : btab :=
  mkB t (b_ip s) (b_cp s) (b_skip s) (b_ba s) (h_dirty s) (ch_dirty s).
Definition with_ip (s : btab) (t : option trans) : btab :=
  mkB (b_cur s) t (b_cp s) (b_skip s) (b_ba s) (h_dirty s) (ch_dirty s).
Definition with_ba (s : btab) (a : alloc) : btab :=
  mkB (b_cur s) (b_ip s) (b_cp s) (b_skip s) a (h_dirty s) (ch_dirty s).

(** ft_set_dirty (block_table.cc:194-202). *)
Definition set_dirty (s : btab) (for_ckpt : bool) : option btab :=
  if for_ckpt then
    guard is_some (b_ip s);
    Some (mkB (b_cur s) (b_ip s) (b_cp s) (b_skip s) (b_ba s) (h_dirty s) true)
  else Some (mkB (b_cur s) (b_ip s) (b_cp s) (b_skip s) (b_ba s) true (ch_dirty s)).

(** _copy_translation (238-267). *)
Definition copy_trans (src : trans) : option trans :=
  guard t_snub src <=? t_len src;
  let l := firstn (Z.to_nat (t_snub src)) (t_arr src) in
  do l' <- set l B_TRANS (mkP diskoff_unused 0);
  Some (mkT (t_snub src) (t_head src) l').

(** create (168-191); toku_ft_init starts with a clean header (ft.cc:373). *)
Definition bt_create : option btab :=
  let cp := mkT RESERVED freelist_null (repeat (mkP diskoff_unused 0) 3) in
  do cur <- copy_trans cp;
  do ba <- ba_create TOTAL_RESERVE BALIGN;
  Some (mkB cur None cp false ba false false).

(** The pairs gathered by create_from_buffer (144-159). *)
Fixpoint gather (l : list pair) : option (list (N * N)) :=
  match l with
  | [] => Some []
  | p :: l' =>
    do r <- gather l';
    if 0 <? p_size p then
      guard negb (p_off p =? diskoff_unused);
      Some ((to_u64 (p_off p), to_u64 (p_size p)) :: r)
    else Some r
  end.
(** create_from_buffer (121-166) after the checkpointed translation has been read. *)
Definition bt_open (cp : trans) : option btab :=
  do cur <- copy_trans cp;
  do pairs <- gather (firstn (Z.to_nat (t_snub cp)) (t_arr cp));
  do ba <- ba_create_from_pairs TOTAL_RESERVE BALIGN pairs;
  Some (mkB cur None cp false ba false false).

(** _maybe_optimize_translation (285-326). *)
Fixpoint used_prefix (l : list pair) (n : nat) : nat :=
  match n with
  | O => O
  | S k =>
    if (n <=? 3)%nat then n
    else match nth_error l k with
         | Some p => if p_size p =? size_is_free then used_prefix l k else n
         | None => n
         end
  end.
(** The loop 317-324 from index [i]. *)
Fixpoint regen (i : Z) (snub : Z) (l : list pair) (head : Z) : list pair * Z :=
  match l with
  | [] => ([], head)
  | p :: l' =>
    if (RESERVED <=? i) && (i <? snub) && (p_size p =? size_is_free)
    then let '(r, h) := regen (i + 1) snub l' i in (mkP head size_is_free :: r, h)
    else let '(r, h) := regen (i + 1) snub l' head in (p :: r, h)
  end.
Definition optimize (t : trans) : trans :=
  let n := Z.of_nat (used_prefix (t_arr t) (Z.to_nat (t_snub t))) in
  if n <? t_snub t then
    let l := if n <? t_len t / 4 then firstn (Z.to_nat (n * 2)) (t_arr t) else t_arr t in
    let '(l', head) := regen 0 n l freelist_null in
    mkT n head l'
  else t.

(** ft_begin_checkpoint (ft.cc:140-152) and note_start_checkpoint_unlocked (329-340). *)
Definition start_ckpt (s : btab) : option btab :=
  guard negb (is_some (b_ip s));
  let cur := optimize (b_cur s) in
  do ip <- copy_trans cur;
  Some (mkB cur (Some ip) (b_cp s) false (b_ba s) false (h_dirty s)).

(** note_skipped_checkpoint (342-349). *)
Definition skip_ckpt (s : btab) : btab :=
  mkB (b_cur s) (b_ip s) (b_cp s) true (b_ba s) (h_dirty s) (ch_dirty s).

(** _translation_prevents_freeing (440-446); [None] for [t] is a null array. *)
Definition prevents (t : option trans) (b : Z) (old : pair) : option bool :=
  match t with
  | None => Some false
  | Some t =>
    if b <? t_snub t then do p <- get (t_arr t) b; Some (p_off old =? p_off p)
    else Some false
  end.

(** The loop of note_end_checkpoint (380-391). *)
Fixpoint end_loop (i : Z) (l : list pair) (ip cur : trans) (ba : alloc) : option alloc :=
  match l with
  | [] => Some ba
  | p :: l' =>
    if 0 <? p_size p then
      do x <- prevents (Some ip) i p;
      if x then end_loop (i + 1) l' ip cur ba
      else
        do y <- prevents (Some cur) i p;
        guard negb y;
        do ba' <- ba_free ba (to_u64 (p_off p)) (to_u64 (p_size p));
        end_loop (i + 1) l' ip cur ba'
    else end_loop (i + 1) l' ip cur ba
  end.
(** note_end_checkpoint (362-400).  Truncation of the file is in FtDiskModel. *)
Definition end_ckpt (s : btab) : option btab :=
  do _ <- ba_limit (b_ba s);
  do ip <- b_ip s;
  if b_skip s then Some (mkB (b_cur s) None (b_cp s) (b_skip s) (b_ba s) (h_dirty s) false)
  else
    do p <- get (t_arr ip) B_TRANS;
    guard 0 <? p_size p;
    guard 0 <? p_off p;
    do ba <- end_loop 0 (t_arr (b_cp s)) ip (b_cur s) (b_ba s);
    Some (mkB (b_cur s) None ip (b_skip s) ba (h_dirty s) false).

(** _calculate_size_on_disk (431-436). *)
Definition size_on_disk (t : trans) : Z := 8 + 8 + t_snub t * 16 + 4.

(** _realloc_on_disk_internal (448-484): the table and the offset. *)
Definition realloc_internal (s0 : btab) (b size : Z) (for_ckpt : bool) : option (btab * Z) :=
  do s <- set_dirty s0 for_ckpt;
  do old <- get (t_arr (b_cur s)) b;
  do x <- if for_ckpt then Some false else prevents (b_ip s) b old;
  do cannot_free <- if x then Some true else prevents (Some (b_cp s)) b old;
  do ba <- if negb cannot_free && negb (p_off old =? diskoff_unused)
           then ba_free (b_ba s) (to_u64 (p_off old)) (to_u64 (p_size old))
           else Some (b_ba s);
  do (ba', off) <- if 0 <? size then
                     do (ba', o) <- ba_alloc ba (to_u64 size); Some (ba', to_i64 o)
                   else Some (ba, diskoff_unused);
  do cur <- t_set (b_cur s) b (mkP off size);
  do ip <- if for_ckpt then
             do ip <- b_ip s; do ip' <- t_set ip b (mkP off size); Some (Some ip')
           else Some (b_ip s);
  Some (mkB cur ip (b_cp s) (b_skip s) ba' (h_dirty s) (ch_dirty s), off).

(** _verify_valid_freeable_blocknum (416-429). *)
Definition freeable (t : trans) (b : Z) : option bool :=
  guard t_snub t <=? t_len t;
  Some ((RESERVED <=? b) && (b <? t_snub t)).

(** realloc_on_disk (508-521). *)
Definition realloc (s : btab) (b size : Z) (for_ckpt : bool) : option (btab * Z) :=
  do v <- freeable (b_cur s) b;
  guard v;
  realloc_internal s b size for_ckpt.
(** realloc_descriptor_on_disk (1017-1033). *)
Definition realloc_desc (s : btab) (size : Z) : option (btab * Z) :=
  realloc_internal s B_DESC size false.

(** _alloc_inprogress_translation_on_disk_unlocked (533-548). *)
Definition alloc_trans (s : btab) : option btab :=
  do ip <- b_ip s;
  let size := size_on_disk ip in
  do (ba, off) <- ba_alloc (b_ba s) (to_u64 size);
  do ip' <- t_set ip B_TRANS (mkP (to_i64 off) size);
  Some (with_ba (with_ip s (Some ip')) ba).

(** _maybe_expand_translation (641-653). *)
Definition expand (t : trans) : trans :=
  if t_len t <=? t_snub t then
    mkT (t_snub t) (t_head t)
        (t_arr t ++ repeat (mkP freelist_null size_is_free) (Z.to_nat (t_snub t * 2 - t_len t)))
  else t.
(** _allocate_blocknum_unlocked (655-679). *)
Definition alloc_blocknum (s : btab) : option (btab * Z) :=
  let t := b_cur s in
  do (t', b) <-
    if t_head t =? freelist_null then
      let t1 := expand t in
      Some (mkT (t_snub t1 + 1) (t_head t1) (t_arr t1), t_snub t1)
    else
      do p <- get (t_arr t) (t_head t);
      Some (mkT (t_snub t) (p_off p) (t_arr t), t_head t);
  do t'' <- t_set t' b (mkP diskoff_unused 0);
  do v <- freeable t'' b;
  guard v;
  do s' <- set_dirty (with_cur s t'') false;
  Some (s', b).

(** _free_blocknum_in_translation (687-695). *)
Definition free_in (t : trans) (b : Z) : option trans :=
  do v <- freeable t b;
  guard v;
  do t' <- t_set t b (mkP (t_head t) size_is_free);
  Some (mkT (t_snub t') b (t_arr t')).

(** _free_blocknum_unlocked (699-730). *)
Definition free_blocknum (s : btab) (b : Z) (for_ckpt : bool) : option btab :=
  do old <- get (t_arr (b_cur s)) b;
  do cur <- free_in (b_cur s) b;
  do ip <- if for_ckpt then do ip <- b_ip s; do ip' <- free_in ip b; Some (Some ip') else Some (b_ip s);
  do ba <- if 0 <? p_size old then
             do x <- prevents ip b old;
             do cannot_free <- if x then Some true else prevents (Some (b_cp s)) b old;
             if cannot_free then Some (b_ba s)
             else ba_free (b_ba s) (to_u64 (p_off old)) (to_u64 (p_size old))
           else Some (b_ba s);
  set_dirty (mkB cur ip (b_cp s) (b_skip s) ba (h_dirty s) (ch_dirty s)) for_ckpt.

(** free_unused_blocknums (745-760): [n] indices starting at [i]. *)
Fixpoint free_unused_loop (n : nat) (i root : Z) (t : trans) : option trans :=
  match n with
  | O => Some t
  | S n' =>
    if i =? root then free_unused_loop n' (i + 1) root t
    else
      do p <- get (t_arr t) i;
      if p_size p =? 0 then
        guard p_off p =? diskoff_unused;
        do t' <- free_in t i;
        free_unused_loop n' (i + 1) root t'
      else free_unused_loop n' (i + 1) root t
  end.
Definition free_unused (s : btab) (root : Z) : option btab :=
  do t <- free_unused_loop (Z.to_nat (t_snub (b_cur s) - RESERVED)) RESERVED root (b_cur s);
  Some (with_cur s t).

(** get_fragmentation_unlocked (1042-1092): data_bytes, checkpoint_bytes_additional, then
    UnusedStatistics.  [same_at l i p]: the pair at [i] in [l] is in use at the same offset. *)
Definition same_at (l : list pair) (i : nat) (p : pair) : bool :=
  match nth_error l i with
  | Some q => (0 <? p_size q) && (p_off q =? p_off p)
  | None => false
  end.
Fixpoint sum_pairs (i : nat) (l : list pair) (except : nat -> pair -> bool) (acc : N) : N :=
  match l with
  | [] => acc
  | p :: l' =>
    sum_pairs (S i) l' except
      (if (0 <? p_size p) && negb (except i p) then u64 (acc + to_u64 (p_size p))%N else acc)
  end.
Definition arr_of (t : option trans) : list pair := match t with Some t => t_arr t | None => [] end.
Definition fragmentation (s : btab) : option (N * N * unused) :=
  let cur := t_arr (b_cur s) in
  let cp := t_arr (b_cp s) in
  let data := sum_pairs 0 cur (fun _ _ => false) HDR_RESERVE in
  let add1 := sum_pairs 0 cp (same_at cur) HDR_RESERVE in
  let add2 := sum_pairs 0 (arr_of (b_ip s)) (fun i p => same_at cur i p || same_at cp i p) add1 in
  do u <- unused_statistics (b_ba s) data add2;
  Some (data, add2, u).
