(** Model of the allocator of disk space of a dictionary file.

    Source: ft/serialize/block_allocator.cc, ft/serialize/block_allocator.h.

    [None] is a failed invariant.  VALIDATE() is empty in release builds.  uint64_t
    sums wrap. *)
From Verif Require Import Base MhsModel.
Open Scope N_scope.

Definition u64 (x : N) : N := x mod 2 ^ 64.

(** class BlockAllocator (block_allocator.h:178-187): _reserve_at_beginning, _alignment,
    the tree of holes, _n_blocks, _n_bytes_in_use. *)
Record alloc := mkA { a_reserve : N; a_align : N; a_tree : tree; a_blocks : N; a_bytes : N }.

(** CreateInternal (cc:58-69). *)
Definition create_internal (reserve al : N) : option alloc :=
  guard (512 <=? al) && (al mod 512 =? 0);
  Some (mkA reserve al E 0 reserve).

(** Create (cc:71-75). *)
Definition ba_create (reserve al : N) : option alloc :=
  do a <- create_internal reserve al;
  do t <- insert al (a_tree a) reserve MAXV;
  Some (mkA reserve al t (a_blocks a) (a_bytes a)).

(** struct BlockPair ordered by offset (h:79-87) and std::sort (cc:90).  The order of
    equal offsets is unspecified in C++; the loop below fails on them. *)
Fixpoint sort_insert (x : N * N) (l : list (N * N)) : list (N * N) :=
  match l with
  | [] => [x]
  | y :: l' => if fst x <=? fst y then x :: l else y :: sort_insert x l'
  end.
Fixpoint sort_pairs (l : list (N * N)) : list (N * N) :=
  match l with [] => [] | x :: l' => sort_insert x (sort_pairs l') end.

(** The loop of CreateFromBlockPairs (cc:96-115). *)
Fixpoint from_pairs (reserve al : N) (l : list (N * N)) (t : tree) (bytes : N) : option (tree * N) :=
  match l with
  | [] => Some (t, bytes)
  | (off, size) :: l' =>
    guard 0 <? size;
    guard reserve <=? off;
    guard off mod al =? 0;
    let bytes' := u64 (bytes + size) in
    let free := u64 (off + size) in
    match l' with
    | [] => do t' <- insert al t free MAXV; from_pairs reserve al l' t' bytes'
    | (next, _) :: _ =>
      do lt <- olt next free;
      guard negb lt;
      do fs <- osub next free;
      if fs =? 0 then from_pairs reserve al l' t bytes'
      else do t' <- insert al t free fs; from_pairs reserve al l' t' bytes'
    end
  end.

(** CreateFromBlockPairs (cc:81-118).  With no pair at all it reads pairs[0] of an empty
    array (cc:92): [None]. *)
Definition ba_create_from_pairs (reserve al : N) (pairs : list (N * N)) : option alloc :=
  do a <- create_internal reserve al;
  match sort_pairs pairs with
  | [] => None
  | ((off, _) :: _) as l =>
    do t <- if reserve <? off then insert al (a_tree a) reserve (off - reserve) else Some (a_tree a);
    do (t', bytes) <- from_pairs reserve al l t (a_bytes a);
    Some (mkA reserve al t' (u64 (N.of_nat (length l))) bytes)
  end.

(** AllocBlock (cc:128-138). *)
Definition ba_alloc (a : alloc) (size : N) : option (alloc * N) :=
  guard 0 <? size;
  let bytes := u64 (a_bytes a + size) in
  do (t, off) <- remove (a_align a) (a_tree a) size;
  Some (mkA (a_reserve a) (a_align a) t (u64 (a_blocks a + 1)) bytes, off).

(** FreeBlock (cc:146-152). *)
Definition ba_free (a : alloc) (off size : N) : option alloc :=
  let bytes := u64 (a_bytes a + 2 ^ 64 - size) in
  do t <- insert (a_align a) (a_tree a) off size;
  Some (mkA (a_reserve a) (a_align a) t (u64 (a_blocks a + 2 ^ 64 - 1)) bytes).

(** AllocatedLimit (cc:154-157): a null MaxNode is dereferenced. *)
Definition ba_limit (a : alloc) : option N :=
  do h <- max_node (a_tree a); Some (h_off h).

(** Align (cc:121-123). *)
Definition ba_align (v al : N) : N := u64 (v + al - 1) / al * al.

(** The fields of TOKU_DB_FRAGMENTATION_S filled in by UnusedStatistics. *)
Record unused := mkU { u_bytes : N; u_blocks : N; u_largest : N }.

(** VisUnusedCollector (cc:190-208). *)
Definition vis_unused (al : N) (acc : option unused) (h : hole) : option unused :=
  do u <- acc;
  let ans := ba_align (h_off h) al in
  do e <- oadd (h_off h) (h_size h);
  do s <- osub e ans;
  if 0 <? s then Some (mkU (u64 (u_bytes u + s)) (u64 (u_blocks u + 1))
                           (if u_largest u <? s then s else u_largest u))
  else Some u.

(** InOrderVisitor (rbtree_mhs.cc:71-85). *)
Fixpoint in_order {A} (f : A -> hole -> A) (acc : A) (t : tree) : A :=
  match t with
  | E => acc
  | T _ l h _ _ r => in_order f (f (in_order f acc l) h) r
  end.

(** UnusedStatistics (cc:212-221): [data] is report->data_bytes, [ckpt] is
    report->checkpoint_bytes_additional. *)
Definition unused_statistics (a : alloc) (data ckpt : N) : option unused :=
  guard a_bytes a =? u64 (data + ckpt);
  in_order (vis_unused (a_align a)) (Some (mkU 0 0 0)) (a_tree a).
