(** Model of ft/serialize/sub_block.cc: cutting a rollback log node into sub-blocks,
    compressing them side by side, and putting them together again (C62).

    The compression library, its bound and the checksum are parameters.  Definitions
    only. *)
From Coq Require Export ZArith.
From Verif Require Import Base.

(** ** Sizes *)
Section Sizes.
Local Open Scope Z_scope.

(** A signed 32 bit result, or undefined behaviour. *)
Definition int32 (z : Z) : option Z := if (-2147483648 <=? z) && (z <? 2147483648) then Some z else None.
(** sub_block.h, l.45. *)
Definition target : Z := 524288.

(** alignup32, l.104-108; C division of non-negative numbers. *)
Definition alignup (a b : Z) : option Z :=
  do x <- int32 (a + b - 1); int32 (x / b * b).
(** The loop of l.129-130. *)
Fixpoint round_up (fuel : nat) (size n total : Z) : option Z :=
  match fuel with
  | O => None
  | S k =>
    do p <- int32 (size * n);
    if p <? total then do s <- int32 (size + 32); round_up k s n total else Some size
  end.
Inductive chosen := CEinval | CUndef | CSizes (size n : Z).
(** choose_sub_block_size, l.112-137. *)
Definition choose (total limit : Z) : chosen :=
  if (total <? 0) || (limit <? 1) then CEinval
  else
    let n := total / target in
    if n <=? 1 then CSizes total (if 0 <? total then 1 else n)
    else
      let n := if limit <? n then limit else n in
      match (do s <- alignup (total / n) 32; round_up 3 s n total) with
      | Some s => CSizes s n
      | None => CUndef
      end.

(** set_all_sub_block_sizes, l.152-162: [n] blocks that were set to 0 before
    (ft_node-serialize.cc l.2862). *)
Definition set_sizes (total size n : Z) : list Z :=
  let k := Z.to_nat (n - 1) in
  let left := total - Z.of_nat k * size in
  repeat size k ++ [if ((k =? 0)%nat || (0 <? left))%bool then left else 0].
(** get_sub_block_index, l.166-176. *)
Fixpoint index_from (i start : Z) (sizes : list Z) (off : Z) : Z :=
  match sizes with
  | [] => -1
  | s :: r => if off <? start + s then i else index_from (i + 1) (start + s) r off
  end.
End Sizes.

(** ** Memory *)
Section Mem.
Context {A : Type}.
Definition rd (m : nat -> A) (off len : nat) : list A := map m (seq off len).
Definition wr (m : nat -> A) (off : nat) (l : list A) : nat -> A :=
  fun i => if (off <=? i) && (i <? off + length l) then nth (i - off) l (m i) else m i.

Variable comp : list A -> list A.
Variable decomp : list A -> nat -> list A.
Variable bound : nat -> nat.
Variable xsum : list A -> N.

(** struct sub_block: uncompressed_ptr and size, compressed_ptr (as offsets). *)
Record sblk := mkSblk { sb_u : nat; sb_n : nat; sb_c : nat }.
(** The pointers, l.263-270. *)
Fixpoint place (u c : nat) (sizes : list nat) : list sblk :=
  match sizes with [] => [] | n :: r => mkSblk u n c :: place (u + n) (c + bound n) r end.
(** compress_sub_block, l.211-221. *)
Definition compressed (d : nat -> A) (b : sblk) : list A := comp (rd d (sb_u b) (sb_n b)).
Definition do_block (d : nat -> A) (bs : list sblk) (m : nat -> A) (i : nat) : nat -> A :=
  match nth_error bs i with Some b => wr m (sb_c b) (compressed d b) | None => m end.
(** The holes squeezed out, l.283-288; the result is the memory and where it ends. *)
Fixpoint squeeze (d : nat -> A) (m : nat -> A) (dst : nat) (bs : list sblk) : (nat -> A) * nat :=
  match bs with
  | [] => (m, dst)
  | b :: r => let k := length (compressed d b) in squeeze d (wr m dst (rd m (sb_c b) k)) (dst + k) r
  end.
(** compress_all_sub_blocks, l.236-293, the blocks being done in the order [order]
    (several workers take them from the set; each writes its own part only).  The case
    of one block (l.243-248) is the same with nothing to squeeze.  The result is the
    compressed bytes and the header (ft_node-serialize.cc l.2825-2832). *)
Definition compress_all (d m : nat -> A) (sizes : list nat) (order : list nat) : list A * list (nat * nat * N) :=
  let bs := place 0 0 sizes in
  let m1 := fold_left (do_block d bs) order m in
  let r := match bs with
           | [] => (m1, 0)
           | b :: bs' => squeeze d m1 (length (compressed d b)) bs'
           end in
  (rd (fst r) 0 (snd r), map (fun b => (sb_n b, length (compressed d b), xsum (compressed d b))) bs).

(** decompress_all_sub_blocks, l.342-392, one block after the other; [None]: EINVAL. *)
Fixpoint decompress_all (c : list A) (hdr : list (nat * nat * N)) : option (list A) :=
  match hdr with
  | [] => Some []
  | (n, k, x) :: r =>
    let b := firstn k c in
    guard (N.eqb (xsum b) x);
    do rest <- decompress_all (skipn k c) r;
    Some (decomp b n ++ rest)
  end.
End Mem.
