(** Model of the pivot keys of a node, ft/pivotkeys.cc and ft/node.h:51-156.

    Lengths and counts are natural numbers: int and size_t cannot wrap here, since key
    lengths are uint32_t, the count is an int and size_t has 64 bits.  Memory that was
    allocated but not written holds [junk].  [null0] says whether a request for zero bytes
    gives a null pointer: malloc and realloc may do either (portability/memory.cc:295-323,
    390-417, os_malloc.cc).  Allocation failure is not modelled.  Access outside the
    allocated memory is [None], and so is a failing invariant(). *)
From Verif Require Import Base Bytes WbufModel.
Open Scope nat_scope.

(** memory: reading and writing a range, memmove, realloc. *)
Definition slice {A} (l : list A) (i n : nat) : option (list A) :=
  guard i + n <=? length l; Some (firstn n (skipn i l)).
Definition blit {A} (l : list A) (i : nat) (x : list A) : option (list A) :=
  guard i + length x <=? length l; Some (firstn i l ++ x ++ skipn (i + length x) l).
Definition memmove {A} (l : list A) (dst src n : nat) : option (list A) :=
  do x <- slice l src n; blit l dst x.
Definition resize {A} (junk : nat -> A) (l : list A) (n : nat) : list A := firstn n (l ++ map junk (seq 0 n)).

(** The fields (node.h:142-155). *)
Record pk := mkPk {
  p_fixed : option bytes;            (* _fixed_keys *)
  p_len : nat;                       (* _fixed_keylen *)
  p_align : nat;                     (* _fixed_keylen_aligned *)
  p_dbt : option (list bytes);       (* _dbt_keys *)
  p_num : nat;                       (* _num_pivots *)
  p_total : nat }.                   (* _total_size *)

(** _align4 (node.h:104-106) with roundup_to_multiple (toku_portability.h:570-572). *)
Definition align4 (n : nat) : nat := (n + 3) / 4 * 4.
(** _fixed_format (115-117). *)
Definition is_fixed (p : pk) : bool := match p_fixed p with Some _ => true | None => false end.

Section Mem.
Variable null0 : bool.
Variable junkb : nat -> N.
Variable junkd : nat -> bytes.

(** The pointer that a request for memory holding [l] gives. *)
Definition ptr {A} (l : list A) : option (list A) := if null0 && is_nil l then None else Some l.
(** REALLOC_N_ALIGNED of a pointer: from null it is malloc. *)
Definition realloc {A} (junk : nat -> A) (p : option (list A)) (n : nat) : option (list A) :=
  ptr (resize junk (match p with Some l => l | None => [] end) n).

(** create_empty (45-52). *)
Definition pk_empty : pk := mkPk None 0 0 None 0 0.

(** sanity_check (423-440). *)
Definition sum_sizes (l : list bytes) : nat := fold_right (fun k n => length k + n) 0 l.
Definition sanity_check (p : pk) : option pk :=
  if is_fixed p then
    guard match p_dbt p with None => true | Some _ => false end;
    guard p_align p =? align4 (p_len p);
    guard p_num p * p_len p <=? p_total p;
    guard p_num p * p_align p =? p_total p;
    Some p
  else
    guard (p_num p =? 0) || match p_dbt p with None => false | Some _ => true end;
    do a <- slice (match p_dbt p with Some a => a | None => [] end) 0 (p_num p);
    guard sum_sizes a =? p_total p;
    Some p.

(** Writing the keys one after the other into the fixed array, at _fixed_key(i) (68-71,
    138-141), with the invariant that the sizes agree. *)
Fixpoint fill_fixed (mem : bytes) (al fl : nat) (i : nat) (ks : list bytes) : option bytes :=
  match ks with
  | [] => Some mem
  | k :: ks' =>
      guard length k =? fl;
      do mem' <- blit mem (i * al) k;
      fill_fixed mem' al fl (S i) ks'
  end.

(** The test for equal lengths (60-66). *)
Fixpoint same_size (ks : list bytes) : bool :=
  match ks with
  | k :: ((k' :: _) as r) => (length k' =? length k) && same_size r
  | _ => true
  end.

(** create_from_dbts (54-89). *)
Definition create_from_dbts (ks : list bytes) : option pk :=
  let n := length ks in
  if same_size ks && (0 <? n) then
    let fl := match ks with k :: _ => length k | [] => 0 end in
    let al := align4 fl in
    do mem <- fill_fixed (resize junkb [] (al * n)) al fl 0 ks;
    sanity_check (mkPk (ptr mem) fl al None n (al * n))
  else sanity_check (mkPk None 0 0 (ptr ks) n (sum_sizes ks)).

(** _create_from_fixed_keys (91-98): the bytes from the given position on. *)
Definition create_from_fixed (mem : bytes) (at_ : nat) (fl n : nat) : option pk :=
  let al := align4 fl in
  do x <- slice mem at_ (al * n);
  Some (mkPk (ptr x) fl al None n (al * n)).

(** The key at an index of the fixed array. *)
Definition fixed_key (mem : bytes) (al fl i : nat) : option bytes := slice mem (i * al) fl.
Fixpoint fixed_keys (mem : bytes) (al fl i n : nat) : option (list bytes) :=
  match n with
  | O => Some []
  | S n' => do k <- fixed_key mem al fl i; do r <- fixed_keys mem al fl (S i) n'; Some (k :: r)
  end.

(** create_from_pivot_keys (100-107). *)
Definition clone (p : pk) : option pk :=
  match p_fixed p with
  | Some mem => do q <- create_from_fixed mem 0 (p_len p) (p_num p); sanity_check q
  | None => do a <- slice (match p_dbt p with Some a => a | None => [] end) 0 (p_num p); create_from_dbts a
  end.

(** _convert_to_fixed_format (129-149). *)
Definition convert_to_fixed (p : pk) : option pk :=
  guard negb (is_fixed p);
  do a <- p_dbt p;
  do k0 <- nth_error a 0;
  let fl := length k0 in
  let al := align4 fl in
  do ks <- slice a 0 (p_num p);
  do mem <- fill_fixed (resize junkb [] (al * p_num p)) al fl 0 ks;
  let q := mkPk (ptr mem) fl al None (p_num p) (al * p_num p) in
  guard is_fixed q;
  sanity_check q.

(** _convert_to_dbt_format (151-171): from the keys of the fixed array. *)
Definition convert_to_dbt (p : pk) : option pk :=
  do mem <- p_fixed p;
  do ks <- fixed_keys mem (p_align p) (p_len p) 0 (p_num p);
  sanity_check (mkPk None 0 0 (ptr ks) (p_num p) (p_num p * p_len p)).

(** deserialize_from_rbuf (173-198); rbuf_bytes gives 32 bit lengths. *)
Fixpoint rget_keys (r : rbuf) (n : nat) : option (list bytes * rbuf) :=
  match n with
  | O => Some ([], r)
  | S n' => do (k, r1) <- rbuf_bytes r; do (ks, r2) <- rget_keys r1 n'; Some (k :: ks, r2)
  end.
Definition deserialize (r : rbuf) (n : nat) : option (pk * rbuf) :=
  do (ks, r1) <- rget_keys r n;
  let p := mkPk None 0 0 (ptr ks) n (sum_sizes ks) in
  do q <- (if same_size ks && (0 <? n) then convert_to_fixed p else Some p);
  do q' <- sanity_check q;
  Some (q', r1).

(** get_pivot (200-210) and fill_pivot (212-220).  The paranoid_invariants are compiled out
    of release builds. *)
Definition get_pivot (p : pk) (i : nat) : option bytes :=
  match p_fixed p with
  | Some mem => fixed_key mem (p_align p) (p_len p) i
  | None => do a <- p_dbt p; nth_error a i
  end.

(** _add_key_dbt (222-225), _destroy_key_dbt (227-231): the freed key becomes an empty one. *)
Definition add_key_dbt (a : list bytes) (total : nat) (k : bytes) (i : nat) : option (list bytes * nat) :=
  do a' <- blit a i [k]; Some (a', total + length k).
Definition destroy_key_dbt (a : list bytes) (total : nat) (i : nat) : option (list bytes * nat) :=
  do k <- nth_error a i;
  guard length k <=? total;
  do a' <- blit a i [[]]; Some (a', total - length k).

(** _insert_at_dbt (233-238), _insert_at_fixed (240-247), insert_at (249-265). *)
Definition insert_dbt (p : pk) (k : bytes) (i : nat) : option pk :=
  do a <- realloc junkd (p_dbt p) (p_num p + 1);
  do a1 <- memmove a (i + 1) i (p_num p - i);
  do (a2, t) <- add_key_dbt a1 (p_total p) k i;
  Some (mkPk (p_fixed p) (p_len p) (p_align p) (Some a2) (p_num p) t).
Definition insert_fixed (p : pk) (k : bytes) (i : nat) : option pk :=
  do mem <- realloc junkb (p_fixed p) ((p_num p + 1) * p_align p);
  do m1 <- memmove mem ((i + 1) * p_align p) (i * p_align p) ((p_num p - i) * p_align p);
  do k' <- slice k 0 (p_len p);
  do m2 <- blit m1 (i * p_align p) k';
  Some (mkPk (Some m2) (p_len p) (p_align p) (p_dbt p) (p_num p) (p_total p + p_align p)).
Definition bump (p : pk) (n : nat) : pk := mkPk (p_fixed p) (p_len p) (p_align p) (p_dbt p) n (p_total p).
Definition insert_at (p : pk) (k : bytes) (i : nat) : option pk :=
  guard i <=? p_num p;
  do p1 <- (if is_fixed p && negb (length k =? p_len p) then convert_to_dbt p else Some p);
  do p2 <- (if is_fixed p1 then insert_fixed p1 k i else insert_dbt p1 k i);
  guard 0 <? p_total p2;
  Some (bump p2 (p_num p2 + 1)).

(** _append_dbt (267-281): the keys of the other array, in whichever format. *)
Fixpoint add_keys (a : list bytes) (total i : nat) (ks : list bytes) : option (list bytes * nat) :=
  match ks with
  | [] => Some (a, total)
  | k :: ks' => do a' <- blit a i [k]; add_keys a' (total + length k) (S i) ks'
  end.
Definition other_keys (q : pk) : option (list bytes) :=
  match p_fixed q with
  | Some mem => fixed_keys mem (p_align q) (p_len q) 0 (p_num q)
  | None => slice (match p_dbt q with Some a => a | None => [] end) 0 (p_num q)
  end.
Definition append_dbt (p q : pk) : option pk :=
  let a := realloc junkd (p_dbt p) (p_num p + p_num q) in
  do ks <- other_keys q;
  do (a', t) <- add_keys (match a with Some l => l | None => [] end) (p_total p) (p_num p) ks;
  Some (mkPk (p_fixed p) (p_len p) (p_align p) (match a with Some _ => Some a' | None => None end) (p_num p) t).
(** _append_fixed (283-294), append (296-305). *)
Definition append_fixed (p q : pk) : option pk :=
  match p_fixed q with
  | Some mq =>
      if p_len q =? p_len p then
        do x <- slice mq 0 (p_total q);
        match realloc junkb (p_fixed p) ((p_num p + p_num q) * p_align p) with
        | Some mem =>
            do m1 <- blit mem (p_num p * p_align p) x;
            Some (mkPk (Some m1) (p_len p) (p_align p) (p_dbt p) (p_num p) (p_total p + p_total q))
        | None => guard is_nil x; Some (mkPk None (p_len p) (p_align p) (p_dbt p) (p_num p) (p_total p + p_total q))
        end
      else do p1 <- convert_to_dbt p; append_dbt p1 q
  | None => do p1 <- convert_to_dbt p; append_dbt p1 q
  end.
Definition append (p q : pk) : option pk :=
  do p1 <- (if is_fixed p then append_fixed p q else append_dbt p q);
  sanity_check (bump p1 (p_num p1 + p_num q)).

(** _replace_at_dbt (307-310), _replace_at_fixed (312-320), replace_at (322-334). *)
Definition replace_dbt (p : pk) (k : bytes) (i : nat) : option pk :=
  do a <- p_dbt p;
  do (a1, t1) <- destroy_key_dbt a (p_total p) i;
  do (a2, t2) <- add_key_dbt a1 t1 k i;
  Some (mkPk (p_fixed p) (p_len p) (p_align p) (Some a2) (p_num p) t2).
Definition replace_fixed (p : pk) (k : bytes) (i : nat) : option pk :=
  if length k =? p_len p then
    do mem <- p_fixed p;
    do m1 <- blit mem (i * p_align p) k;
    Some (mkPk (Some m1) (p_len p) (p_align p) (p_dbt p) (p_num p) (p_total p))
  else do p1 <- convert_to_dbt p; replace_dbt p1 k i.
Definition replace_at (p : pk) (k : bytes) (i : nat) : option pk :=
  do p1 <- (if i <? p_num p then (if is_fixed p then replace_fixed p k i else replace_dbt p k i)
            else guard i =? p_num p; insert_at p k i);
  guard 0 <? p_total p1;
  Some p1.

(** _delete_at_fixed (336-339), _delete_at_dbt (341-346), delete_at (348-358).  The fixed
    array is not reallocated. *)
Definition delete_fixed (p : pk) (i : nat) : option pk :=
  do mem <- p_fixed p;
  do m1 <- memmove mem (i * p_align p) ((i + 1) * p_align p) ((p_num p - 1 - i) * p_align p);
  guard p_align p <=? p_total p;
  Some (mkPk (Some m1) (p_len p) (p_align p) (p_dbt p) (p_num p) (p_total p - p_align p)).
Definition delete_dbt (p : pk) (i : nat) : option pk :=
  do a <- p_dbt p;
  do (a1, t) <- destroy_key_dbt a (p_total p) i;
  do a2 <- memmove a1 i (i + 1) (p_num p - 1 - i);
  Some (mkPk (p_fixed p) (p_len p) (p_align p) (realloc junkd (Some a2) (p_num p - 1)) (p_num p) t).
Definition delete_at (p : pk) (i : nat) : option pk :=
  guard i <? p_num p;
  do p1 <- (if is_fixed p then delete_fixed p i else delete_dbt p i);
  Some (bump p1 (p_num p1 - 1)).

(** _split_at_fixed (360-367), _split_at_dbt (369-378), split_at (380-391): this array and
    the other one, which is [other] unless it was recreated. *)
Definition split_fixed (p : pk) (i : nat) : option (pk * pk) :=
  do mem <- p_fixed p;
  do q <- create_from_fixed mem (i * p_align p) (p_len p) (p_num p - i);
  Some (mkPk (realloc junkb (Some mem) (i * p_align p)) (p_len p) (p_align p) (p_dbt p) (p_num p) (i * p_align p), q).
Fixpoint destroy_keys (a : list bytes) (total k n : nat) : option (list bytes * nat) :=
  match n with
  | O => Some (a, total)
  | S n' => do (a', t) <- destroy_key_dbt a total k; destroy_keys a' t (S k) n'
  end.
Definition split_dbt (p : pk) (i : nat) : option (pk * pk) :=
  do a <- p_dbt p;
  do ks <- slice a i (p_num p - i);
  do q <- create_from_dbts ks;
  do (a1, t) <- destroy_keys a (p_total p) i (p_num p - i);
  Some (mkPk (p_fixed p) (p_len p) (p_align p) (realloc junkd (Some a1) i) (p_num p) t, q).
Definition split_at (p : pk) (i : nat) (other : pk) : option (pk * pk) :=
  do (p1, q) <- (if i <? p_num p then
                   do (p1, q) <- (if is_fixed p then split_fixed p i else split_dbt p i);
                   Some (bump p1 i, q)
                 else Some (p, other));
  do p2 <- sanity_check p1;
  Some (p2, q).
End Mem.

(** num_pivots (405-409), total_size (411-415), serialized_size (417-421). *)
Definition num_pivots (p : pk) : nat := p_num p.
Definition total_size (p : pk) : nat := p_total p.
Definition serialized_size (p : pk) : nat := if is_fixed p then p_num p * p_len p else p_total p.

(** serialize_to_wbuf (393-403). *)
Fixpoint wput_keys (w : wbuf) (ks : list bytes) (written : nat) : option (wbuf * nat) :=
  match ks with
  | [] => Some (w, written)
  | k :: ks' =>
      guard negb (length k =? 0);
      do w1 <- wbuf_nocrc_bytes w k;
      wput_keys w1 ks' (written + length k)
  end.
Definition serialize (w : wbuf) (p : pk) : option wbuf :=
  do ks <- other_keys p;
  do (w1, written) <- wput_keys w ks 0;
  guard written =? serialized_size p;
  Some w1.
