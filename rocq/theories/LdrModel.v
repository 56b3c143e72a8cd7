(** Model of the bulk loader up to the rows it hands to the writer of the new
    dictionary: ft/loader/loader.cc (extraction into sorted runs, merge sort, merge of
    the runs) and ft/loader/pqueue.cc (the heap that merges).

    Simplified: one destination dictionary; a temporary file is the list of its rows
    (rows are written and read back unchanged); memory and files never run out and
    the poll function never asks to stop; whether a row still fits into a rowset is an
    arbitrary function of the rowset and the row (row_wont_fit, l.995-1002, is one);
    the capacity of the heap is not modelled (one node per source file).

    Definitions only. *)
From Verif Require Import Base Bytes KOrd.
Open Scope nat_scope.

Notation row := (bytes * bytes)%type (only parsing).
(** pqueue_node_t, pqueue.h:40-45: a row and the number of its source file. *)
Notation node := (bytes * bytes * nat)%type (only parsing).

(** [LDup]: DB_KEYEXIST.  [LErr]: a row callback failed.  [LBug]: a failed invariant
    (the process stops), or a loop that would not end. *)
Inductive lres (A : Type) := LOk (a : A) | LDup | LErr | LBug.
Arguments LOk {A}. Arguments LDup {A}. Arguments LErr {A}. Arguments LBug {A}.
Definition lbind {A B} (x : lres A) (f : A -> lres B) : lres B :=
  match x with LOk a => f a | LDup => LDup | LErr => LErr | LBug => LBug end.
Notation "'ldo' x <- e ; f" := (lbind e (fun x => f)) (at level 100, x pattern, e at next level, f at level 200, right associativity).

Section Ldr.
Variable c : bytes -> bytes -> comparison.
(** merge_row_arrays splits from this many rows on: 10000 (loader.cc:1456). *)
Variable split_at : nat.

Definition rcmp (a b : row) : comparison := c (fst a) (fst b).

(** merge_row_arrays_base, loader.cc:1341-1386. *)
Fixpoint merge_base (a : list row) : list row -> lres (list row) :=
  fix go (b : list row) : lres (list row) :=
    match a, b with
    | [], _ => LOk b
    | _, [] => LOk a
    | x :: a', y :: b' =>
        match rcmp x y with
        | Eq => LDup
        | Lt => ldo r <- merge_base a' b; LOk (x :: r)
        | Gt => ldo r <- go b'; LOk (y :: r)
        end
    end.

(** binary_search, loader.cc:1388-1437; [before] is abefore. *)
Fixpoint bsearch (fuel : nat) (key : bytes) (a : list row) (before : nat) : lres nat :=
  match fuel with
  | O => LBug
  | S f =>
      match a with
      | [] => LOk before
      | x0 :: _ =>
          let a2 := length a / 2 in
          match c key (fst (nth a2 a x0)) with
          | Eq => LDup
          | Lt => if length a =? 1 then LOk before else bsearch f key (firstn a2 a) before
          | Gt => if length a =? 1 then LOk (before + 1) else bsearch f key (skipn a2 a) (before + a2)
          end
      end
  end.

(** merge_row_arrays, loader.cc:1443-1476. *)
Fixpoint merge_rows (fuel : nat) (a b : list row) : lres (list row) :=
  match fuel with
  | O => LBug
  | S f =>
      if length a + length b <? split_at then merge_base a b
      else
        let '(a, b) := if length a <? length b then (b, a) else (a, b) in
        match a with
        | [] => LBug
        | x0 :: _ =>
            let a2 := length a / 2 in
            ldo b2 <- bsearch (S (length b)) (fst (nth a2 a x0)) b 0;
            let ra := merge_rows f (firstn a2 a) (firstn b2 b) in
            let rb := merge_rows f (skipn a2 a) (skipn b2 b) in
            ldo l <- ra; ldo r <- rb; LOk (l ++ r)
        end
  end.

(** mergesort_row_array, loader.cc:1478-1510. *)
Fixpoint msort (fuel : nat) (l : list row) : lres (list row) :=
  match fuel with
  | O => LBug
  | S f =>
      if length l <=? 1 then LOk l
      else
        let mid := length l / 2 in
        ldo a <- msort f (firstn mid l);
        ldo b <- msort f (skipn mid l);
        merge_rows (S (length l)) a b
  end.
Definition sort_rows (l : list row) : lres (list row) := msort (S (length l)) l.

(** struct merge_fileset: the runs written so far, the newest first; [have] is
    have_sorted_output, the newest run can then be appended to, and its greatest key
    is prev_key. *)
Record fset := mkFs { runs : list (list row); have : bool; prev_key : bytes }.

(** sort_and_write_rows, loader.cc:1648-1715. *)
Definition sort_and_write (l : list row) (fs : fset) : lres fset :=
  match l with
  | [] => LOk fs
  | _ =>
      ldo s <- sort_rows l;
      match s with
      | [] => LBug
      | x :: _ =>
          match runs fs with
          | r :: rs => if have fs && kltb c (prev_key fs) (fst x) then LOk (mkFs ((r ++ s) :: rs) true (fst (last s x)))
                       else LOk (mkFs (s :: runs fs) true (fst (last s x)))
          | [] => LOk (mkFs (s :: runs fs) true (fst (last s x)))
          end
      end
  end.

(** The rows of one primary row, process_primary_rows_internal, loader.cc:1258-1297. *)
Variable wont_fit : list row -> row -> bool.
Fixpoint add_rows (rows : list row) (fs : fset) (new : list row) : lres (list row * fset) :=
  match new with
  | [] => LOk (rows, fs)
  | x :: new' =>
      if wont_fit rows x then ldo fs' <- sort_and_write rows fs; add_rows [x] fs' new'
      else add_rows (rows ++ [x]) fs new'
  end.

(** process_primary_rows_internal, loader.cc:1201-1315, over all puts, and
    finish_primary_rows_internal, l.1050-1071.  [gen] is generate_row_for_put, or the
    row itself for the source dictionary. *)
Variable gen : row -> option (list row).
Fixpoint extract (rows : list row) (fs : fset) (puts : list row) : lres fset :=
  match puts with
  | [] => sort_and_write rows fs
  | p :: puts' =>
      match gen p with
      | None => LErr
      | Some new => ldo (rows', fs') <- add_rows rows fs new; extract rows' fs' puts'
      end
  end.

(** pqueue.cc: the array d[0 .. size-1]; d[0] is not used. *)
Definition dummy : node := (([], []), 0).
Definition dget (d : list node) (i : nat) : node := nth i d dummy.
Fixpoint dset (d : list node) (i : nat) (x : node) : list node :=
  match d, i with [], _ => [] | _ :: d', O => x :: d' | y :: d', S i' => y :: dset d' i' x end.

(** pqueue_compare, pqueue.cc:89-98: next >= curr, and was it a duplicate. *)
Definition pcmp (next curr : node) : bool * bool :=
  match rcmp (fst next) (fst curr) with Lt => (false, false) | Eq => (true, true) | Gt => (true, false) end.

(** pqueue_bubble_up, pqueue.cc:100-114.  The second result is dup_error. *)
Fixpoint bubble_up (fuel : nat) (d : list node) (i : nat) (mv : node) (dup : bool) : list node * bool :=
  match fuel with
  | O => (dset d i mv, dup)
  | S f =>
      if 1 <? i then
        let '(g, e) := pcmp (dget d (i / 2)) mv in
        if g then bubble_up f (dset d i (dget d (i / 2))) (i / 2) mv (dup || e) else (dset d i mv, dup || e)
      else (dset d i mv, dup)
  end.

(** pqueue_maxchild, pqueue.cc:117-129. *)
Definition maxchild (d : list node) (i : nat) : nat * bool :=
  let ch := 2 * i in
  if length d <=? ch then (0, false)
  else if ch + 1 <? length d then
    let '(g, e) := pcmp (dget d ch) (dget d (ch + 1)) in ((if g then ch + 1 else ch), e)
  else (ch, false).

(** pqueue_percolate_down, pqueue.cc:132-147. *)
Fixpoint percolate (fuel : nat) (d : list node) (i : nat) (mv : node) (dup : bool) : list node * bool :=
  match fuel with
  | O => (dset d i mv, dup)
  | S f =>
      let '(ch, e1) := maxchild d i in
      if ch =? 0 then (dset d i mv, dup || e1)
      else
        let '(g, e2) := pcmp mv (dget d ch) in
        if g then percolate f (dset d i (dget d ch)) ch mv (dup || e1 || e2) else (dset d i mv, dup || e1 || e2)
  end.

(** pqueue_insert, pqueue.cc:150-164 (l.159: [q->d[i] = d] before bubble_up). *)
Definition pq_insert (d : list node) (x : node) : list node * bool :=
  bubble_up (length d) (d ++ [x]) (length d) x false.

(** pqueue_pop, pqueue.cc:167-181, on a queue that is not empty. *)
Definition pq_pop (d : list node) : node * (list node * bool) :=
  let lst := dget d (length d - 1) in
  let d' := dset (removelast d) 1 lst in
  (dget d 1, percolate (length d) d' 1 lst false).

Fixpoint lset {A} (l : list A) (i : nat) (x : A) : list A :=
  match l, i with [], _ => [] | _ :: l', O => x :: l' | y :: l', S i' => y :: lset l' i' x end.

(** toku_merge_some_files_using_dbufio: loading the heap, loader.cc:1781-1806. *)
Fixpoint load_heap (d : list node) (i : nat) (srcs : list (list row)) : lres (list node * list (list row)) :=
  match srcs with
  | [] => LOk (d, [])
  | [] :: srcs' => ldo (d', rest) <- load_heap d (S i) srcs'; LOk (d', [] :: rest)
  | (x :: s) :: srcs' =>
      let '(d1, dup) := pq_insert d (x, i) in
      if dup then LDup
      else ldo (d', rest) <- load_heap d1 (S i) srcs'; LOk (d', s :: rest)
  end.

(** The loop, loader.cc:1829-1908.  A duplicate that shows at pqueue_pop stops the
    process: [invariant(0)], l.1837; one that shows at pqueue_insert is reported, l.1893. *)
Fixpoint merge_loop (fuel : nat) (d : list node) (rest : list (list row)) : lres (list row) :=
  if length d <=? 1 then LOk []
  else
    match fuel with
    | O => LBug
    | S f =>
        let '((x, i), (d1, dup)) := pq_pop d in
        if dup then LBug
        else
          match nth i rest [] with
          | [] => ldo out <- merge_loop f d1 rest; LOk (x :: out)
          | y :: s =>
              let '(d2, dup2) := pq_insert d1 (y, i) in
              if dup2 then LDup else ldo out <- merge_loop f d2 (lset rest i s); LOk (x :: out)
          end
    end.

(** merge_some_files, loader.cc:1950-1995. *)
Definition merge_some (srcs : list (list row)) : lres (list row) :=
  ldo (d, rest) <- load_heap [dummy] 0 srcs;
  merge_loop (length (concat srcs)) d rest.

(** One pass of merge_files that writes new runs, loader.cc:2046-2103: the files are
    taken from the end of the array; here the newest is first, so from the front. *)
Variable final_limit earlier_limit : nat.
Fixpoint merge_pass (fuel : nat) (fl : list (list row)) (next : list (list row)) : lres (list (list row)) :=
  match fl with
  | [] => LOk next
  | _ =>
      match fuel with
      | O => LBug
      | S f => ldo m <- merge_some (firstn earlier_limit fl); merge_pass f (skipn earlier_limit fl) (m :: next)
      end
  end.

(** merge_files, loader.cc:2012-2130: the rows given to the queue. *)
Fixpoint merge_files (fuel : nat) (fl : list (list row)) : lres (list row) :=
  match fl with
  | [] => LOk []
  | _ =>
      if length fl <=? final_limit then merge_some fl
      else
        match fuel with
        | O => LBug
        | S f => ldo next <- merge_pass (length fl) fl []; merge_files f next
        end
  end.

(** The whole load: the rows that reach the writer of the dictionary. *)
Definition ldr_load (puts : list row) : lres (list row) :=
  ldo fs <- extract [] (mkFs [] false []) puts;
  merge_files (length (runs fs)) (runs fs).
End Ldr.
