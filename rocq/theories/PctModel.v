(** Model of util/partitioned_counter.cc (not on Apple): counters kept as one part per
    thread (C59).

    A [local_counter] is allocated once for a thread and a counter, and its pointer is
    kept in one place of that thread's array, at the counter's key; the model keeps the
    struct in that place, and the list of a counter holds the threads instead of the
    pointers (following a pointer is looking in that thread's array at the counter's
    key; an empty place is a dangling pointer, [None]).  Each call is one step, but
    reading, which is cut between any two parts.  Sums are unbounded ("Requires: no
    overflows").  The list is newest first as in the code (doubly linked list, insert
    at the head).

    Definitions only. *)
From Verif Require Import Base.
From Coq Require Import NArith.

(** struct local_counter, l.187-192: sum and owner_pc. *)
Notation lcell := (option (N * nat)).
(** struct partitioned_counter, l.181-185. *)
Record pct := mkPct { pc_dead : N; pc_key : nat; pc_ll : list nat }.

(** counters_in_use (l.252); the counters by handle, never reused; each thread's
    thread_local_array (l.198), empty when it is not inited; and the next handle. *)
Record pst := mkPst { ps_use : list bool; ps_pc : nat -> option pct; ps_tla : nat -> list lcell; ps_next : nat }.

Definition fset {A} (f : nat -> A) (i : nat) (x : A) : nat -> A := fun j => if j =? i then x else f j.
Fixpoint lset {A} (l : list A) (i : nat) (x : A) : list A :=
  match l, i with [], _ => [] | _ :: r, O => x :: r | a :: r, S j => a :: lset r j x end.

Definition ps_init : pst := mkPst [] (fun _ => None) (fun _ => []) 0.

(** get_thread_local_counter, l.327-334. *)
Definition local_of (a : list lcell) (k : nat) : lcell :=
  match nth_error a k with Some (Some x) => Some x | _ => None end.

(** allocate_counter, l.256-276. *)
Fixpoint first_free (l : list bool) (i : nat) : option nat :=
  match l with [] => None | false :: _ => Some i | true :: r => first_free r (S i) end.
Definition allocate (u : list bool) : nat * list bool :=
  match first_free u 0 with
  | Some i => (i, lset u i true)
  | None => (length u, u ++ [true])
  end.

(** create_partitioned_counter, l.296-304: the new counter is [ps_next]. *)
Definition pc_create (s : pst) : pst :=
  let '(k, u) := allocate (ps_use s) in
  mkPst u (fset (ps_pc s) (ps_next s) (Some (mkPct 0 k []))) (ps_tla s) (S (ps_next s)).

(** destroy_partitioned_counter, l.306-325; free_counter, l.278-285. *)
Fixpoint drop_parts (tla : nat -> list lcell) (k h : nat) (ll : list nat) : option (nat -> list lcell) :=
  match ll with
  | [] => Some tla
  | t :: r =>
    do lc <- local_of (tla t) k;
    guard (snd lc =? h);
    drop_parts (fset tla t (lset (tla t) k None)) k h r
  end.
Definition pc_destroy (s : pst) (h : nat) : option pst :=
  do pc <- ps_pc s h;
  do tla <- drop_parts (ps_tla s) (pc_key pc) h (pc_ll pc);
  do b <- nth_error (ps_use s) (pc_key pc);
  guard b;
  Some (mkPst (lset (ps_use s) (pc_key pc) false) (fset (ps_pc s) h None) tla (ps_next s)).

(** get_or_alloc_thread_local_counter, l.336-369, for thread [t]; l.359-362: the array
    is filled up with NULL. *)
Definition grow (a : list lcell) (k : nat) : list lcell := a ++ repeat None (S k - length a).
Definition get_or_alloc (s : pst) (t h : nat) (pc : pct) : pst :=
  match local_of (ps_tla s t) (pc_key pc) with
  | Some _ => s
  | None =>
    mkPst (ps_use s)
          (fset (ps_pc s) h (Some (mkPct (pc_dead pc) (pc_key pc) (t :: pc_ll pc))))
          (fset (ps_tla s) t (lset (grow (ps_tla s t) (pc_key pc)) (pc_key pc) (Some (0%N, h))))
          (ps_next s)
  end.
(** [lc->sum += amount], l.376. *)
Definition add_local (s : pst) (t k : nat) (a : N) : option pst :=
  do lc <- local_of (ps_tla s t) k;
  Some (mkPst (ps_use s) (ps_pc s) (fset (ps_tla s) t (lset (ps_tla s t) k (Some ((fst lc + a)%N, snd lc)))) (ps_next s)).
(** increment_partitioned_counter, l.371-377. *)
Definition pc_incr (s : pst) (t h : nat) (a : N) : option pst :=
  do pc <- ps_pc s h;
  add_local (get_or_alloc s t h pc) t (pc_key pc) a.

(** The end of thread [t]: destroy_thread_local_part_of_partitioned_counters,
    l.205-226. *)
Fixpoint merge_parts (pcs : nat -> option pct) (t : nat) (a : list lcell) : option (nat -> option pct) :=
  match a with
  | [] => Some pcs
  | None :: r => merge_parts pcs t r
  | Some (n, h) :: r =>
    do pc <- pcs h;
    merge_parts (fset pcs h (Some (mkPct (pc_dead pc + n)%N (pc_key pc) (remove Nat.eq_dec t (pc_ll pc))))) t r
  end.
Definition thread_exit (s : pst) (t : nat) : option pst :=
  do pcs <- merge_parts (ps_pc s) t (ps_tla s t);
  Some (mkPst (ps_use s) pcs (fset (ps_tla s) t []) (ps_next s)).

(** read_partitioned_counter, l.384-394, with nobody else at work. *)
Fixpoint sum_parts (tla : nat -> list lcell) (k : nat) (acc : N) (ll : list nat) : option N :=
  match ll with
  | [] => Some acc
  | t :: r => do lc <- local_of (tla t) k; sum_parts tla k (acc + fst lc)%N r
  end.
Definition pc_read (s : pst) (h : nat) : option N :=
  do pc <- ps_pc s h;
  sum_parts (ps_tla s) (pc_key pc) (pc_dead pc) (pc_ll pc).

(** The same cut between any two parts.  The reader holds pc_lock, so others can only
    increment parts they already have: [inl] is the reader's next part, [inr (t, h, a)]
    such an increment.  The result is the sum read and the state after. *)
Definition fast_incr (s : pst) (t h : nat) (a : N) : option pst :=
  do pc <- ps_pc s h;
  do lc <- local_of (ps_tla s t) (pc_key pc);
  add_local s t (pc_key pc) a.
Fixpoint read_run (s : pst) (k : nat) (acc : N) (ll : list nat) (evs : list (unit + nat * nat * N)) : option (N * pst) :=
  match evs with
  | [] => match ll with [] => Some (acc, s) | _ => None end
  | inl _ :: r =>
    match ll with
    | [] => None
    | t :: ll' => do lc <- local_of (ps_tla s t) k; read_run s k (acc + fst lc)%N ll' r
    end
  | inr (t, h, a) :: r => do s1 <- fast_incr s t h a; read_run s1 k acc ll r
  end.
Definition pc_read_run (s : pst) (h : nat) (evs : list (unit + nat * nat * N)) : option (N * pst) :=
  do pc <- ps_pc s h;
  read_run s (pc_key pc) (pc_dead pc) (pc_ll pc) evs.

Inductive pop := PCreate | PDestroy (h : nat) | PIncr (t h : nat) (a : N) | PExit (t : nat).
Definition pstep (s : pst) (o : pop) : option pst :=
  match o with
  | PCreate => Some (pc_create s)
  | PDestroy h => pc_destroy s h
  | PIncr t h a => pc_incr s t h a
  | PExit t => thread_exit s t
  end.
Fixpoint prun (s : pst) (ops : list pop) : option pst :=
  match ops with [] => Some s | o :: r => do s1 <- pstep s o; prun s1 r end.
