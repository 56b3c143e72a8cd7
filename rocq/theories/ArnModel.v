(** Model of util/memarena.cc: memory that is given out from chunks and freed as a whole,
    used for rollback entries (C66).

    [size_t] is an unbounded N: no sum or product here overflows as long as sizes are
    below 2^62.  Memory from the allocator is a number never used before.  Several arenas
    live side by side, because move_memory hands chunks from one to another.  Left out:
    the totals that only status reads, and chunk_iterator.

    Ghosts: [y_allocs], what has been given out, with the arena it now belongs to ([None]
    once destroyed), and [y_freed], the chunks freed.  Definitions only. *)
From Verif Require Import Base.

(** struct arena_chunk: [buf] ([None] for nullptr), [used], [size]. *)
Record chunk := mkChk { h_buf : option nat; h_used : N; h_size : N }.
Record arena := mkArn { a_cur : chunk; a_oth : list chunk }.
Definition chunk0 : chunk := mkChk None 0 0.
Definition arena0 : arena := mkArn chunk0 [].

(** memarena::create, l.59-70. *)
Definition arn_create (n : N) (fresh : nat) : arena :=
  if (0 <? n)%N then mkArn (mkChk (Some fresh) 0 n) [] else arena0.
(** round_to_page, l.87-94; for 0 the sum 4096 + (2^64 - 4096) wraps to 0. *)
Definition round_to_page (n : N) : N := if (n =? 0)%N then 0%N else (4096 + 4096 * ((n - 1) / 4096))%N.
(** MEMARENA_MAX_CHUNK_SIZE, l.96. *)
Definition arn_max : N := 67108864.

(** memarena::malloc_from_arena, l.98-130: the arena after, and chunk and offset of the
    memory; [None]: the invariant that a chunk given up is not empty fails. *)
Definition arn_malloc (a : arena) (n : N) (fresh : nat) : option (arena * nat * N) :=
  let c := a_cur a in
  let renew (oth : list chunk) :=
    let sz := round_to_page (N.max (N.min arn_max (2 * h_size c)) n) in
    Some (mkArn (mkChk (Some fresh) n sz) oth, fresh, 0%N) in
  match h_buf c with
  | None => renew (a_oth a)
  | Some b =>
    if (h_size c <? h_used c + n)%N then
      guard (0 <? h_size c)%N; renew (a_oth a ++ [c])
    else Some (mkArn (mkChk (Some b) (h_used c + n) (h_size c)) (a_oth a), b, h_used c)
  end.

Definition hid (c : chunk) : list nat := match h_buf c with Some b => [b] | None => [] end.
Definition chunks (a : arena) : list chunk := a_cur a :: a_oth a.
Definition ids (a : arena) : list nat := flat_map hid (chunks a).

Record alloc := mkAl { l_own : option nat; l_id : nat; l_off : N; l_len : N }.
Record asys := mkSys { y_a : nat -> arena; y_next : nat; y_allocs : list alloc; y_freed : list nat }.
Definition sys0 : asys := mkSys (fun _ => arena0) 0 [] [].
Definition upd (f : nat -> arena) (i : nat) (x : arena) : nat -> arena := fun j => if j =? i then x else f j.
(** What belonged to arena [i] now belongs to [o]. *)
Definition reown (i : nat) (o : option nat) (x : alloc) : alloc :=
  match l_own x with Some k => if k =? i then mkAl o (l_id x) (l_off x) (l_len x) else x | None => x end.

Inductive aev := ACreate (i : nat) (n : N) | AMalloc (i : nat) (n : N) | AMove (i k : nat) | ADestroy (i : nat).
(** One call.  Creating over an arena that has memory, and moving to itself, are not done
    by the callers and not steps. *)
Definition astep (s : asys) (e : aev) : option asys :=
  match e with
  | ACreate i n =>
    match ids (y_a s i), a_oth (y_a s i) with
    | [], [] => Some (mkSys (upd (y_a s) i (arn_create n (y_next s))) (S (y_next s)) (y_allocs s) (y_freed s))
    | _, _ => None
    end
  | AMalloc i n =>
    match arn_malloc (y_a s i) n (y_next s) with
    | Some (a, b, off) => Some (mkSys (upd (y_a s) i a) (S (y_next s)) (y_allocs s ++ [mkAl (Some i) b off n]) (y_freed s))
    | None => None
    end
  | AMove i k => (* memarena::move_memory, l.132-149 *)
    guard (negb (i =? k));
    let d := y_a s k in
    let a := mkArn (a_cur d) (a_oth d ++ a_oth (y_a s i) ++ [a_cur (y_a s i)]) in
    Some (mkSys (upd (upd (y_a s) k a) i arena0) (y_next s) (map (reown i (Some k)) (y_allocs s)) (y_freed s))
  | ADestroy i => (* memarena::destroy, l.72-85 *)
    Some (mkSys (upd (y_a s) i arena0) (y_next s) (map (reown i None) (y_allocs s)) (y_freed s ++ ids (y_a s i)))
  end.
Fixpoint arun (s : asys) (es : list aev) : option asys :=
  match es with [] => Some s | e :: r => do s1 <- astep s e; arun s1 r end.
