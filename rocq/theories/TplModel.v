(** Model of util/threadpool.cc: threads that are kept and handed out (C64).

    What happens under the pool's lock without waiting is one step.  Signals wake one
    arbitrary sleeper; spurious wake-ups are steps.  Creating a thread may fail.  Left
    out: toku_thread_pool_destroy and [doexit], and the counters gets and get_blocks.

    Ghosts: [tp_given] and [tp_done], the jobs given to threads and done by them.
    Definitions only. *)
From Verif Require Import Base.

(** A thread in toku_thread_run_internal: not yet begun, waiting on its condition, woken
    there, or in its job. *)
Inductive tst := TNew | TWait | TAwk | TRun.
(** struct toku_thread: where it is, and [f] with its argument. *)
Record thr := mkThr { t_st : tst; t_f : option nat }.
(** A call of toku_thread_pool_get_one with [dowait]: about to take the lock, asleep on
    wait_free, woken; it has a thread that toku_thread_run has not been called for; done;
    EWOULDBLOCK. *)
Inductive getter := GAsk (w : bool) | GSleep (w : bool) | GAwk (w : bool) | GHas (t : nat) | GDone | GFail.
Record tpool := mkTp { tp_max : nat; tp_thr : list thr; tp_free : list nat; tp_get : list getter; tp_given : list nat; tp_done : list nat }.

Fixpoint xset {A} (l : list A) (i : nat) (x : A) : list A :=
  match l, i with [], _ => [] | _ :: r, O => x :: r | a :: r, S j => a :: xset r j x end.

(** toku_thread_pool_create, l.163-179. *)
Definition tp_init (max : nat) : tpool := mkTp max [] [] [] [] [].

Definition gsleeps (g : getter) : bool := match g with GSleep _ => true | _ => false end.
(** toku_cond_signal(&pool->wait_free): [c] wakes; [None] only if nobody sleeps. *)
Definition gsignal (gs : list getter) (c : option nat) : option (list getter) :=
  match c with
  | None => if existsb gsleeps gs then None else Some gs
  | Some i => match nth_error gs i with Some (GSleep w) => Some (xset gs i (GAwk w)) | _ => None end
  end.

Inductive tev :=
| PGet (w : bool)                          (* somebody calls toku_thread_pool_get_one *)
| PGo (i : nat) (ok : bool) (c : option nat)  (* it has the lock; [ok]: a thread can be created *)
| PRun (i j : nat)                         (* toku_thread_run *)
| PThr (t : nat) (c : option nat)          (* the thread has the lock, at its begin or woken *)
| PFin (t : nat) (c : option nat)          (* its job has returned *)
| PSpurG (i : nat) | PSpurT (t : nat).

Definition with_get (s : tpool) (gs : list getter) : tpool :=
  mkTp (tp_max s) (tp_thr s) (tp_free s) gs (tp_given s) (tp_done s).

(** The loop of toku_thread_pool_get_one, l.236-261, from taking the lock to waiting or
    returning; toku_thread_pool_add, l.222-233.  After adding a thread the code goes on
    to wait although one is free, and whatever [dowait] says. *)
Definition get_go (s : tpool) (i : nat) (w ok : bool) (c : option nat) : option tpool :=
  match tp_free s with
  | t :: r =>
    match c with
    | None => Some (mkTp (tp_max s) (tp_thr s) r (xset (tp_get s) i (GHas t)) (tp_given s) (tp_done s))
    | Some _ => None
    end
  | [] =>
    if ((tp_max s =? 0) || (length (tp_thr s) <? tp_max s)) && ok then
      do gs <- gsignal (tp_get s) c;
      Some (mkTp (tp_max s) (tp_thr s ++ [mkThr TNew None]) [length (tp_thr s)] (xset gs i (GSleep w)) (tp_given s) (tp_done s))
    else
      match c with
      | None => Some (with_get s (xset (tp_get s) i (if w then GSleep w else GFail)))
      | Some _ => None
      end
  end.

Definition wake_thr (x : tst) : tst := match x with TWait => TAwk | _ => x end.
(** One step; cited: toku_thread_run, toku_thread_run_internal. *)
Definition tstep (s : tpool) (e : tev) : option tpool :=
  match e with
  | PGet w => Some (with_get s (tp_get s ++ [GAsk w]))
  | PGo i ok c =>
    match nth_error (tp_get s) i with
    | Some (GAsk w) => get_go s i w ok c
    | Some (GAwk w) => get_go s i w ok c
    | _ => None
    end
  | PRun i j => (* l.108-115 *)
    match nth_error (tp_get s) i with
    | Some (GHas t) =>
      do x <- nth_error (tp_thr s) t;
      Some (mkTp (tp_max s) (xset (tp_thr s) t (mkThr (wake_thr (t_st x)) (Some j))) (tp_free s) (xset (tp_get s) i GDone) (tp_given s ++ [j]) (tp_done s))
    | _ => None
    end
  | PThr t c => (* l.140-150 *)
    do x <- nth_error (tp_thr s) t;
    let next := match t_f x with Some _ => TRun | None => TWait end in
    match t_st x with
    | TNew =>
      do gs <- gsignal (tp_get s) c;
      Some (mkTp (tp_max s) (xset (tp_thr s) t (mkThr next (t_f x))) (tp_free s) gs (tp_given s) (tp_done s))
    | TAwk =>
      match c with
      | None => Some (mkTp (tp_max s) (xset (tp_thr s) t (mkThr next (t_f x))) (tp_free s) (tp_get s) (tp_given s) (tp_done s))
      | Some _ => None
      end
    | _ => None
    end
  | PFin t c => (* l.155-157 and, at the top of the loop, l.142-148 *)
    do x <- nth_error (tp_thr s) t;
    match t_st x, t_f x with
    | TRun, Some j =>
      do gs <- gsignal (tp_get s) c;
      Some (mkTp (tp_max s) (xset (tp_thr s) t (mkThr TWait None)) (tp_free s ++ [t]) gs (tp_given s) (tp_done s ++ [j]))
    | _, _ => None
    end
  | PSpurG i => match nth_error (tp_get s) i with Some (GSleep w) => Some (with_get s (xset (tp_get s) i (GAwk w))) | _ => None end
  | PSpurT t =>
    do x <- nth_error (tp_thr s) t;
    match t_st x with
    | TWait => Some (mkTp (tp_max s) (xset (tp_thr s) t (mkThr TAwk (t_f x))) (tp_free s) (tp_get s) (tp_given s) (tp_done s))
    | _ => None
    end
  end.
Fixpoint trun (s : tpool) (es : list tev) : option tpool :=
  match es with [] => Some s | e :: r => do s1 <- tstep s e; trun s1 r end.
