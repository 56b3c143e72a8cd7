(** Model of the fair reader/writer lock, util/frwlock.cc, which guards every pair of
    the cache table.  Threads [0 .. n-1] use one lock; each step is what one thread
    does while it has the external mutex.

    Simplified: counters do not wrap (fewer than 2^32 threads); the thread id and
    context id kept for instrumentation are left out; the queue of items with
    pointers is a list.

    Definitions only. *)
From Verif Require Import Base.

(** What a thread is doing: has nothing; has a read lock; has the write lock (taken
    as [expensive] or not); waits in cond_wait, or has been signalled and has not run
    since. *)
Inductive tst := TOut | TRead | TWrite (e : bool) | TWaitR | TWokeR | TWaitW (e : bool) | TWokeW (e : bool).

(** The waiting queue (frwlock.h, queue_item; enq_item and deq_item, frwlock.cc:95-115): the readers' item, or the item of a writer. *)
Inductive item := QR | QW (i : nat).

(** util/frwlock.h:91-125. *)
Record frw := mkF {
  n_readers : nat; n_writers : nat; n_want_write : nat; n_want_read : nat; n_signaled : nat; n_exp_want : nat;
  cur_exp : bool;        (* m_current_writer_expensive *)
  rwait_exp : bool;      (* m_read_wait_expensive *)
  rinq : bool;           (* m_wait_read_is_in_queue *)
  queue : list item;
  thr : list tst }.

Fixpoint upd {A} (l : list A) (i : nat) (x : A) : list A :=
  match l, i with [], _ => [] | _ :: l', O => x :: l' | y :: l', S i' => y :: upd l' i' x end.
Definition set_t (s : frw) (i : nat) (t : tst) : frw :=
  mkF (n_readers s) (n_writers s) (n_want_write s) (n_want_read s) (n_signaled s) (n_exp_want s) (cur_exp s) (rwait_exp s) (rinq s) (queue s) (upd (thr s) i t).

(** [FBug]: a paranoid_invariant fails (if they are compiled in) or a null pointer is
    used; [FNo]: the thread cannot do this now. *)
Inductive fres (A : Type) := FOk (a : A) | FBug | FNo.
Arguments FOk {A}. Arguments FBug {A}. Arguments FNo {A}.

Section Frw.
(** Are paranoid invariants compiled in (TOKU_DEBUG_PARANOID)? *)
Variable paranoid : bool.
(** Does cond_wait return without a signal, as POSIX allows? *)
Variable spurious : bool.

Definition inv_check (b : bool) (r : fres frw) : fres frw := if paranoid && negb b then FBug else r.
Definition pos (n : nat) : bool := (0 <? n)%nat.
Definition zero (n : nat) : bool := (n =? 0)%nat.
Definition b2n (b : bool) : nat := if b then 1 else 0.

(** try_write_lock, frwlock.cc:177-191: [None] is the answer false. *)
Definition try_write (s : frw) (i : nat) (e : bool) : option (fres frw) :=
  if pos (n_readers s) || pos (n_writers s) || pos (n_signaled s) || pos (n_want_write s) then None
  else Some (inv_check (zero (n_want_write s) && zero (n_want_read s))
        (FOk (mkF (n_readers s) 1 (n_want_write s) (n_want_read s) (n_signaled s) (n_exp_want s) e (rwait_exp s) (rinq s) (queue s) (upd (thr s) i (TWrite e))))).

(** write_lock up to cond_wait, frwlock.cc:118-152. *)
Definition write_lock (s : frw) (i : nat) (e : bool) : fres frw :=
  match try_write s i e with
  | Some r => r
  | None => FOk (mkF (n_readers s) (n_writers s) (n_want_write s + 1) (n_want_read s) (n_signaled s) (n_exp_want s + b2n e)
                     (cur_exp s) (rwait_exp s) (rinq s) (queue s ++ [QW i]) (upd (thr s) i (TWaitW e)))
  end.

(** write_lock after cond_wait, frwlock.cc:155-175. *)
Definition write_resume (s : frw) (i : nat) (e : bool) : fres frw :=
  inv_check (pos (n_want_write s) && zero (n_readers s) && zero (n_writers s) && zero (n_signaled s))
    (FOk (mkF (n_readers s) 1 (n_want_write s - 1) (n_want_read s) (n_signaled s) (n_exp_want s - b2n e)
              e (rwait_exp s) (rinq s) (queue s) (upd (thr s) i (TWrite e)))).

(** read_lock up to cond_wait, frwlock.cc:193-220, and without it, l.231. *)
Definition read_lock (s : frw) (i : nat) : fres frw :=
  if pos (n_writers s) || pos (n_want_write s) then
    if rinq s then
      FOk (mkF (n_readers s) (n_writers s) (n_want_write s) (n_want_read s + 1) (n_signaled s) (n_exp_want s) (cur_exp s) (rwait_exp s) (rinq s) (queue s) (upd (thr s) i TWaitR))
    else
      inv_check ((n_signaled s =? n_want_read s)%nat && negb (rwait_exp s))
        (FOk (mkF (n_readers s) (n_writers s) (n_want_write s) (n_want_read s + 1) (n_signaled s) (n_exp_want s)
                  (cur_exp s) (cur_exp s || pos (n_exp_want s)) true (queue s ++ [QR]) (upd (thr s) i TWaitR)))
  else FOk (mkF (n_readers s + 1) (n_writers s) (n_want_write s) (n_want_read s) (n_signaled s) (n_exp_want s) (cur_exp s) (rwait_exp s) (rinq s) (queue s) (upd (thr s) i TRead)).

(** read_lock after cond_wait, frwlock.cc:222-236. *)
Definition read_resume (s : frw) (i : nat) : fres frw :=
  inv_check (zero (n_writers s) && pos (n_want_read s) && pos (n_signaled s))
    (FOk (mkF (n_readers s + 1) (n_writers s) (n_want_write s) (n_want_read s - 1) (n_signaled s - 1) (n_exp_want s) (cur_exp s) (rwait_exp s) (rinq s) (queue s) (upd (thr s) i TRead))).

(** try_read_lock, frwlock.cc:238-248. *)
Definition try_read (s : frw) (i : nat) : fres frw :=
  if pos (n_writers s) || pos (n_want_write s) then FOk s
  else FOk (mkF (n_readers s + 1) (n_writers s) (n_want_write s) (n_want_read s) (n_signaled s) (n_exp_want s) (cur_exp s) (rwait_exp s) (rinq s) (queue s) (upd (thr s) i TRead)).

(** cond_signal on a writer's condition; cond_broadcast on that of the readers. *)
Definition wake_w (t : tst) : tst := match t with TWaitW e => TWokeW e | _ => t end.
Definition wake_r (t : tst) : tst := match t with TWaitR => TWokeR | _ => t end.
Definition signal_w (s : frw) (i : nat) : frw := set_t s i (wake_w (nth i (thr s) TOut)).
Definition set_q (s : frw) (q : list item) : frw :=
  mkF (n_readers s) (n_writers s) (n_want_write s) (n_want_read s) (n_signaled s) (n_exp_want s) (cur_exp s) (rwait_exp s) (rinq s) q (thr s).

(** maybe_signal_next_writer, frwlock.cc:250-259. *)
Definition signal_next_writer (s : frw) : fres frw :=
  if pos (n_want_write s) && zero (n_signaled s) && zero (n_readers s) then
    match queue s with
    | [] => FBug
    | QR :: q => inv_check false (FOk (mkF (n_readers s) (n_writers s) (n_want_write s) (n_want_read s) (n_signaled s) (n_exp_want s) (cur_exp s) (rwait_exp s) (rinq s) q (thr s)))
    | QW j :: q => FOk (signal_w (set_q s q) j)
    end
  else FOk s.

(** read_unlock, frwlock.cc:261-270. *)
Definition read_unlock (s : frw) (i : nat) : fres frw :=
  inv_check (zero (n_writers s) && pos (n_readers s))
    (signal_next_writer (mkF (n_readers s - 1) (n_writers s) (n_want_write s) (n_want_read s) (n_signaled s) (n_exp_want s) (cur_exp s) (rwait_exp s) (rinq s) (queue s) (upd (thr s) i TOut))).

(** maybe_signal_or_broadcast_next, frwlock.cc:282-304. *)
Definition signal_next (s : frw) : fres frw :=
  inv_check (zero (n_signaled s))
    (match queue s with
     | [] => inv_check (zero (n_want_write s) && zero (n_want_read s)) (FOk s)
     | QR :: q => inv_check (rinq s && pos (n_want_read s))
         (FOk (mkF (n_readers s) (n_writers s) (n_want_write s) (n_want_read s) (n_want_read s) (n_exp_want s) (cur_exp s) false false q (map wake_r (thr s))))
     | QW j :: q => inv_check (pos (n_want_write s)) (FOk (signal_w (set_q s q) j))
     end).

(** write_unlock, frwlock.cc:306-317. *)
Definition write_unlock (s : frw) (i : nat) : fres frw :=
  inv_check (n_writers s =? 1)%nat
    (signal_next (mkF (n_readers s) 0 (n_want_write s) (n_want_read s) (n_signaled s) (n_exp_want s) false (rwait_exp s) (rinq s) (queue s) (upd (thr s) i TOut))).

Inductive fop := FWrite (e : bool) | FTryWrite (e : bool) | FRead | FTryRead | FReadUnlock | FWriteUnlock | FResume | FSpurious.

Definition fstep (s : frw) (i : nat) (o : fop) : fres frw :=
  match nth_error (thr s) i, o with
  | Some TOut, FWrite e => write_lock s i e
  | Some TOut, FTryWrite e => match try_write s i e with Some r => r | None => FOk s end
  | Some TOut, FRead => read_lock s i
  | Some TOut, FTryRead => try_read s i
  | Some TRead, FReadUnlock => read_unlock s i
  | Some (TWrite _), FWriteUnlock => write_unlock s i
  | Some TWokeR, FResume => read_resume s i
  | Some (TWokeW e), FResume => write_resume s i e
  | Some (TWaitW e), FSpurious => if spurious then FOk (set_t s i (TWokeW e)) else FNo
  | Some TWaitR, FSpurious => if spurious then FOk (set_t s i TWokeR) else FNo
  | _, _ => FNo
  end.

(** init, frwlock.cc:56-84. *)
Definition finit (n : nat) : frw := mkF 0 0 0 0 0 0 false false false [] (repeat TOut n).

Inductive freach (n : nat) : frw -> Prop :=
  | FStart : freach n (finit n)
  | FStep s i o s' : freach n s -> fstep s i o = FOk s' -> freach n s'.
End Frw.

(** users, blocked_users, writers, readers, write_lock_is_expensive and
    read_lock_is_expensive, frwlock.cc:272-280, 318-349. *)
Definition users (s : frw) : nat := n_readers s + n_writers s + n_want_read s + n_want_write s.
Definition blocked_users (s : frw) : nat := n_want_read s + n_want_write s.
Definition write_is_expensive (s : frw) : bool := pos (n_exp_want s) || cur_exp s.
Definition read_is_expensive (s : frw) : bool := if rinq s then rwait_exp s else cur_exp s || pos (n_exp_want s).
