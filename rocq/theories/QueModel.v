(** Model of util/queue.cc: the bounded queue between the threads of the loader.

    A call is cut where it sleeps in toku_cond_wait; between those points it holds the
    mutex, so each piece is one step.  toku_cond_signal wakes one sleeping thread if
    there is one; which one is a choice of the step.  A thread that was woken has still
    to get the mutex and to look again.  A thread may also wake without a signal.
    Simplified: memory does not run out; the sum of the weights does not wrap.

    Definitions only. *)
From Verif Require Import Base.
From Coq Require Import NArith.

(** What a thread does: nothing with the queue; asleep in or woken from the wait of
    toku_queue_enq (l.129-131) or of toku_queue_deq (l.154-156). *)
Inductive qthr := QOut | QEnqSleep | QEnqWoke | QDeqSleep | QDeqWoke.
Definition asleep (t : qthr) : bool := match t with QEnqSleep | QDeqSleep => true | _ => false end.
Definition woken (t : qthr) : qthr := match t with QEnqSleep => QEnqWoke | QDeqSleep => QDeqWoke | _ => t end.

(** struct queue, queue.cc:57-67.  [q_put] and [q_got] are what was ever put in and
    what was handed out (no part of the C state); [q_ends] counts answers EOF. *)
Record que := mkQ { q_items : list (nat * N); q_weight : N; q_limit : N; q_eof : bool; q_thr : list qthr; q_put : list (nat * N); q_got : list (nat * N); q_ends : nat }.

Fixpoint qset (l : list qthr) (i : nat) (t : qthr) : list qthr :=
  match l, i with [], _ => [] | _ :: l', O => t :: l' | x :: l', S i' => x :: qset l' i' t end.
Definition qget (q : que) (i : nat) : option qthr := nth_error (q_thr q) i.
Definition set_thr (q : que) (i : nat) (t : qthr) : que :=
  mkQ (q_items q) (q_weight q) (q_limit q) (q_eof q) (qset (q_thr q) i t) (q_put q) (q_got q) (q_ends q).

(** [None]: the step cannot happen.  [Some None]: an assert fails. *)
Definition qres : Type := option (option que).

(** toku_cond_signal for the sleeper [j]. *)
Definition signal (q : que) (j : nat) : option que :=
  if existsb asleep (q_thr q) then
    match qget q j with
    | Some t => if asleep t then Some (set_thr q j (woken t)) else None
    | None => None
    end
  else Some q.

(** The end of toku_queue_enq, l.128-137. *)
Definition enq_rest (q : que) (i : nat) : que := set_thr q i (if (q_limit q <? q_weight q)%N then QEnqSleep else QOut).

(** toku_queue_deq from the test on, l.154-180; [j] is who gets the signal. *)
Definition deq_rest (q : que) (i j : nat) : qres :=
  match q_items q with
  | [] => if q_eof q then Some (Some (mkQ [] (q_weight q) (q_limit q) true (qset (q_thr q) i QOut) (q_put q) (q_got q) (S (q_ends q))))
          else Some (Some (set_thr q i QDeqSleep))
  | x :: l =>
      match signal (mkQ l (q_weight q - snd x)%N (q_limit q) (q_eof q) (qset (q_thr q) i QOut) (q_put q) (q_got q ++ [x]) (q_ends q)) j with
      | Some q' => Some (Some q')
      | None => None
      end
  end.

Inductive qop :=
| QEnq (x : nat) (w : N) (* l.104-138 *)
| QEof (* l.140-148 *)
| QDeq (* l.150-181 *)
| QResume (* a woken thread gets the mutex *)
| QSpurious. (* a sleeping thread wakes by itself *)

(** Thread [i] does [o]; [j] is the sleeper that gets the signal, if one is given. *)
Definition qstep (q : que) (i : nat) (o : qop) (j : nat) : qres :=
  match qget q i, o with
  | Some QOut, QEnq x w =>
      if q_eof q then Some None
      else
        match signal (mkQ (q_items q ++ [(x, w)]) (q_weight q + w)%N (q_limit q) false (q_thr q) (q_put q ++ [(x, w)]) (q_got q) (q_ends q)) j with
        | Some q' => Some (Some (enq_rest q' i))
        | None => None
        end
  | Some QOut, QEof =>
      if q_eof q then Some None
      else
        match signal (mkQ (q_items q) (q_weight q) (q_limit q) true (q_thr q) (q_put q) (q_got q) (q_ends q)) j with
        | Some q' => Some (Some q')
        | None => None
        end
  | Some QOut, QDeq => deq_rest q i j
  | Some QEnqWoke, QResume => Some (Some (enq_rest q i))
  | Some QDeqWoke, QResume => deq_rest q i j
  | Some t, QSpurious => if asleep t then Some (Some (set_thr q i (woken t))) else None
  | _, _ => None
  end.

(** toku_queue_create, l.82-95, used by [n] threads. *)
Definition q_init (n : nat) (limit : N) : que := mkQ [] 0 limit false (repeat QOut n) [] [] 0.

(** The steps a user may take: who calls what ([may]), and no call of enq or eof after
    eof. *)
Inductive qreach (may : nat -> qop -> bool) (n : nat) (limit : N) : que -> Prop :=
| QR0 : qreach may n limit (q_init n limit)
| QRS q i o j q' : qreach may n limit q -> may i o = true -> qstep q i o j = Some (Some q') -> qreach may n limit q'.
