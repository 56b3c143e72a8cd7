(** Model of util/minicron.cc: calling a function periodically (C61).

    The thread minicron_do is cut where it gives up the mutex; a stretch in between is
    one step, during which the clock stands still but for l.117-123, where [d]
    microseconds may pass.  The clock only goes forward.  toku_cond_timedwait returns
    EINVAL for a time with tv_nsec outside 0..999999999 (POSIX; glibc does), which is
    the assert of l.106: [CBug].  A signal wakes the thread if it waits; the thread may
    also wake by itself at any time.  [f] returns 0 after any time.

    [c_t0], [c_log], [c_fin] are ghosts: when it was set up, the calls (when they began
    and with what period, newest first), when the last one finished.  Definitions only. *)
From Coq Require Export ZArith.
From Verif Require Import Base.
Local Open Scope Z_scope.

(** toku_timespec_t: tv_sec, tv_nsec. *)
Notation tsp := (Z * Z)%type.
(** toku_gettime, l.50-55, at [t] microseconds. *)
Definition gettime (t : Z) : tsp := (t / 1000000, (t mod 1000000) * 1000).
(** timespec_compare, l.58-65. *)
Definition ts_compare (a b : tsp) : comparison :=
  match fst a ?= fst b with Eq => snd a ?= snd b | c => c end.
(** l.95-97 and l.118-120: no carry from tv_nsec to tv_sec. *)
Definition due (last : tsp) (period : Z) : tsp :=
  (fst last + period / 1000, snd last + (period mod 1000) * 1000000).
Definition ts_valid (a : tsp) : bool := (0 <=? snd a) && (snd a <? 1000000000).

Inductive cpc :=
| CTop                 (* l.77, with the mutex or about to take it *)
| CCond                (* l.85 *)
| CTimed (w : tsp)     (* l.104 *)
| CUsleep (until : Z)  (* l.90 *)
| CWoke                (* l.110 *)
| CCall                (* in f, l.125 or l.133 *)
| CExit                (* l.81, l.113 *)
| CBug.                (* l.106 *)

Record cron := mkCron {
  c_pc : cpc; c_last : tsp; c_period : Z; c_shut : bool; c_now : Z;
  c_t0 : Z; c_log : list (Z * Z); c_fin : Z }.

(** toku_minicron_setup, l.140-154, at time [t] with period [p]. *)
Definition cron_setup (t p : Z) : cron := mkCron CTop (gettime t) p false t t [] t.

Inductive cev :=
| ETick (d : Z)       (* time passes *)
| ETop                (* the thread goes on at l.77 *)
| EWake               (* it returns from waiting *)
| EWoke (d : Z)       (* it goes on at l.110 *)
| ERet                (* f returns *)
| EPeriod (p : Z)     (* toku_minicron_change_period, l.156-161 *)
| EShut.              (* toku_minicron_shutdown up to the join, l.181-186 *)

Definition with_pc (s : cron) (pc : cpc) : cron :=
  mkCron pc (c_last s) (c_period s) (c_shut s) (c_now s) (c_t0 s) (c_log s) (c_fin s).
(** toku_cond_signal, l.159, l.185. *)
Definition signalled (pc : cpc) : cpc := match pc with CCond | CTimed _ => CWoke | _ => pc end.

(** One step; [None]: not possible now. *)
Definition cstep (s : cron) (e : cev) : option cron :=
  match e, c_pc s with
  | ETick d, _ =>
    guard (0 <=? d);
    Some (mkCron (c_pc s) (c_last s) (c_period s) (c_shut s) (c_now s + d) (c_t0 s) (c_log s) (c_fin s))
  | ETop, CTop =>
    (* l.78-108 *)
    if c_shut s then Some (with_pc s CExit)
    else if c_period s =? 0 then Some (with_pc s CCond)
    else if c_period s <=? 1000 then Some (with_pc s (CUsleep (c_now s + c_period s * 1000)))
    else
      let w := due (c_last s) (c_period s) in
      match ts_compare w (gettime (c_now s)) with
      | Gt => Some (with_pc s (if ts_valid w then CTimed w else CBug))
      | _ => Some (with_pc s CWoke)
      end
  | EWake, CCond => Some (with_pc s CWoke)
  | EWake, CTimed _ => Some (with_pc s CWoke)
  | EWake, CUsleep u => guard (u <=? c_now s); Some (with_pc s CWoke)
  | EWoke d, CWoke =>
    (* l.110-136 *)
    guard (0 <=? d);
    if c_shut s then Some (with_pc s CExit)
    else if 1000 <? c_period s then
      match ts_compare (due (c_last s) (c_period s)) (gettime (c_now s)) with
      | Gt => Some (with_pc s CTop)
      | _ => Some (mkCron CCall (gettime (c_now s + d)) (c_period s) (c_shut s) (c_now s + d) (c_t0 s)
                          ((c_now s + d, c_period s) :: c_log s) (c_fin s))
      end
    else if c_period s =? 0 then Some (with_pc s CTop)
    else Some (mkCron CCall (c_last s) (c_period s) (c_shut s) (c_now s) (c_t0 s) ((c_now s, c_period s) :: c_log s) (c_fin s))
  | ERet, CCall =>
    Some (mkCron CTop (c_last s) (c_period s) (c_shut s) (c_now s) (c_t0 s) (c_log s) (c_now s))
  | EPeriod p, _ =>
    guard (0 <=? p);
    Some (mkCron (signalled (c_pc s)) (c_last s) p (c_shut s) (c_now s) (c_t0 s) (c_log s) (c_fin s))
  | EShut, _ =>
    guard (negb (c_shut s));
    Some (mkCron (signalled (c_pc s)) (c_last s) (c_period s) true (c_now s) (c_t0 s) (c_log s) (c_fin s))
  | _, _ => None
  end.
Fixpoint crun (s : cron) (es : list cev) : option cron :=
  match es with [] => Some s | e :: r => do s1 <- cstep s e; crun s1 r end.
