(** Model of util/kibbutz.cc: workers and a queue of jobs (C60).

    What a worker does between taking the mutex and giving it up (by unlocking or by
    waiting) is one step.  The list from [tail] along [prev] is [k_q], oldest first
    (the [next] pointers are written and never followed; in l.143-151 the [next] of the
    new tail points at a struct that is freed later).  A job is any number; what it does
    is outside the model, so it may also enqueue.  A signal wakes one arbitrary sleeper
    if there is one; spurious wake-ups are a step, so signals that wake several are
    covered.  Left out: the counters, which only engine status reads.

    [k_enq], [k_start], [k_fin] are ghosts: the jobs in the order in which they were
    enqueued, begun and finished.  Definitions only. *)
From Verif Require Import Base.

(** Where a worker is in work_on_kibbutz, l.136-176: before taking the mutex (at the
    start l.139, after a job l.160, or woken in l.174), in toku_cond_wait l.174, in
    [item->f] l.154, or returned l.171. *)
Inductive wst := WAwake | WSleep | WRun (j : nat) | WDone.

Record kib := mkKib {
  k_q : list nat; k_shut : bool; k_w : list wst;
  k_enq : list nat; k_start : list nat; k_fin : list nat }.

Fixpoint wset (l : list wst) (i : nat) (x : wst) : list wst :=
  match l, i with [], _ => [] | _ :: r, O => x :: r | a :: r, S j => a :: wset r j x end.
Definition asleep (x : wst) : bool := match x with WSleep => true | _ => false end.

(** toku_kibbutz_create, l.81-115: [n] workers, none of which has run yet. *)
Definition kib_init (n : nat) : kib := mkKib [] false (repeat WAwake n) [] [] [].

(** ksignal, l.126-128: [c] is the worker that wakes; [None] only if nobody sleeps. *)
Definition ksignal (w : list wst) (c : option nat) : option (list wst) :=
  match c with
  | None => if existsb asleep w then None else Some w
  | Some i => match nth_error w i with Some WSleep => Some (wset w i WAwake) | _ => None end
  end.

Inductive kev :=
| KEnq (j : nat) (c : option nat)     (* toku_kibbutz_enq *)
| KShut (c : option nat)              (* toku_kibbutz_destroy up to the joins *)
| KLoop (i : nat) (c : option nat)    (* worker i gets the mutex *)
| KFinish (i : nat)                   (* its job returns *)
| KSpur (i : nat).                    (* toku_cond_wait returns without signal *)

(** One step; [None]: not possible, or the assert in l.189 / l.227. *)
Definition kstep (s : kib) (e : kev) : option kib :=
  match e with
  | KEnq j c =>
    (* l.185-204 *)
    guard (negb (k_shut s));
    do w <- ksignal (k_w s) c;
    Some (mkKib (k_q s ++ [j]) (k_shut s) w (k_enq s ++ [j]) (k_start s) (k_fin s))
  | KShut c =>
    (* l.226-230 *)
    guard (negb (k_shut s));
    do w <- ksignal (k_w s) c;
    Some (mkKib (k_q s) true w (k_enq s) (k_start s) (k_fin s))
  | KLoop i c =>
    match nth_error (k_w s) i with
    | Some WAwake =>
      match k_q s with
      | j :: q =>
        (* l.141-152 *)
        let w := wset (k_w s) i (WRun j) in
        do w1 <- (match q with [] => match c with None => Some w | Some _ => None end | _ => ksignal w c end);
        Some (mkKib q (k_shut s) w1 (k_enq s) (k_start s ++ [j]) (k_fin s))
      | [] =>
        if k_shut s then
          (* l.163-172 *)
          do w1 <- ksignal (wset (k_w s) i WDone) c;
          Some (mkKib [] true w1 (k_enq s) (k_start s) (k_fin s))
        else
          (* l.174 *)
          match c with
          | None => Some (mkKib [] false (wset (k_w s) i WSleep) (k_enq s) (k_start s) (k_fin s))
          | Some _ => None
          end
      end
    | _ => None
    end
  | KFinish i =>
    match nth_error (k_w s) i with
    | Some (WRun j) =>
      (* l.154-160 *)
      Some (mkKib (k_q s) (k_shut s) (wset (k_w s) i WAwake) (k_enq s) (k_start s) (k_fin s ++ [j]))
    | _ => None
    end
  | KSpur i =>
    match nth_error (k_w s) i with
    | Some WSleep => Some (mkKib (k_q s) (k_shut s) (wset (k_w s) i WAwake) (k_enq s) (k_start s) (k_fin s))
    | _ => None
    end
  end.

Fixpoint krun (s : kib) (es : list kev) : option kib :=
  match es with [] => Some s | e :: r => do s1 <- kstep s e; krun s1 r end.

(** All the joins of toku_kibbutz_destroy return, l.231-236. *)
Definition all_joined (s : kib) : Prop := Forall (fun x => x = WDone) (k_w s).
