(** What a fair reader/writer lock promises, said about the threads only. *)
From Verif Require Import Base FrwModel.

(** How many threads satisfy [p]. *)
Fixpoint count {A} (p : A -> bool) (l : list A) : nat := match l with [] => 0 | x :: l' => (if p x then 1 else 0) + count p l' end.

Definition reads (t : tst) : bool := match t with TRead => true | _ => false end.
Definition writes (t : tst) : bool := match t with TWrite _ => true | _ => false end.
(** Asleep in cond_wait. *)
Definition asleep (t : tst) : bool := match t with TWaitR | TWaitW _ => true | _ => false end.
(** Has the lock, or has been given it and needs only to run on. *)
Definition granted (t : tst) : bool := match t with TRead | TWrite _ | TWokeR | TWokeW _ => true | _ => false end.
(** Inside a lock call that has not returned. *)
Definition calling (t : tst) : bool := match t with TWaitR | TWokeR | TWaitW _ | TWokeW _ => true | _ => false end.
Definition outside (t : tst) : bool := match t with TOut => true | _ => false end.
(** A writer that said its work is expensive: has the lock or is in the call. *)
Definition dear (t : tst) : bool := match t with TWrite e | TWaitW e | TWokeW e => e | _ => false end.

(** The item of the queue behind which thread [i] sleeps: all readers asleep share one. *)
Definition waits_at (i : nat) (t : tst) : option item := match t with TWaitR => Some QR | TWaitW _ => Some (QW i) | _ => None end.

Definition newly (s s' : frw) (j : nat) (t : tst) : Prop :=
  nth_error (thr s) j = Some t /\ granted t = false /\ exists t', nth_error (thr s') j = Some t' /\ granted t' = true.

(** First come, first served: a step of thread [i] either leaves the queue and gives
    the lock to nobody, or only to [i], which has just come while nobody sleeps; or puts
    [i] at the end of the queue; or takes the first item off and gives the lock to the
    threads asleep behind it and to nobody else. *)
Definition fcfs (s : frw) (i : nat) (s' : frw) : Prop :=
  (queue s' = queue s /\ forall j t, newly s s' j t -> j = i /\ t = TOut /\ count asleep (thr s) = 0%nat) \/
  (exists x t', queue s' = queue s ++ [x] /\ nth_error (thr s') i = Some t' /\ waits_at i t' = Some x /\ forall j t, ~ newly s s' j t) \/
  (exists x q, queue s = x :: q /\ queue s' = q /\
     (forall j t, newly s s' j t <-> nth_error (thr s) j = Some t /\ waits_at j t = Some x) /\ exists j t, newly s s' j t).

(** Steps by which nobody new comes. *)
Definition comes (o : fop) : bool := match o with FWrite _ | FTryWrite _ | FRead | FTryRead => true | _ => false end.

Section R.
Variable paranoid : bool.
Fixpoint frun (s : frw) (l : list (nat * fop)) : fres frw :=
  match l with [] => FOk s | (i, o) :: l' => match fstep paranoid false s i o with FOk s' => frun s' l' | FBug => FBug | FNo => FNo end end.
End R.
