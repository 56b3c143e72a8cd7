(** Model of util/rwlock.h: the readers/writers lock under an outer mutex (C58),
    which is also util/nb_mutex.h (a write lock only).

    A call is cut where it sleeps in toku_cond_wait; between those points it holds the
    outer mutex, so each piece is one step.  toku_cond_signal wakes one sleeper of that
    condition if there is one; which one is a choice of the step.  A thread that was
    woken has still to get the mutex and to look again, and may wake without a signal.
    The counters are natural numbers; instrumentation is left out.

    Definitions only. *)
From Verif Require Import Base.

(** What a thread does: nothing with the lock; asleep in, or woken from, the wait of
    rwlock_read_lock (l.230-232), of rwlock_write_lock (l.273-275), or of
    rwlock_wait_for_users (l.341-344); or it has the lock. *)
Inductive rthr := ROut | RSleep | RWoke | WSleep | WWoke | USleep | UWoke | Reading | Writing.

(** struct st_rwlock, rwlock.h:156-168; [rw_wait] is [wait_users_go_to_zero != NULL]. *)
Record rwl := mkRw { rw_reader : nat; rw_want_read : nat; rw_writer : nat; rw_want_write : nat; rw_wait : bool; rw_thr : list rthr }.

Fixpoint rset (l : list rthr) (i : nat) (t : rthr) : list rthr :=
  match l, i with [], _ => [] | _ :: l', O => t :: l' | x :: l', S i' => x :: rset l' i' t end.

(** rwlock_users, l.173-176. *)
Definition users (s : rwl) : nat := rw_reader s + rw_want_read s + rw_writer s + rw_want_write s.

(** [None]: the step cannot happen.  [Some None]: an invariant of the code fails. *)
Definition rres : Type := option (option rwl).

Definition is_wsleep (t : rthr) : bool := match t with WSleep => true | _ => false end.
(** toku_cond_signal(&wait_write) for the sleeper [j]. *)
Definition sig_write (l : list rthr) (j : nat) : option (list rthr) :=
  if existsb is_wsleep l then
    match nth_error l j with
    | Some WSleep => Some (rset l j WWoke)
    | _ => None
    end
  else Some l.
(** toku_cond_broadcast(&wait_read). *)
Definition wake_read (l : list rthr) : list rthr := map (fun t => match t with RSleep => RWoke | _ => t end) l.
(** toku_cond_signal(wait_users_go_to_zero): one thread at most waits there. *)
Definition wake_user (l : list rthr) : list rthr := map (fun t => match t with USleep => UWoke | _ => t end) l.

(** l.255-257 and 300-302. *)
Definition tell_users (s : rwl) : rwl :=
  if rw_wait s && (users s =? 0)
  then mkRw (rw_reader s) (rw_want_read s) (rw_writer s) (rw_want_write s) (rw_wait s) (wake_user (rw_thr s))
  else s.

Inductive rop :=
| OpReadLock | OpReadUnlock | OpWriteLock | OpWriteUnlock | OpWaitUsers
| OpResume       (** a woken thread gets the mutex *)
| OpSpurious.    (** a sleeping thread wakes by itself *)

(** inline_rwlock_init, l.185-198, with [n] threads around. *)
Definition rw_init (n : nat) : rwl := mkRw 0 0 0 0 false (repeat ROut n).

(** Thread [i] does [o]; [j] is the sleeper that gets the signal, if one is given. *)
Definition rstep (s : rwl) (i : nat) (o : rop) (j : nat) : rres :=
  let '(mkRw rd wr w ww u l) := s in
  match nth_error l i, o with
  (* rwlock_read_lock, l.217-240 *)
  | Some ROut, OpReadLock =>
      if u then Some None
      else if (0 <? w) || (0 <? ww) then Some (Some (mkRw rd (S wr) w ww u (rset l i RSleep)))
      else Some (Some (mkRw (S rd) wr w ww u (rset l i Reading)))
  | Some RWoke, OpResume =>
      if (0 <? w) || (0 <? ww) then Some (Some (mkRw rd wr w ww u (rset l i RSleep)))
      else if wr =? 0 then Some None
      else Some (Some (mkRw (S rd) (wr - 1) w ww u (rset l i Reading)))
  (* rwlock_read_unlock, l.245-258 *)
  | Some Reading, OpReadUnlock =>
      if (rd =? 0) || negb (w =? 0) then Some None
      else
        let l1 := rset l i ROut in
        match (if (rd - 1 =? 0) && (0 <? ww) then sig_write l1 j else Some l1) with
        | Some l2 => Some (Some (tell_users (mkRw (rd - 1) wr w ww u l2)))
        | None => None
        end
  (* rwlock_write_lock, l.263-283 *)
  | Some ROut, OpWriteLock =>
      if u then Some None
      else if (0 <? rd) || (0 <? w) then Some (Some (mkRw rd wr w (S ww) u (rset l i WSleep)))
      else Some (Some (mkRw rd wr (S w) ww u (rset l i Writing)))
  | Some WWoke, OpResume =>
      if (0 <? rd) || (0 <? w) then Some (Some (mkRw rd wr w ww u (rset l i WSleep)))
      else if ww =? 0 then Some None
      else Some (Some (mkRw rd wr (S w) (ww - 1) u (rset l i Writing)))
  (* rwlock_write_unlock, l.288-303 *)
  | Some Writing, OpWriteUnlock =>
      if negb (rd =? 0) || negb (w =? 1) then Some None
      else
        let l1 := rset l i ROut in
        match (if 0 <? ww then sig_write l1 j else Some (if 0 <? wr then wake_read l1 else l1)) with
        | Some l2 => Some (Some (tell_users (mkRw rd wr (w - 1) ww u l2)))
        | None => None
        end
  (* rwlock_wait_for_users, l.337-347 *)
  | Some ROut, OpWaitUsers =>
      if u then Some None
      else if 0 <? users s then Some (Some (mkRw rd wr w ww true (rset l i USleep)))
      else Some (Some s)
  | Some UWoke, OpResume =>
      if 0 <? users s then Some (Some (mkRw rd wr w ww true (rset l i USleep)))
      else Some (Some (mkRw rd wr w ww false (rset l i ROut)))
  | Some RSleep, OpSpurious => Some (Some (mkRw rd wr w ww u (rset l i RWoke)))
  | Some WSleep, OpSpurious => Some (Some (mkRw rd wr w ww u (rset l i WWoke)))
  | Some USleep, OpSpurious => Some (Some (mkRw rd wr w ww u (rset l i UWoke)))
  | _, _ => None
  end.

(** The states the lock can get into with [n] threads, when nobody asks for the lock
    while somebody waits for its users to go (the code's paranoid_invariant). *)
Inductive rreach (n : nat) : rwl -> Prop :=
| rr_init : rreach n (rw_init n)
| rr_step s i o j s1 : rreach n s -> rstep s i o j = Some (Some s1) -> rreach n s1.
