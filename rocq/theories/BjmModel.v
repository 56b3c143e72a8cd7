(** Model of ft/cachetable/background_job_manager.cc: waiting for the jobs of a cachefile,
    of the evictor or of the cloned nodes of a checkpoint (C65).

    Each function is one step, except that waiting splits bjm_wait_for_jobs_to_finish.
    [num_jobs], a uint32_t, is a nat: that 2^32 jobs are never in is assumed.  A failed
    assertion sets [b_abort], after which nothing happens.  Ghosts: where each caller of
    bjm_add_background_job and each caller of bjm_wait_for_jobs_to_finish is, and whether
    a wait has returned since the last reset.  Definitions only. *)
From Verif Require Import Base.

(** A job: added and running, refused (-1), or removed. *)
Inductive jst := JIn | JNo | JOut.
(** A wait: in toku_cond_wait l.105, woken there, or returned. *)
Inductive vst := VSleep | VAwk | VRet.
Record bjm := mkBjm { b_acc : bool; b_num : nat; b_abort : bool; b_job : list jst; b_wait : list vst; b_ret : bool }.

Fixpoint bset {A} (l : list A) (i : nat) (x : A) : list A :=
  match l, i with [], _ => [] | _ :: r, O => x :: r | a :: r, S j => a :: bset r j x end.

(** bjm_init, l.55-62. *)
Definition bjm_init : bjm := mkBjm true 0 false [] [] false.
(** toku_cond_broadcast(&bjm->jobs_wait). *)
Definition vwake (v : vst) : vst := match v with VSleep => VAwk | _ => v end.
(** The loop of bjm_wait_for_jobs_to_finish, l.104-106, entered with the lock. *)
Definition vnext (n : nat) : vst := if 0 <? n then VSleep else VRet.

Inductive bev :=
| BAdd              (* bjm_add_background_job *)
| BRem (i : nat)    (* bjm_remove_background_job by job i *)
| BWait             (* bjm_wait_for_jobs_to_finish *)
| BGo (k : nat)     (* woken wait k has the lock again *)
| BReset            (* bjm_reset *)
| BSpur (k : nat).

Definition bstep (s : bjm) (e : bev) : option bjm :=
  guard (negb (b_abort s));
  match e with
  | BAdd => (* l.78-90 *)
    if b_acc s then Some (mkBjm true (S (b_num s)) false (b_job s ++ [JIn]) (b_wait s) (b_ret s))
    else Some (mkBjm false (b_num s) false (b_job s ++ [JNo]) (b_wait s) (b_ret s))
  | BRem i => (* l.91-99 *)
    match nth_error (b_job s) i with
    | Some JIn =>
      if b_num s =? 0 then Some (mkBjm (b_acc s) (b_num s) true (b_job s) (b_wait s) (b_ret s)) else
      let n := b_num s - 1 in
      let w := if (n =? 0) && negb (b_acc s) then map vwake (b_wait s) else b_wait s in
      Some (mkBjm (b_acc s) n false (bset (b_job s) i JOut) w (b_ret s))
    | _ => None
    end
  | BWait => (* l.101-108 *)
    Some (mkBjm false (b_num s) false (b_job s) (b_wait s ++ [vnext (b_num s)]) ((b_num s =? 0) || b_ret s))
  | BGo k => (* l.104-108 *)
    match nth_error (b_wait s) k with
    | Some VAwk => Some (mkBjm (b_acc s) (b_num s) false (b_job s) (bset (b_wait s) k (vnext (b_num s))) ((b_num s =? 0) || b_ret s))
    | _ => None
    end
  | BReset => (* l.71-76 *)
    if b_num s =? 0 then Some (mkBjm true 0 false (b_job s) (b_wait s) false)
    else Some (mkBjm (b_acc s) (b_num s) true (b_job s) (b_wait s) (b_ret s))
  | BSpur k =>
    match nth_error (b_wait s) k with
    | Some VSleep => Some (mkBjm (b_acc s) (b_num s) false (b_job s) (bset (b_wait s) k VAwk) (b_ret s))
    | _ => None
    end
  end.
Fixpoint brun (s : bjm) (es : list bev) : option bjm :=
  match es with [] => Some s | e :: r => do s1 <- bstep s e; brun s1 r end.
