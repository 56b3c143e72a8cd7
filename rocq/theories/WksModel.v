(** Model of ft/serialize/workset.h and of how sub_block.cc uses it (C63): a caller puts
    work into the set, starts some workers, adds a reference for each of them only then
    (sub_block.cc l.275-276, l.375-376), works itself, and waits until all have let go.  The set is on
    the caller's stack: nobody may touch it after.

    A stretch under the lock is one step.  How many workers are started is up to the
    thread pool.  Ghost: [ws_done], the work done.  Definitions only. *)
From Coq Require Export ZArith.
From Verif Require Import Base.

(** Where a thread is in compress_worker / decompress_worker, sub_block.cc l.223-234 and
    l.329-340: at workset_get, at a piece of work, at workset_release_ref, gone. *)
Inductive wk := KGet | KDo (j : nat) | KRel | KGone.
(** The caller: starting workers and adding the references, working, at workset_join
    l.128-135, asleep in it, and past it. *)
Inductive caller := MStart | MWork (k : wk) | MJoin | MSleep | MPast.
Record ws := mkWs { ws_items : list nat; ws_refs : Z; ws_main : caller; ws_w : list wk; ws_done : list nat }.

Fixpoint kset (l : list wk) (i : nat) (x : wk) : list wk :=
  match l, i with [], _ => [] | _ :: r, O => x :: r | a :: r, S j => a :: kset r j x end.

(** workset_init, l.59-64, and the puts. *)
Definition ws_init (items : list nat) : ws := mkWs items 1 MStart [] [].

Inductive wev := VStart | VAddRef | VMain | VWorker (i : nat) | VSpur.

(** One step of a worker's loop: the set's items, its references, whether it broadcasts,
    where the thread is then, and what it has done. *)
Definition wk_step (items : list nat) (refs : Z) (k : wk) : option (list nat * Z * bool * wk * list nat) :=
  match k with
  | KGet => (* workset_get, l.97-107 *)
    match items with j :: r => Some (r, refs, false, KDo j, []) | [] => Some ([], refs, false, KRel, []) end
  | KDo j => Some (items, refs, false, KGet, [j])
  | KRel => (* workset_release_ref, l.118-125 *)
    Some (items, (refs - 1)%Z, (refs - 1 =? 0)%Z, KGone, [])
  | KGone => None
  end.
Definition wake (b : bool) (m : caller) : caller := match m with MSleep => if b then MJoin else MSleep | _ => m end.

Definition ws_step (s : ws) (e : wev) : option ws :=
  match e with
  | VStart => (* toku_thread_pool_run gets one more thread to run the worker *)
    match ws_main s with MStart => Some (mkWs (ws_items s) (ws_refs s) MStart (ws_w s ++ [KGet]) (ws_done s)) | _ => None end
  | VAddRef => (* workset_add_ref, l.110-115 *)
    match ws_main s with
    | MStart => Some (mkWs (ws_items s) (ws_refs s + Z.of_nat (length (ws_w s))) (MWork KGet) (ws_w s) (ws_done s))
    | _ => None
    end
  | VMain =>
    match ws_main s with
    | MWork k =>
      do r <- wk_step (ws_items s) (ws_refs s) k;
      let '(items, refs, b, k1, dn) := r in
      Some (mkWs items refs (match k1 with KGone => MJoin | _ => MWork k1 end) (ws_w s) (ws_done s ++ dn))
    | MJoin => (* workset_join, l.128-135 *)
      Some (mkWs (ws_items s) (ws_refs s) (if (ws_refs s =? 0)%Z then MPast else MSleep) (ws_w s) (ws_done s))
    | _ => None
    end
  | VWorker i =>
    do k <- nth_error (ws_w s) i;
    do r <- wk_step (ws_items s) (ws_refs s) k;
    let '(items, refs, b, k1, dn) := r in
    Some (mkWs items refs (wake b (ws_main s)) (kset (ws_w s) i k1) (ws_done s ++ dn))
  | VSpur =>
    match ws_main s with MSleep => Some (mkWs (ws_items s) (ws_refs s) MJoin (ws_w s) (ws_done s)) | _ => None end
  end.
Fixpoint ws_run (s : ws) (es : list wev) : option ws :=
  match es with [] => Some s | e :: r => do s1 <- ws_step s e; ws_run s1 r end.
