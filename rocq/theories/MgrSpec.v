(** What the history of begin/snapshot/finish events defines, independently of
    the transaction manager's data structures.  Histories are newest first. *)
From Verif Require Import Base UleModel MgrModel.
Open Scope N_scope.

Definition without (x : txnid) (l : list txnid) : list txnid :=
  filter (fun y => negb (y =? x)) l.

(** Root transactions that have begun (not declared read only) and have not
    finished, in the order they began. *)
Fixpoint live_of (h : list event) : list txnid :=
  match h with
  | [] => []
  | EBegin x false :: h' => live_of h' ++ [x]
  | EFinish x :: h' => without x (live_of h')
  | _ :: h' => live_of h'
  end.

(** Snapshots that are still held, oldest first, each with the transactions that
    were live when it was taken. *)
Fixpoint snaps_of (h : list event) : list snap :=
  match h with
  | [] => []
  | ESnap s :: h' => snaps_of h' ++ [mkSnap s (live_of h')]
  | ESnapEnd s :: h' => filter (fun n => negb (s_id n =? s)) (snaps_of h')
  | _ :: h' => snaps_of h'
  end.

(** The held snapshots that cannot see [x] because [x] was live when they were
    taken, oldest first. *)
Definition blocked_by (h : list event) (x : txnid) : list snap :=
  filter (fun n => in_live_list (s_live n) x) (snaps_of h).

Definition finished (h : list event) (x : txnid) : Prop := In (EFinish x) h.
Definition wrote (h : list event) (x : txnid) : Prop := In (EWrite x) h.
Definition begun (h : list event) (x : txnid) : Prop := In (EBegin x false) h.

(** All ids that have been handed out to transactions and snapshots. *)
Fixpoint ids_of (h : list event) : list txnid :=
  match h with
  | [] => []
  | EBegin x _ :: h' => x :: ids_of h'
  | ESnap s :: h' => s :: ids_of h'
  | _ :: h' => ids_of h'
  end.
