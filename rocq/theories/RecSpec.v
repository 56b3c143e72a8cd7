(** What a log says about one row, and what a user may expect after recovery.
    Nothing here knows about checkpoints, LSNs, files on disk or messages. *)
From Verif Require Import Base MvccModel MvccSpec RecModel.
Open Scope N_scope.

(** Which dictionary a file number stands for ([nlook]: the latest). *)
Definition names := list (fnum * fname).
(** What the users did to row [k] of dictionary [nm] according to the log, oldest
    first; [o] says which file numbers are in use at the start. *)
Fixpoint row_events (nm : fname) (k : rkey) (o : names) (log : list lrec) : list revent :=
  match log with
  | [] => []
  | x :: log' =>
      match x with
      | LFopen fn n => row_events nm k ((fn, n) :: o) log'
      | LBegin r _ None => VBegin r :: row_events nm k o log'
      | LBegin r _ (Some _) => VChild r :: row_events nm k o log'
      | LCommit r c => (if c =? 0 then VCommit r else VChildCommit r) :: row_events nm k o log'
      | LAbort r c => (if c =? 0 then VAbort r else VChildAbort r) :: row_events nm k o log'
      | LEnq fn r _ k' w =>
          (match nlook fn o with
           | Some n => if (n =? nm) && rkey_eqb k' k then [VWrite r w] else []
           | None => []
           end) ++ row_events nm k o log'
      | _ => row_events nm k o log'
      end
  end.

(** The committed value of the row. *)
Definition committed (nm : fname) (k : rkey) (log : list lrec) : option val :=
  sp_val (spec_of (rev (row_events nm k [] log))).

(** The roots whose commit record is in the log. *)
Definition has_commit (log : list lrec) (r : txnid) : bool :=
  existsb (fun x => match x with LCommit q c => (q =? r) && (c =? 0) | _ => false end) log.

(** The log without anything a root transaction (or its children) did that has no
    commit record. *)
Definition rec_root (x : lrec) : option txnid :=
  match x with
  | LBegin r _ _ | LCommit r _ | LAbort r _ | LPrepare r | LEnq _ r _ _ _ => Some r
  | _ => None
  end.
Definition only_committed (log : list lrec) : list lrec :=
  filter (fun x => match rec_root x with Some r => has_commit log r | None => true end) log.
