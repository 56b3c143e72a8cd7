(** What "on stable storage" means for the log, independently of the logger's bookkeeping. *)
From Coq Require Import List NArith Sorted.
From Verif Require Import Base Bytes LgrModel.
Import ListNotations.
Local Open Scope N_scope.

(** The records an fsync has made stable. *)
Definition stable (s : lgr) : list lrec :=
  concat (map (fun f => firstn (f_sync f) (f_recs f)) (files s)).

(** The log files a crash can leave behind: each keeps at least what was synced. *)
Definition crash (s : lgr) (disk : list (N * list lrec)) : Prop :=
  Forall2 (fun f d => fst d = f_index f /\
             exists k, (f_sync f <= k)%nat /\ snd d = firstn k (f_recs f)) (files s) disk.

(** A log directory as a previous run (and repair) leaves it: records in LSN order, starting
    above ZERO_LSN, files numbered below the next number, no number twice. *)
Definition dir_ok (fl : list (N * list lrec)) (nexti : N) : Prop :=
  StronglySorted N.lt (map r_lsn (concat_recs fl)) /\
  Forall (fun r => 0 < r_lsn r) (concat_recs fl) /\
  NoDup (map fst fl) /\ Forall (fun p => fst p < nexti) fl.

(** States of the logger: any run from the opening of such a directory. *)
Definition reached (s : lgr) : Prop :=
  exists fl nexti lgmax tr, dir_ok fl nexti /\ lrun (lgr_open fl nexti lgmax) tr s.
