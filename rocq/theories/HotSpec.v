(** What a hot dictionary is to contain: for every reader, the rows that stand for
    what that reader sees in the source row. *)
From Verif Require Import Base Bytes KOrd UleModel UleSpec MulSpec HotModel.
Open Scope N_scope.

(** The value of row [hk] among the rows the callback made. *)
Definition row_among (c : bytes -> bytes -> comparison) (rows : list (bytes * bytes)) (hk : bytes) : option bytes :=
  option_map snd (find (fun kv => keqb c hk (fst kv)) rows).

(** The value of row [hk] of the hot dictionary when the source row has value [v]
    ([None]: there is no source row). *)
Definition hot_of (c : bytes -> bytes -> comparison) (g : hotdb) (hk : bytes) (v : option bytes) : option bytes :=
  match v with
  | None => None
  | Some v => match gput g v with Some rows => row_among c rows hk | None => None end
  end.

(** The callbacks work on source value [v]: both succeed, name the same rows, and
    the rows have different keys. *)
Definition callbacks_ok (c : bytes -> bytes -> comparison) (g : hotdb) (v : bytes) : Prop :=
  exists rows, gput g v = Some rows /\ gdel g v = Some (map fst rows) /\ distinct c (map fst rows) /\ Forall (fun kv => len (snd kv) < 2 ^ 31) rows.

(** The source row: a stored row (UleSpec), every provisional record with the state of
    its transaction; ids are not zero, except at the bottom of the committed
    stack, and the open transactions are different. *)
Record source_ok (u : ule) (st : list tstate) : Prop := {
  so_wf : ule_wf u;
  so_len : length st = length (px u);
  so_cids : Forall (fun r => ux_xid r <> TXNID_NONE) (removelast (cx u));
  so_pids : Forall (fun r => ux_xid r <> TXNID_NONE) (px u);
  so_diff : NoDup (map ux_xid (px u))
}.

(** Live, then a tail of finished or finishing transactions. *)
Fixpoint live_then_done (st : list tstate) : Prop :=
  match st with
  | [] => True
  | TLive :: st' => live_then_done st'
  | _ => Forall (fun s => s = TCommitting \/ s = TAborting \/ s = TRetired) st
  end.
(** The states that can occur along a stack of nested transactions: children of a
    root that is not live are gone. *)
Definition states_ok (st : list tstate) : Prop :=
  match st with
  | [] => True
  | TLive :: st' => live_then_done st'
  | TAborting :: _ => True
  | _ :: st' => Forall (fun s => s = TRetired) st'
  end.

(** The records before the first aborting transaction's. *)
Fixpoint before_abort (l : list (uxr * tstate)) : list uxr :=
  match l with
  | [] => []
  | (_, TAborting) :: _ => []
  | (r, _) :: l' => r :: before_abort l'
  end.

(** A provisional stack has no placeholder innermost. *)
Fixpoint strip (l : list uxr) : list uxr :=
  match l with
  | [] => []
  | r :: l' => match strip l' with [] => if is_place (ux_xr r) then [] else [r] | t => r :: t end
  end.

(** The source row once the aborting transactions are gone. *)
Definition settled (u : ule) (st : list tstate) : ule :=
  mkUle (cx u) (strip (before_abort (combine (px u) st))) (ucap u).

(** A row without what the transactions nested deeper than [k] wrote. *)
Definition upto (k : nat) (u : ule) : ule := mkUle (cx u) (strip (firstn k (px u))) (ucap u).

(** How many transactions, from the outermost, are live; a preparing one has no
    children left. *)
Fixpoint live_levels (st : list tstate) : nat :=
  match st with TLive :: st' => S (live_levels st') | _ => O end.
Definition open_levels (st : list tstate) : nat :=
  match st with TPreparing :: _ => 1%nat | _ => live_levels st end.

(** A reader that sees a record of the row sees every older one: [ids], newest
    first. *)
Definition in_order (f : txnid -> bool) (ids : list txnid) : Prop :=
  ForallOrdPairs (fun newer older => f newer = true -> f older = true) ids.
Definition row_ids (u : ule) : list txnid := match px u with [] => [] | r :: _ => [ux_xid r] end ++ map ux_xid (cx u).
