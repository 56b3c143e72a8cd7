(** What a rollback log is for: an independent specification.  Each transaction has a list
    of undo entries, oldest first; a child that commits appends its list to its parent's; a
    root commit and an abort process the list from the newest entry to the oldest, each
    entry once. *)
From Verif Require Import Base Bytes LogModel RbModel.
Open Scope N_scope.

Record atxn := mkA { a_parent : option nat; a_log : list rentry }.
Definition astate := nat -> option atxn.
Definition aset (A : astate) (t : nat) (x : option atxn) : astate := fun u => if Nat.eqb u t then x else A u.

(** The effect of an operation and the entries it processes. *)
Definition astep (A : astate) (o : rop) : option (astate * list rentry) :=
  match o with
  | Begin id _ p => Some (aset A id (Some (mkA p [])), [])
  | Save id e _ =>
      do a <- A id; Some (aset A id (Some (mkA (a_parent a) (a_log a ++ [e]))), [])
  | Commit id _ _ =>
      do a <- A id; do pid <- a_parent a; do p <- A pid;
      Some (aset (aset A pid (Some (mkA (a_parent p) (a_log p ++ a_log a)))) id None, [])
  | Finish id _ => do a <- A id; Some (aset A id None, rev (a_log a))
  end.

(** The callers' side of the contract (ydb_txn.cc:421: a parent with a live child does not
    commit or abort; identifiers of live transactions are distinct), stated on the
    specification's state.  The allocator returns block numbers that are not in use. *)
Definition no_child (A : astate) (id : nat) : Prop :=
  forall u a, A u = Some a -> a_parent a <> Some id.
Definition fresh_ok (s : rsys) (b : N) : Prop := b <> 0 /\ b < 2 ^ 63 /\ heap s b = None.
Definition is_undo (e : rentry) : Prop :=
  match e with ROp _ _ => rb_fsize e <> None | RIncl _ _ _ _ => False end.
Definition allowed (A : astate) (s : rsys) (o : rop) : Prop :=
  match o with
  | Begin id _ p => A id = None /\ match p with Some q => A q <> None /\ q <> id | None => True end
  | Save id e b => A id <> None /\ is_undo e /\ fresh_ok s b
  | Commit id f1 f2 =>
      no_child A id /\ (exists a, A id = Some a /\ a_parent a <> None) /\
      fresh_ok s f1 /\ fresh_ok s f2 /\ f1 <> f2
  | Finish id _ => no_child A id /\ A id <> None
  end.

(** Runs of the specification beside the program.  [rrun s A s' A' o]: [o] lists the
    (transaction, processed entries) of the finished transactions. *)
Inductive rrun : rsys -> astate -> rsys -> astate -> Prop :=
| rr_nil s A : rrun s A s A
| rr_step s A s1 A1 o s2 A2 out out' : rrun s A s1 A1 -> allowed A1 s1 o ->
    rstep s1 o = Done (s2, out) -> astep A1 o = Some (A2, out') -> rrun s A s2 A2.
Definition reached (cmax w : N) (s : rsys) (A : astate) : Prop :=
  rrun (rinit cmax w) (fun _ => None) s A.

(** The same with the history of saves, oldest first: who is responsible for an entry now, and
    the entry.  A commit makes the parent responsible for the child's entries.  The ydb layer
    refuses to work on, or begin a child of, a transaction that has a live child
    (HANDLE_ILLEGAL_WORKING_PARENT_TXN, ydb_txn.cc:421 and ydb-internal.h). *)
Definition history := list (nat * rentry).
Definition entries_of (id : nat) (H : history) : list rentry :=
  map snd (filter (fun x => Nat.eqb (fst x) id) H).
Definition hstep (A : astate) (H : history) (o : rop) : history :=
  match o with
  | Begin _ _ _ => H
  | Save id e _ => H ++ [(id, e)]
  | Commit id _ _ =>
      match A id with
      | Some (mkA (Some pid) _) => map (fun x => (if Nat.eqb (fst x) id then pid else fst x, snd x)) H
      | _ => H
      end
  | Finish id _ => filter (fun x => negb (Nat.eqb (fst x) id)) H
  end.
Definition one_child (A : astate) (o : rop) : Prop :=
  match o with
  | Begin _ _ (Some q) => no_child A q
  | Save id _ _ => no_child A id
  | _ => True
  end.
Inductive hrun (cmax w : N) : rsys -> astate -> history -> Prop :=
| hr_nil : hrun cmax w (rinit cmax w) (fun _ => None) []
| hr_step s A H o s' A' out out' : hrun cmax w s A H -> allowed A s o -> one_child A o ->
    rstep s o = Done (s', out) -> astep A o = Some (A', out') -> hrun cmax w s' A' (hstep A H o).
