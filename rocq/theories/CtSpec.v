(** * What a checkpoint of the cachetable should capture

    Nothing here mentions pending bits, clones or dirty flags. *)
From Coq Require Import List Bool NArith.
From Verif Require Import Base CtModel.
Import ListNotations.
Local Open Scope N_scope.

Section Spec.
Variable V : Type.

(** The content of page [k]: what a client pinning it sees. *)
Definition content (s : cst V) (k : ckey) : option V :=
  match c_tab s k with
  | Some p => match p_val p with Some v => Some v | None => c_cur s k end
  | None => c_cur s k
  end.

(** Thread [t] has page [k] write-pinned (it may be changing it). *)
Definition pinned (s : cst V) (t : ctid) (k : ckey) : Prop :=
  exists p, c_tab s k = Some p /\ p_lock p = Some t.

(** ... and is out of the call that pinned it. *)
Definition pinned_by_client (s : cst V) (t : ctid) (k : ckey) : Prop :=
  pinned s t k /\ c_thr s t <> TLock k /\ c_thr s t <> TEv k /\ (forall fc, c_thr s t <> TEvx k fc).

(** A map with pages replaced. *)
Fixpoint upds (m : ckey -> option V) (us : list (ckey * V)) : ckey -> option V :=
  match us with [] => m | (k, v) :: us' => upds (fupd m k (Some v)) us' end.

(** An execution [os] from [s]. *)
Inductive runs : cst V -> list (cop V) -> cst V -> Prop :=
| runs_nil s : runs s [] s
| runs_cons s o s1 os s2 : cstep s o = Some s1 -> runs s1 os s2 -> runs s (o :: os) s2.

(** ** The contract of the threads

    [L m] is what the pages [m] mean (for a tree of nodes: the dictionary).
    A thread outside a user operation (flusher, cleaner, evictor) changes the
    pages it has pinned only in ways that keep the meaning of the whole, whatever
    the other pages are; and it passes every page it has pinned as a dependent
    pair when it pins or creates another (ft-flusher.cc 1278, 1289, 1422; ft.cc
    ft_init_new_root; ft-flusher.cc ftleaf_split).  A user operation may do what
    it likes. *)
Variable X : Type.
Variable L : (ckey -> option V) -> X.

Definition agrees (s : cst V) (t : ctid) (m : ckey -> option V) : Prop :=
  forall k, pinned s t k -> m k = content s k.

Definition contract (s : cst V) (o : cop V) : Prop :=
  match o with
  | OMod t us =>
      In t (c_users s) \/ (forall m, agrees s t m -> L (upds m us) = L m)
  | ORemove t k =>
      In t (c_users s) \/ (forall m, agrees s t m -> L (fupd m k None) = L m)
  | OResolve t deps | OMiss t _ deps | OPut t _ _ deps =>
      In t (c_users s) \/ (forall k, pinned s t k -> c_thr s t <> TLock k -> In k deps)
  | _ => True
  end.

(** An execution in which every thread keeps the contract. *)
Inductive cruns_ok : cst V -> list (cop V) -> cst V -> Prop :=
| cruns_nil s : cruns_ok s [] s
| cruns_cons s o s1 os s2 : contract s o -> cstep s o = Some s1 -> cruns_ok s1 os s2 -> cruns_ok s (o :: os) s2.

End Spec.
Arguments content {V}. Arguments pinned {V}. Arguments pinned_by_client {V}. Arguments upds {V}. Arguments runs {V}.
Arguments agrees {V}. Arguments contract {V X}. Arguments cruns_ok {V X}.
