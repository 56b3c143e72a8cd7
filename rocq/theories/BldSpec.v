(** What an index under construction must hold, stated without the indexer's
    machinery. *)
From Verif Require Import Base Bytes KOrd BldModel.
Open Scope N_scope.

(** The part of the source the cursor has left behind, or stands on. *)
Definition reached (c : bytes -> bytes -> comparison) (p : cpos) (k : bytes) : Prop :=
  match p with PosInf => False | AtKey q => kle c q k | NegInf => True end.

(** Row [(h, hv)] stands in index [d] for some row of the source. *)
Definition wanted (gen : nat -> bytes -> bytes -> list (bytes * bytes)) (c : bytes -> bytes -> comparison)
  (s : bstate) (d : nat) (h hv : bytes) : Prop :=
  exists k v, sget (bsrc s) k = Some v /\ reached c (bpos s) k /\ In (h, hv) (gen d k v).

(** The row callback: no key twice in the rows of one source row, and the key of an
    index row tells the source key (as when it ends with the primary key).  The last
    clause: rows with the same key do not differ in whether the value is empty to
    the new one (otherwise update_multiple leaves the old value, C49). *)
Record callback_ok (gen : nat -> bytes -> bytes -> list (bytes * bytes)) : Prop := {
  cb_nodup : forall d k v, NoDup (map fst (gen d k v));
  cb_owner : forall d k v k' v' h hv hv', In (h, hv) (gen d k v) -> In (h, hv') (gen d k' v') -> k = k';
  cb_empty : forall d k v v' h hv, In (h, hv) (gen d k v) -> In (h, []) (gen d k v') -> hv = [] }.

(** A key comparison that tells different keys apart. *)
Definition tells_apart (c : bytes -> bytes -> comparison) : Prop := forall a b, c a b = Eq -> a = b.

(** No call is running and the indexer is between two rows. *)
Definition at_rest (s : bstate) : Prop := (forall i, bthr s i = Idle) /\ bown s = Free.
