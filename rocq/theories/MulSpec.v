(** What writes to several dictionaries are to mean. *)
From Verif Require Import Base Bytes LtSpec KOrd MulModel.
Open Scope nat_scope.

(** No two keys of the list are equal for the comparator. *)
Definition distinct (c : bytes -> bytes -> comparison) (l : list bytes) : Prop := ForallOrdPairs (fun a b => ~ keq c a b) l.

(** [f'] is [f] after the rows with keys [old] were replaced by the rows [new]. *)
Definition replaced (c : bytes -> bytes -> comparison) (f f' : bytes -> option bytes) (old : list bytes) (new : list (bytes * bytes)) : Prop :=
  (forall k v y, In (k, v) new -> keq c y k -> f' y = Some v) /\
  (forall y, (forall k v, In (k, v) new -> ~ keq c y k) -> (exists k, In k old /\ keq c y k) -> f' y = None) /\
  (forall y, (forall k v, In (k, v) new -> ~ keq c y k) -> (forall k, In k old -> ~ keq c y k) -> f' y = f y).

(** The rows a source row stands for in dictionary [d]: itself in the source
    dictionary, elsewhere what the callback makes of it. *)
Definition rows_of (e : menv) (src : option nat) (d : nat) (k v : bytes) : option (list (bytes * bytes)) :=
  if match src with Some x => Nat.eqb x d | None => false end then Some [(k, v)] else e_put e d src k v.
Definition keys_of (e : menv) (src : option nat) (d : nat) (k v : bytes) : option (list bytes) :=
  if match src with Some x => Nat.eqb x d | None => false end then Some [k] else e_del e d src k v.
