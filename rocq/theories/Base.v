(** Common conventions of the model.

    [option A] is the result of a function that can stop the process:
    [None] is a failed [invariant]/[assert] (portability/toku_assert.h:49-130,
    which abort the process), an out-of-bounds access or any other undefined
    behaviour; [Some a] is a normal return. *)
From Coq Require Export List NArith ZArith Lia Bool Arith.
From Coq Require Export ZifyBool ZifyN ZifyNat.
Export ListNotations.

Notation "'do' x <- e ; f" :=
  (match e with Some x => f | None => None end)
  (at level 200, x pattern, e at level 100, f at level 200, right associativity).

(** [guard b; k] models [invariant(b); k]. *)
Notation "'guard' b ; f" :=
  (if b then f else None)
  (at level 200, b at level 100, f at level 200, right associativity).

Definition is_nil {A} (l : list A) : bool :=
  match l with [] => true | _ => false end.

Definition is_some {A} (o : option A) : bool :=
  match o with Some _ => true | None => false end.

(** Transaction identifiers: TXNID is uint64_t (ft/txn/txn.h:52-55).
    TXNID_NONE is 0. *)
Definition txnid := N.
Definition TXNID_NONE : txnid := 0%N.
