(** What a tree written by the bulk loader must be. *)
From Verif Require Import Base Bytes LdrtModel.
Open Scope nat_scope.

(** The rows of the leaves, from left to right. *)
Fixpoint rows_of (t : ltree) : list (bytes * bytes) :=
  match t with LLeaf r => r | LNode _ ts => concat (map rows_of ts) end.
Fixpoint leaves_of (t : ltree) : nat :=
  match t with LLeaf _ => 1 | LNode _ ts => list_sum (map leaves_of ts) end.

(** All leaves are at depth [h]; each node above them has one pivot less than it has
    children, no more than 15 children and no fewer than [least], 8 below the root; no
    child is empty. *)
Fixpoint shaped (least h : nat) (t : ltree) : Prop :=
  match h, t with
  | O, LLeaf _ => True
  | S h', LNode ps ts => least <= length ts <= 15 /\ length ts = S (length ps) /\ Forall (fun t => rows_of t <> [] /\ shaped 8 h' t) ts
  | _, _ => False
  end.
