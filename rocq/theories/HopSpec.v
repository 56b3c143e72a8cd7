(** What hot optimize is meant to do (C56), apart from how it does it. *)
From Coq Require Import Sorted.
From Verif Require Import Base Bytes KOrd HopModel.
Open Scope nat_scope.

(** The messages still waiting in some buffer, those in the leaves, and all. *)
Fixpoint waiting (t : htree) : list hmsg :=
  match t with
  | HLeaf _ => []
  | HNode _ chs => flat_map (fun e => match e with (b, t1) => b ++ waiting t1 end) chs
  end.
Fixpoint in_leaves (t : htree) : list hmsg :=
  match t with
  | HLeaf l => l
  | HNode _ chs => flat_map (fun e => match e with (_, t1) => in_leaves t1 end) chs
  end.
Fixpoint pivots (t : htree) : list bytes :=
  match t with
  | HLeaf _ => []
  | HNode pv chs => pv ++ flat_map (fun e => match e with (_, t1) => pivots t1 end) chs
  end.

(** Keys between two bounds, the left excluded and the right included; no
    bound on the left is minus infinity, on the right plus infinity. *)
Definition above (c : bytes -> bytes -> comparison) (lo : option bytes) (k : bytes) : Prop :=
  match lo with None => True | Some p => klt c p k end.
Definition upto (c : bytes -> bytes -> comparison) (k : bytes) (hi : option bytes) : Prop :=
  match hi with None => True | Some p => kle c k p end.

(** The bounds of child [i] of a node with bounds [lo], [hi]. *)
Definition child_lo (pv : list bytes) (lo : option bytes) (i : nat) : option bytes :=
  match i with O => lo | S j => nth_error pv j end.
Definition child_hi (pv : list bytes) (hi : option bytes) (i : nat) : option bytes :=
  match nth_error pv i with Some p => Some p | None => hi end.

(** A tree of height [h] for the keys between [lo] and [hi]: pivots in order
    and within the bounds, one child more than pivots, every buffered message
    in the buffer of the child its key belongs to. *)
Fixpoint good_tree (c : bytes -> bytes -> comparison) (h : nat) (lo hi : option bytes) (t : htree) : Prop :=
  match h, t with
  | O, HLeaf _ => True
  | S h1, HNode pv chs =>
      StronglySorted (klt c) pv /\
      (forall p, In p pv -> above c lo p /\ upto c p hi) /\
      length chs = S (length pv) /\
      (forall i b t1, nth_error chs i = Some (b, t1) ->
        good_tree c h1 (child_lo pv lo i) (child_hi pv hi i) t1 /\
        (forall m, In m b -> above c (child_lo pv lo i) (fst m) /\ upto c (fst m) (child_hi pv hi i)))
  | _, _ => False
  end.

(** What others may do to the tree between two rounds, when the messages
    numbered up to [n] are the ones there at the start: anything that leaves a
    good tree of some height and does not put such a message back into a
    buffer. *)
Definition others (c : bytes -> bytes -> comparison) (n : N) (t t1 : htree) : Prop :=
  (exists h, good_tree c h None None t1) /\
  (forall m, In m (waiting t1) -> (snd m <= n)%N -> In m (waiting t)).
