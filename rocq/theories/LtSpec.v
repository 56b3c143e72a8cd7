(** What the row lock properties are about, independently of the tree.

    A comparison function given by the user orders the keys (keys that compare
    equal may be different byte strings); the two infinities are below and above
    all keys.  A key range contains the points between its end points, both
    included. *)
From Verif Require Import Base Bytes LtTreeModel.

(** What a dictionary's comparison function has to satisfy. *)
Record cmp_ok (kcmp : bytes -> bytes -> comparison) : Prop := {
  cmp_refl : forall a, kcmp a a = Eq;
  cmp_sym : forall a b, kcmp b a = CompOpp (kcmp a b);
  cmp_trans : forall a b c, kcmp a b <> Gt -> kcmp b c <> Gt -> kcmp a c <> Gt }.

(** [a] comes before or at [b], with the infinities at the ends. *)
Definition ep_le (kcmp : bytes -> bytes -> comparison) (a b : ep) : Prop :=
  match a, b with
  | NegInf, _ => True
  | _, PosInf => True
  | Fin x, Fin y => kcmp x y <> Gt
  | _, _ => False
  end.

(** The point [p] lies in the range from [l] to [r]. *)
Definition in_range kcmp (p l r : ep) : Prop := ep_le kcmp l p /\ ep_le kcmp p r.

(** Two ranges have a point in common. *)
Definition meet kcmp (l1 r1 l2 r2 : ep) : Prop :=
  exists p, in_range kcmp p l1 r1 /\ in_range kcmp p l2 r2.

(** ** Histories of a dictionary's lock requests *)

(** What users see of the row locks of one dictionary, oldest first. *)
Inductive event :=
| Grant (x : txnid) (g : rng)                            (** the request for [g] is granted *)
| Refuse (x : txnid) (g : rng) (conflicts : list txnid)  (** it is not granted now *)
| Deadlock (x : txnid) (g : rng)                         (** it is refused as a deadlock *)
| OutOfLocks (x : txnid) (g : rng)                       (** refused for lack of memory *)
| Timeout (x : txnid) (g : rng)                          (** a waiting request gives up *)
| RelStart (x : txnid)                                   (** the transaction, which has ended,
                                                             starts to release its locks *)
| RelDone (x : txnid)                                    (** it has released them *)
| Escalated.                                             (** lock escalation ran *)

(** Transaction [x] holds the range [g] it was granted: it has not started to
    release its locks. *)
Definition holds (h : list event) (x : txnid) (g : rng) : Prop :=
  exists h1 h2, h = h1 ++ Grant x g :: h2 /\ ~ In (RelStart x) h2.

(** The range [g] was granted to [x], which has not finished releasing. *)
Definition not_released (h : list event) (x : txnid) (g : rng) : Prop :=
  exists h1 h2, h = h1 ++ Grant x g :: h2 /\ ~ In (RelDone x) h2.

(** The two ranges have a point in common. *)
Definition conflict kcmp (g g' : rng) : Prop := meet kcmp (r_l g) (r_r g) (r_l g') (r_r g').
