(** Plain sequences of values that may be marked, and what walking over them and searching
    them means.  Nothing here knows about arrays or trees. *)
From Coq Require Export Sorted.
From Verif Require Import Base.
Open Scope nat_scope.

Section Spec.
Context {A : Type}.

(** Calling [f] from left to right on the selected values, with their positions, until it
    returns something other than 0. *)
Section Walk.
Context {X : Type}.
Variable f : A -> nat -> X -> X * Z.
Fixpoint walk (sel : nat -> bool -> bool) (i : nat) (l : list (A * bool)) (x : X) : X * Z :=
  match l with
  | [] => (x, 0%Z)
  | (v, m) :: l =>
      if sel i m then let (x, z) := f v i x in if (z =? 0)%Z then walk sel (S i) l x else (x, z)
      else walk sel (S i) l x
  end.
(** The same for the positions in [lo, hi), marking every value that [f] is called on. *)
Fixpoint walk_mark (lo hi i : nat) (l : list (A * bool)) (x : X) : list (A * bool) * X * Z :=
  match l with
  | [] => ([], x, 0%Z)
  | (v, m) :: l =>
      if (lo <=? i) && (i <? hi) then
        let (x, z) := f v i x in
        if (z =? 0)%Z then let '(l, x, z) := walk_mark lo hi (S i) l x in ((v, true) :: l, x, z)
        else ((v, true) :: l, x, z)
      else let '(l, x, z) := walk_mark lo hi (S i) l x in ((v, m) :: l, x, z)
  end.
End Walk.
(** Calling [g] on every value, which it may change; it has to return 0. *)
Fixpoint walk_change {X} (g : A -> nat -> X -> A * X * Z) (i : nat) (l : list (A * bool)) (x : X) : option (list (A * bool) * X) :=
  match l with
  | [] => Some ([], x)
  | (v, m) :: l =>
      let '(v, x, z) := g v i x in
      if (z =? 0)%Z then match walk_change g (S i) l x with Some (l, x) => Some ((v, m) :: l, x) | None => None end
      else None
  end.

(** The sign of [h] never decreases from left to right. *)
Definition monotone (h : A -> Z) (l : list A) : Prop := StronglySorted (fun a b => (Z.sgn (h a) <= Z.sgn (h b))%Z) l.
(** [v] is the leftmost value of [l] with [P], at position [i]. *)
Definition leftmost (P : A -> Prop) (l : list A) (v : A) (i : nat) : Prop :=
  exists a b, l = a ++ v :: b /\ length a = i /\ P v /\ Forall (fun x => ~ P x) a.
(** [v] is the rightmost value of [l] with [P], at position [i]. *)
Definition rightmost (P : A -> Prop) (l : list A) (v : A) (i : nat) : Prop :=
  exists a b, l = a ++ v :: b /\ length a = i /\ P v /\ Forall (fun x => ~ P x) b.
End Spec.
