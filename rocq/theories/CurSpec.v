(** What a cursor search may answer, in terms of the messages injected into the
    dictionary: independent of the tree. *)
From Verif Require Import Base Bytes KOrd PivotModel FtModel FtSpec CurModel.
From Coq Require Import Sorted.

Section Spec.
Context {E : env}.
Local Notation c := (kcmp E).
Local Notation L := (L E).
Local Notation msg := (gmsg (A E)).

(** The keys an operation looks for. *)
Definition wants (f : sfun) (k x : bytes) : Prop :=
  match f with
  | CmpOne => True              (* first, last *)
  | CmpSet => kle c k x         (* set, set_range: from k on *)
  | CmpNext => klt c k x        (* next: behind k *)
  | CmpPrev => klt c x k        (* prev: before k *)
  | CmpRevSet => kle c x k      (* set_range_reverse: up to k *)
  end.

(** [x] comes before [y] in the direction of the search. *)
Definition comes_before (d : sdir) (x y : bytes) : Prop :=
  match d with SLeft => klt c x y | SRight => klt c y x end.
Definition not_after (d : sdir) (x y : bytes) : Prop :=
  match d with SLeft => kle c x y | SRight => kle c y x end.

(** [O y r]: [r] may be what is stored for [y].  The reader sees no row for [y]:
    there is none, or what there is is deleted to this reader. *)
Definition unseen_in (del : L -> bool) (O : bytes -> option L -> Prop) (y : bytes) : Prop :=
  exists r, O y r /\ match r with None => True | Some v => del v = true end.
(** The reader sees [v] for [x]. *)
Definition sees_in (del : L -> bool) (O : bytes -> option L -> Prop) (x : bytes) (v : L) : Prop :=
  O x (Some v) /\ del v = false.
(** The same after the messages [h]. *)
Definition after_msgs (h : list msg) (y : bytes) (r : option L) : Prop := outcome y h r.
Definition unseen (del : L -> bool) (h : list msg) (y : bytes) : Prop := unseen_in del (after_msgs h) y.
Definition sees (del : L -> bool) (h : list msg) (x : bytes) (v : L) : Prop := sees_in del (after_msgs h) x v.

(** The same, for one of the moments [hs] at which the search looked. *)
Definition unseen_at (del : L -> bool) (hs : list (list msg)) (y : bytes) : Prop := exists h, In h hs /\ unseen del h y.

Definition has_key (rs : list (bytes * L)) (y : bytes) : Prop := exists x v, In (x, v) rs /\ keq c x y.

(** ** Cursor operations *)

(** The direction, and the rows an operation is about, for a cursor on the row
    [key] ([None]: a new cursor). *)
Definition op_dir (o : cop) : sdir :=
  match o with CLast | CPrev | CSetRangeReverse _ => SRight | _ => SLeft end.
Definition op_wants (key : option bytes) (o : cop) (y : bytes) : Prop :=
  match o, key with
  | CFirst, _ | CLast, _ | CNext, None | CPrev, None => True
  | CNext, Some k => klt c k y
  | CPrev, Some k => klt c y k
  | CSet k, _ | CCurrent, Some k => keq c y k
  | CSetRange k _, _ => kle c k y
  | CSetRangeReverse k, _ => kle c y k
  | CCurrent, None => False
  end.
(** A bound given with set_range. *)
Definition op_upto (o : cop) (y : bytes) : Prop :=
  match o with CSetRange _ (Some kb) => kle c y kb | _ => True end.
(** The callback, which takes the row locks, agreed to a range that reaches at
    least to [y]: up to a row, up to a pivot, or up to the end. *)
Definition grants (d : sdir) (cbk : cb E) (y : bytes) : Prop :=
  (exists hd u v, (cb_row cbk hd u v = AOk \/ cb_row cbk hd u v = AMore) /\ not_after d y u) \/
  (exists p, cb_pivot cbk p = AOk /\ not_after d y p) \/ cb_end cbk = AOk.
(** [y] was invisible at a moment at which the callback agreed to it. *)
Definition unseen_granted (del : L -> bool) (P : list msg -> cb E -> Prop) (d : sdir) (hs : list (list msg)) (y : bytes) : Prop :=
  exists h cbk, In h hs /\ P h cbk /\ unseen del h y /\ grants d cbk y.
Definition seen_granted (del : L -> bool) (P : list msg -> cb E -> Prop) (h : list msg) (x : bytes) (v : L) : Prop :=
  sees del h x v /\ exists cbk hd, P h cbk /\ (cb_row cbk hd x v = AOk \/ cb_row cbk hd x v = AMore).

(** The range the cursor is restricted to. *)
Definition in_range (rst : restr) (y : bytes) : Prop :=
  match rst with
  | None => True
  | Some (l, r, _) => match l with None => True | Some l => kle c l y end /\ match r with None => True | Some r => kle c y r end
  end.
End Spec.
