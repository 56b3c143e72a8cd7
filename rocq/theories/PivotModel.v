(** Choosing a child by the pivots of a node.

    A node with n children has n-1 pivot keys; [pv] is that list
    (ft/pivotkeys.cc), so n_children is [S (length pv)] throughout.  [int]
    indices are natural numbers here: none of the loops goes below 0 and
    (lo + hi) does not overflow for any node that fits in memory. *)
From Verif Require Import Base Bytes.
Open Scope nat_scope.

Section Pivots.
Variable kcmp : bytes -> bytes -> comparison.

(** The loop of toku_ftnode_which_child (ft/node.cc:1791-1806).  [None]: an
    index out of range, or the loop did not end within [fuel] rounds. *)
Fixpoint wc_loop (fuel : nat) (pv : list bytes) (k : bytes) (lo hi : nat) : option nat :=
  if lo <? hi then
    match fuel with
    | O => None
    | S f =>
      let mi := Nat.div2 (lo + hi) in
      do p <- nth_error pv mi;
      match kcmp k p with
      | Gt => wc_loop f pv k (S mi) hi
      | Lt => wc_loop f pv k lo mi
      | Eq => Some mi
      end
    end
  else Some lo.

(** toku_ftnode_which_child (ft/node.cc:1778-1807). *)
Definition which_child (pv : list bytes) (k : bytes) : option nat :=
  let n := length pv in
  if n =? 0 then Some 0%nat else
  do p <- nth_error pv (n - 1);
  match kcmp k p with
  | Gt => Some n
  | _ => wc_loop n pv k 0 (n - 1)
  end.

(** toku_ftnode_hot_next_child (ft/node.cc:1810-1830). *)
Fixpoint hot_loop (fuel : nat) (pv : list bytes) (k : bytes) (lo hi : nat) : option nat :=
  if lo <? hi then
    match fuel with
    | O => None
    | S f =>
      let mi := Nat.div2 (lo + hi) in
      do p <- nth_error pv mi;
      match kcmp k p with
      | Gt => hot_loop f pv k (S mi) hi
      | Lt => hot_loop f pv k lo mi
      | Eq => Some (S mi)
      end
    end
  else guard (lo =? hi); Some lo.

Definition hot_next_child (pv : list bytes) (k : bytes) : option nat :=
  hot_loop (S (length pv)) pv k 0 (length pv).

(** The search functions a cursor uses (ft/cursor.cc:169-176, 200-203,
    348-351, 362-365, 385-388) with their direction; [x] is a pivot. *)
Inductive sdir := SLeft | SRight.
Inductive sfun :=
| CmpOne                 (** toku_ft_cursor_compare_one *)
| CmpSet                 (** ft_cursor_compare_set, toku_ft_cursor_compare_set_range *)
| CmpNext                (** ft_cursor_compare_next *)
| CmpPrev                (** ft_cursor_compare_prev *)
| CmpRevSet.             (** ft_cursor_compare_set_range_reverse *)

Definition sf_dir (d : sdir) (f : sfun) : bool :=
  match f, d with
  | CmpOne, _ => true
  | CmpSet, SLeft | CmpNext, SLeft => true
  | CmpPrev, SRight | CmpRevSet, SRight => true
  | _, _ => false
  end.

Definition sf_compare (f : sfun) (k x : bytes) : bool :=
  match f with
  | CmpOne => true
  | CmpSet => match kcmp k x with Gt => false | _ => true end
  | CmpNext => match kcmp k x with Lt => true | _ => false end
  | CmpPrev => match kcmp k x with Gt => true | _ => false end
  | CmpRevSet => match kcmp k x with Lt => false | _ => true end
  end.

(** The binary search of toku_ft_search_which_child (ft/ft-ops.cc:3646-3674). *)
Fixpoint swc_loop (fuel : nat) (pv : list bytes) (d : sdir) (f : sfun) (k : bytes) (lo hi : nat)
  : option nat :=
  if lo <? hi then
    match fuel with
    | O => None
    | S n =>
      let mi := Nat.div2 (lo + hi) in
      do p <- nth_error pv mi;
      let c := sf_compare f k p in
      if (match d with SLeft => c | SRight => negb c end) then swc_loop n pv d f k lo mi
      else swc_loop n pv d f k (S mi) hi
    end
  else Some lo.

(** The two loops that move away from what has been searched already
    (ft/ft-ops.cc:3675-3696): [b] is search->pivot_bound. *)
Fixpoint bound_left (fuel : nat) (pv : list bytes) (b : bytes) (lo : nat) : option nat :=
  if lo <? length pv then
    do p <- nth_error pv lo;
    match kcmp p b with
    | Gt => Some lo
    | _ => match fuel with O => None | S f => bound_left f pv b (S lo) end
    end
  else Some lo.

Fixpoint bound_right (pv : list bytes) (b : bytes) (lo : nat) : option nat :=
  match lo with
  | O => Some O
  | S l =>
    do p <- nth_error pv l;
    match kcmp p b with
    | Lt => Some lo
    | _ => bound_right pv b l
    end
  end.

(** toku_ft_search_which_child (ft/ft-ops.cc:3642-3698). *)
Definition search_which_child (pv : list bytes) (d : sdir) (f : sfun) (k : bytes) (b : option bytes)
  : option nat :=
  let n := length pv in
  if n =? 0 then Some 0%nat else
  do lo <- swc_loop (S n) pv d f k 0 n;
  match b with
  | None => Some lo
  | Some b => match d with
              | SLeft => bound_left n pv b lo
              | SRight => bound_right pv b lo
              end
  end.

End Pivots.
