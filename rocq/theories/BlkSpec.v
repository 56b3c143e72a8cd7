(** What a user of the allocator of disk space relies on, in terms of the requests made and
    the extents handed out. *)
From Coq Require Import List NArith Permutation.
From Verif Require Import Base MhsModel BlkAllocModel.
Open Scope N_scope.

Definition overlap (e f : N * N) : Prop := exists b, fst e <= b < fst e + snd e /\ fst f <= b < fst f + snd f.
Definition in_some (b : N) (es : list (N * N)) : Prop := exists e, In e es /\ fst e <= b < fst e + snd e.
Definition bytes_of (es : list (N * N)) : N := fold_right (fun e n => snd e + n) 0 es.

(** An allocator together with the extents its user holds, reached by any sequence of
    requests.  The file may not grow past 2^63 bytes. *)
Inductive reach (reserve al : N) : alloc -> list (N * N) -> Prop :=
| reach_create a : ba_create reserve al = Some a -> reach reserve al a []
| reach_open pairs a : pairs <> [] ->
    Forall (fun e => 0 < snd e /\ reserve <= fst e /\ fst e mod al = 0 /\ fst e + snd e <= 2 ^ 63) pairs ->
    ForallOrdPairs (fun e f => ~ overlap e f) pairs ->
    ba_create_from_pairs reserve al pairs = Some a -> reach reserve al a pairs
| reach_alloc a es size limit a' off : reach reserve al a es -> 0 < size ->
    ba_limit a = Some limit -> limit + al + size <= 2 ^ 63 ->
    ba_alloc a size = Some (a', off) -> reach reserve al a' ((off, size) :: es)
| reach_free a es1 e es2 a' : reach reserve al a (es1 ++ e :: es2) ->
    ba_free a (fst e) (snd e) = Some a' -> reach reserve al a' (es1 ++ es2).

(** The holes in tree order. *)
Fixpoint tree_holes (t : tree) : list hole :=
  match t with E => [] | T _ l h _ _ r => tree_holes l ++ h :: tree_holes r end.
Definition hole_has (b : N) (h : hole) : Prop := h_off h <= b /\ (h_size h = 2 ^ 64 - 1 \/ b < h_off h + h_size h).
(** What of a hole can be used after aligning its start. *)
Definition usable (al : N) (h : hole) : N :=
  if h_size h =? 2 ^ 64 - 1 then 2 ^ 64 - 1
  else h_off h + h_size h - (h_off h + al - 1) / al * al.
Definition largest (al : N) (hs : list hole) : N := fold_right (fun h m => N.max (usable al h) m) 0 hs.
Fixpoint labels_ok (al : N) (t : tree) : Prop :=
  match t with
  | E => True
  | T _ l _ lm rm r => lm = largest al (tree_holes l) /\ rm = largest al (tree_holes r) /\ labels_ok al l /\ labels_ok al r
  end.
(** Red-black balance: black height, no red child of a red node, black root. *)
Fixpoint black_height (t : tree) : option nat :=
  match t with
  | E => Some O
  | T c l _ _ _ r =>
    match black_height l, black_height r with
    | Some m, Some n =>
      if Nat.eqb m n && match c with Red => negb (is_red l) && negb (is_red r) | Black => true end
      then Some (match c with Red => n | Black => S n end) else None
    | _, _ => None
    end
  end.
