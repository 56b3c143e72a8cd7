(** What a bulk load must give: said about lists of rows only. *)
From Coq Require Export Permutation.
From Verif Require Import Base Bytes KOrd.

Section S.
Variable c : bytes -> bytes -> comparison.
Definition before (a b : bytes * bytes) : Prop := klt c (fst a) (fst b).
Definition other (a b : bytes * bytes) : Prop := ~ keq c (fst a) (fst b).
(** Every row comes before all that follow it. *)
Definition in_order (l : list (bytes * bytes)) : Prop := ForallOrdPairs before l.
(** No two rows have the same key. *)
Definition unique_keys (l : list (bytes * bytes)) : Prop := ForallOrdPairs other l.
(** All rows the callback makes. *)
Fixpoint all_rows (gen : bytes * bytes -> option (list (bytes * bytes))) (puts : list (bytes * bytes)) : option (list (bytes * bytes)) :=
  match puts with
  | [] => Some []
  | p :: puts' => match gen p, all_rows gen puts' with Some a, Some b => Some (a ++ b) | _, _ => None end
  end.
End S.
