(** C30: the checksum of a buffer does not depend on how it is fed in. *)
From Verif Require Import Base Bytes X1764Model X1764Spec X1764Proofs.
Open Scope N_scope.

(** Feeding any byte string in any pieces gives the checksum of the whole. *)
Theorem C30_incremental_checksum : forall pieces : list bytes,
  Forall bytes_ok pieces ->
  x1764_finish (fold_left x1764_add pieces x1764_init) = checksum_spec (concat pieces).
Proof. exact x1764_incremental. Qed.
Print Assumptions C30_incremental_checksum.

(** Hence two ways of cutting the same data agree. *)
Theorem C30_pieces_irrelevant : forall p q : list bytes,
  Forall bytes_ok p -> Forall bytes_ok q -> concat p = concat q ->
  x1764_finish (fold_left x1764_add p x1764_init)
  = x1764_finish (fold_left x1764_add q x1764_init).
Proof.
  intros p q Hp Hq E. rewrite !x1764_incremental by assumption. rewrite E. reflexivity.
Qed.
Print Assumptions C30_pieces_irrelevant.

(** The one-shot function (the unrolled one) computes the same checksum. *)
Theorem C30_one_shot : forall bs : bytes, bytes_ok bs ->
  x1764_memory bs = checksum_spec bs.
Proof.
  intros bs H. rewrite x1764_memory_simple_eq. apply x1764_memory_simple_ok, H.
Qed.
Print Assumptions C30_one_shot.

Theorem C30_simple_one_shot : forall bs : bytes, bytes_ok bs ->
  x1764_memory_simple bs = checksum_spec bs.
Proof. exact x1764_memory_simple_ok. Qed.
Print Assumptions C30_simple_one_shot.

(** The hypotheses are met by pieces that hit the odd paths of the code. *)
Definition c30_pieces : list bytes :=
  [[1; 2; 3]; [4]; [5; 6]; []; [7; 8; 9; 10; 11]; [12; 13; 14; 15];
   [200; 201; 202; 203; 204; 205; 206; 207; 208; 209; 255; 254; 253]].
Example C30_case : Forall bytes_ok c30_pieces.
Proof. repeat constructor. Qed.
Example C30_value :
  x1764_finish (fold_left x1764_add c30_pieces x1764_init)
  = x1764_memory (concat c30_pieces)
  /\ x1764_memory (concat c30_pieces) <> x1764_memory (concat (tl c30_pieces)).
Proof. vm_compute. split; [reflexivity|discriminate]. Qed.
