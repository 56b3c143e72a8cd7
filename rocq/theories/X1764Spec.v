(** What the checksum is: read the byte string as 64-bit little-endian words
    (the last one zero-padded), evaluate the polynomial with these coefficients
    at 17 modulo 2^64, and fold the result to 32 bits. *)
From Verif Require Import Base Bytes.
Open Scope N_scope.

(** Cut a byte string in groups of 8 (the last may be shorter). *)
Fixpoint groups8 (bs : bytes) : list bytes :=
  match bs with
  | [] => []
  | b0 :: b1 :: b2 :: b3 :: b4 :: b5 :: b6 :: b7 :: rest =>
      [b0; b1; b2; b3; b4; b5; b6; b7] :: groups8 rest
  | _ => [bs]
  end.

(** Horner evaluation at 17 over the integers. *)
Definition poly17 (ws : list N) : N := fold_left (fun c w => c * 17 + w) ws 0.

Definition checksum_spec (bs : bytes) : N :=
  let s := poly17 (map le_val (groups8 bs)) mod 2 ^ 64 in
  2 ^ 32 - 1 - N.lxor (s mod 2 ^ 32) (s / 2 ^ 32).
