(** Byte strings and little-endian integers, shared by all codecs. *)
From Verif Require Import Base.
Open Scope N_scope.

(** A byte string is a list of numbers; [bytes_ok] says they are bytes. *)
Notation bytes := (list N).
Definition bytes_ok (l : bytes) : Prop := Forall (fun b => b < 256) l.

Definition len (l : bytes) : N := N.of_nat (length l).

(** Little-endian value of a byte string: what loading an integer from memory
    yields on the supported (little-endian) machines; toku_htod/toku_dtoh are
    the identity there (portability/toku_htod.h:55-100). *)
Fixpoint le_val (l : bytes) : N :=
  match l with [] => 0 | b :: l' => b + 256 * le_val l' end.

(** The [k]-byte little-endian encoding of [n] (mod 256^k). *)
Fixpoint le_enc (k : nat) (n : N) : bytes :=
  match k with O => [] | S k' => (n mod 256) :: le_enc k' (n / 256) end.

Lemma bytes_ok_app a b : bytes_ok (a ++ b) <-> bytes_ok a /\ bytes_ok b.
Proof. unfold bytes_ok. rewrite Forall_app. tauto. Qed.

Lemma bytes_ok_nil : bytes_ok [].
Proof. constructor. Qed.

Lemma bytes_ok_cons b l : bytes_ok (b :: l) <-> b < 256 /\ bytes_ok l.
Proof. unfold bytes_ok. rewrite Forall_cons_iff. tauto. Qed.

Lemma bytes_ok_firstn k l : bytes_ok l -> bytes_ok (firstn k l).
Proof.
  intros H. rewrite <- (firstn_skipn k l) in H. apply bytes_ok_app in H. tauto.
Qed.

Lemma bytes_ok_skipn k l : bytes_ok l -> bytes_ok (skipn k l).
Proof.
  intros H. rewrite <- (firstn_skipn k l) in H. apply bytes_ok_app in H. tauto.
Qed.

Lemma len_app a b : len (a ++ b) = len a + len b.
Proof. unfold len. rewrite app_length. lia. Qed.

Lemma le_enc_length k n : length (le_enc k n) = k.
Proof. revert n; induction k; intros; cbn; auto. Qed.

Lemma le_enc_ok k n : bytes_ok (le_enc k n).
Proof.
  revert n; induction k; intros n; cbn; constructor; auto.
  - apply N.mod_lt. lia.
  - apply IHk.
Qed.

Lemma le_val_app a b : le_val (a ++ b) = le_val a + 256 ^ len a * le_val b.
Proof.
  induction a as [|x a IH].
  - cbn [le_val app]. change (256 ^ len []) with 1. lia.
  - cbn [le_val app]. rewrite IH. unfold len. cbn [length].
    rewrite Nat2N.inj_succ, N.pow_succ_r'. lia.
Qed.

Lemma le_val_bound l : bytes_ok l -> le_val l < 256 ^ len l.
Proof.
  induction l as [|x l IH]; intros H.
  - cbn. lia.
  - apply bytes_ok_cons in H as [Hx Hl]. specialize (IH Hl).
    unfold len in *. cbn [length le_val]. rewrite Nat2N.inj_succ, N.pow_succ_r'. lia.
Qed.

Lemma le_val_enc k n : le_val (le_enc k n) = n mod 256 ^ N.of_nat k.
Proof.
  revert n; induction k; intros n.
  - cbn. rewrite N.mod_1_r. reflexivity.
  - cbn [le_enc le_val]. rewrite IHk, Nat2N.inj_succ, N.pow_succ_r'.
    rewrite N.mod_mul_r; try lia.
Qed.

Lemma le_val_enc_small k n : n < 256 ^ N.of_nat k -> le_val (le_enc k n) = n.
Proof. intros. rewrite le_val_enc. apply N.mod_small. auto. Qed.

Lemma le_enc_val l : bytes_ok l -> le_enc (length l) (le_val l) = l.
Proof.
  induction l as [|x l IH]; intros H; [reflexivity|].
  apply bytes_ok_cons in H as [Hx Hl].
  cbn [length le_enc le_val].
  replace ((x + 256 * le_val l) mod 256) with x.
  2:{ rewrite (N.mul_comm 256), N.mod_add by lia. rewrite N.mod_small; auto. }
  replace ((x + 256 * le_val l) / 256) with (le_val l).
  2:{ rewrite (N.mul_comm 256), N.div_add by lia. rewrite N.div_small; auto. }
  rewrite IH; auto.
Qed.

Lemma firstn_app_exact {A} (a b : list A) : firstn (length a) (a ++ b) = a.
Proof. rewrite firstn_app, Nat.sub_diag, firstn_all. cbn. apply app_nil_r. Qed.

Lemma skipn_app_exact {A} (a b : list A) : skipn (length a) (a ++ b) = b.
Proof. rewrite skipn_app, Nat.sub_diag, skipn_all. reflexivity. Qed.

(** [lor] of bit-disjoint numbers is addition. *)
Lemma lor_shiftl_add a b k : a < 2 ^ k -> N.lor a (N.shiftl b k) = a + b * 2 ^ k.
Proof.
  intros H.
  assert (Hl : N.land a (N.shiftl b k) = 0).
  { apply N.bits_inj. intros i. rewrite N.land_spec, N.bits_0.
    destruct (N.lt_ge_cases i k) as [Hi|Hi].
    - rewrite N.shiftl_spec_low by auto. apply andb_false_r.
    - replace (N.testbit a i) with false; [reflexivity|].
      symmetry. destruct (N.eq_dec a 0) as [->|Ha]; [apply N.bits_0|].
      apply N.bits_above_log2. apply N.lt_le_trans with k; auto.
      apply N.log2_lt_pow2; lia. }
  rewrite <- N.lxor_lor, <- N.add_nocarry_lxor by auto.
  rewrite N.shiftl_mul_pow2. reflexivity.
Qed.

Global Arguments le_enc : simpl never.
