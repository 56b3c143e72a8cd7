(** What the write and read buffers do to byte strings. *)
From Verif Require Import Base Bytes X1764Model X1764Spec X1764Proofs WbufModel.
Open Scope N_scope.

(** The bytes of a 64-bit number: high word first, each word little-endian. *)
Definition ull_enc (x : N) : bytes := le_enc 4 (x / 2 ^ 32 mod 2 ^ 32) ++ le_enc 4 (x mod 2 ^ 32).
Definition bs_enc (bs : bytes) : bytes := le_enc 4 (len bs) ++ bs.

Lemma len_le_enc k x : len (le_enc k x) = N.of_nat k.
Proof. unfold len. now rewrite le_enc_length. Qed.
Lemma len_ull x : len (ull_enc x) = 8.
Proof. unfold ull_enc. rewrite len_app, !len_le_enc. reflexivity. Qed.
Lemma ull_ok x : bytes_ok (ull_enc x).
Proof. apply bytes_ok_app. split; apply le_enc_ok. Qed.

Definition room (w : wbuf) (n : N) : Prop := len (w_out w) + n <= w_size w.
(** What has been written, all of it through the checksum. *)
Definition wcrc (w : wbuf) : Prop :=
  exists ps, Forall bytes_ok ps /\ w_crc w = fold_left x1764_add ps x1764_init /\ w_out w = concat ps.

Lemma wcrc_init n : wcrc (wbuf_init n).
Proof. exists []. repeat split. constructor. Qed.
Lemma wput_ok w bs : room w (len bs) -> wcrc w -> bytes_ok bs ->
  exists w', wput w bs = Some w' /\ w_size w' = w_size w /\ w_out w' = w_out w ++ bs /\ wcrc w'.
Proof.
  unfold room, wput. intros R (ps & P1 & P2 & P3) B. destruct (N.leb_spec (len (w_out w) + len bs) (w_size w)); [|lia].
  eexists; split; [reflexivity|]. cbn [w_size w_out w_crc]. split; auto. split; auto.
  exists (ps ++ [bs]). split; [apply Forall_app; auto|]. cbn [w_crc w_out]. rewrite fold_left_app, <- P2. split; [reflexivity|].
  rewrite concat_app, <- P3. cbn [concat]. now rewrite app_nil_r.
Qed.
Lemma wput_nocrc_ok w bs : room w (len bs) ->
  exists w', wput_nocrc w bs = Some w' /\ w_size w' = w_size w /\ w_out w' = w_out w ++ bs.
Proof.
  unfold room, wput_nocrc. intros R. destruct (N.leb_spec (len (w_out w) + len bs) (w_size w)); [|lia].
  eexists; split; [reflexivity|]. auto.
Qed.
Lemma wput_inv w bs w' : wput w bs = Some w' -> room w (len bs) /\ w_size w' = w_size w /\ w_out w' = w_out w ++ bs.
Proof.
  unfold wput, room. destruct (N.leb_spec (len (w_out w) + len bs) (w_size w)); [|discriminate].
  intros E. injection E as <-. auto.
Qed.
Lemma wput_nocrc_inv w bs w' : wput_nocrc w bs = Some w' ->
  room w (len bs) /\ w_size w' = w_size w /\ w_out w' = w_out w ++ bs.
Proof.
  unfold wput_nocrc, room. destruct (N.leb_spec (len (w_out w) + len bs) (w_size w)); [|discriminate].
  intros E. injection E as <-. auto.
Qed.
Lemma wbuf_ull_ok w x : room w 8 -> wcrc w ->
  exists w', wbuf_ull w x = Some w' /\ w_size w' = w_size w /\ w_out w' = w_out w ++ ull_enc x /\ wcrc w'.
Proof.
  intros R C. unfold wbuf_ull, wbuf_uint, room in *.
  destruct (wput_ok w (le_enc 4 (x / 2 ^ 32 mod 2 ^ 32))) as (w1 & E1 & E2 & E3 & C1); auto using le_enc_ok.
  { unfold room. rewrite len_le_enc. lia. }
  rewrite E1. destruct (wput_ok w1 (le_enc 4 (x mod 2 ^ 32))) as (w2 & F1 & F2 & F3 & C2); auto using le_enc_ok.
  { unfold room. rewrite E2, E3, len_app, !len_le_enc. lia. }
  exists w2. split; auto. split; [congruence|]. split; auto. rewrite F3, E3, <- app_assoc. reflexivity.
Qed.
Lemma wbuf_nocrc_ull_ok w x : room w 8 ->
  exists w', wbuf_nocrc_ull w x = Some w' /\ w_size w' = w_size w /\ w_out w' = w_out w ++ ull_enc x.
Proof.
  intros R. unfold wbuf_nocrc_ull, wbuf_nocrc_uint, room in *.
  destruct (wput_nocrc_ok w (le_enc 4 (x / 2 ^ 32 mod 2 ^ 32))) as (w1 & E1 & E2 & E3).
  { unfold room. rewrite len_le_enc. lia. }
  rewrite E1. destruct (wput_nocrc_ok w1 (le_enc 4 (x mod 2 ^ 32))) as (w2 & F1 & F2 & F3).
  { unfold room. rewrite E2, E3, len_app, !len_le_enc. lia. }
  exists w2. split; auto. split; [congruence|]. rewrite F3, E3, <- app_assoc. reflexivity.
Qed.
Lemma wbuf_nocrc_bytes_ok w bs : room w (4 + len bs) ->
  exists w', wbuf_nocrc_bytes w bs = Some w' /\ w_size w' = w_size w /\ w_out w' = w_out w ++ bs_enc bs.
Proof.
  intros R. unfold wbuf_nocrc_bytes, wbuf_nocrc_uint, wbuf_nocrc_literal, room in *.
  destruct (wput_nocrc_ok w (le_enc 4 (len bs))) as (w1 & E1 & E2 & E3).
  { unfold room. rewrite len_le_enc. lia. }
  rewrite E1. destruct (wput_nocrc_ok w1 bs) as (w2 & F1 & F2 & F3).
  { unfold room. rewrite E2, E3, len_app, !len_le_enc. lia. }
  exists w2. split; auto. split; [congruence|]. rewrite F3, E3, <- app_assoc. reflexivity.
Qed.

Lemma literal_app a r : rbuf_literal (a ++ r) (len a) = Some (a, r).
Proof.
  unfold rbuf_literal. rewrite len_app. destruct (N.leb_spec (len a) (len a + len r)); [|lia].
  unfold len. rewrite Nat2N.id, firstn_app, Nat.sub_diag, firstn_all, skipn_app, skipn_all, Nat.sub_diag.
  cbn [firstn skipn]. now rewrite app_nil_r.
Qed.
Lemma rbuf_int_app x r : x < 2 ^ 32 -> rbuf_int (le_enc 4 x ++ r) = Some (x, r).
Proof.
  intros H. unfold rbuf_int.
  replace (rbuf_literal (le_enc 4 x ++ r) 4) with (Some (le_enc 4 x, r)).
  2:{ symmetry. pose proof (literal_app (le_enc 4 x) r) as L. rewrite len_le_enc in L. exact L. }
  now rewrite le_val_enc_small.
Qed.
Lemma lor_words hi lo : lo < 2 ^ 32 -> N.lor (N.shiftl hi 32) lo = hi * 2 ^ 32 + lo.
Proof.
  intros H. rewrite N.shiftl_mul_pow2. symmetry. rewrite <- N.lxor_lor.
  - apply N.add_nocarry_lxor. apply N.bits_inj_0. intros n. rewrite N.land_spec.
    destruct (N.lt_ge_cases n 32); [rewrite N.mul_pow2_bits_low by auto; reflexivity|].
    destruct (N.eq_dec lo 0) as [->|]; [rewrite N.bits_0; apply andb_false_r|].
    rewrite (N.bits_above_log2 lo); [apply andb_false_r|]. apply N.log2_lt_pow2; [lia|].
    eapply N.lt_le_trans; [exact H|]. apply N.pow_le_mono_r; lia.
  - apply N.bits_inj_0. intros n. rewrite N.land_spec.
    destruct (N.lt_ge_cases n 32); [rewrite N.mul_pow2_bits_low by auto; reflexivity|].
    destruct (N.eq_dec lo 0) as [->|]; [rewrite N.bits_0; apply andb_false_r|].
    rewrite (N.bits_above_log2 lo); [apply andb_false_r|]. apply N.log2_lt_pow2; [lia|].
    eapply N.lt_le_trans; [exact H|]. apply N.pow_le_mono_r; lia.
Qed.
Lemma rbuf_ull_app x r : x < 2 ^ 64 -> rbuf_ull (ull_enc x ++ r) = Some (x, r).
Proof.
  intros H. unfold rbuf_ull, ull_enc. rewrite <- app_assoc, rbuf_int_app by (apply N.mod_lt; lia).
  rewrite rbuf_int_app by (apply N.mod_lt; lia). rewrite lor_words by (apply N.mod_lt; lia).
  rewrite (N.mod_small (x / 2 ^ 32)) by (apply N.div_lt_upper_bound; lia).
  pose proof (N.div_mod x (2 ^ 32)). do 2 f_equal. lia.
Qed.
Lemma rbuf_bytes_app bs r : len bs < 2 ^ 32 -> rbuf_bytes (bs_enc bs ++ r) = Some (bs, r).
Proof.
  intros H. unfold rbuf_bytes, bs_enc. rewrite <- app_assoc, rbuf_int_app by auto. apply literal_app.
Qed.
