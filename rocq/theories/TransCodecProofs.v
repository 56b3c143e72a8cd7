(** The translation written to disk is the one read back. *)
From Verif Require Import Base Bytes X1764Model X1764Spec X1764Proofs WbufModel WbufProofs
  BlkAllocModel BlkTableModel TransCodecModel.
Open Scope N_scope.

Definition i64 (z : Z) : Prop := (- 2 ^ 63 <= z < 2 ^ 63)%Z.

Lemma u64_lt z : to_u64 z < 2 ^ 64.
Proof. unfold to_u64. pose proof (Z.mod_pos_bound z (2 ^ 64)). lia. Qed.
Lemma i64_u64 z : i64 z -> to_i64 (to_u64 z) = z.
Proof.
  unfold i64, to_i64, to_u64. intros H. pose proof (Z.mod_pos_bound z (2 ^ 64)).
  destruct (Z.lt_ge_cases z 0) as [C|C].
  - assert (E : (z mod 2 ^ 64 = z + 2 ^ 64)%Z).
    { symmetry. apply (Z.mod_unique_pos _ _ (-1)); lia. }
    rewrite E. destruct (N.ltb_spec (Z.to_N (z + 2 ^ 64)) (2 ^ 63)); lia.
  - rewrite Z.mod_small by lia. destruct (N.ltb_spec (Z.to_N z) (2 ^ 63)); lia.
Qed.
Lemma u64_small z : (0 <= z < 2 ^ 64)%Z -> to_u64 z = Z.to_N z.
Proof. intros H. unfold to_u64. now rewrite Z.mod_small. Qed.

(** The bytes of a translation: the whole of it except the padding. *)
Definition pair_enc (p : pair) : bytes := ull_enc (to_u64 (p_off p)) ++ ull_enc (to_u64 (p_size p)).
Definition body (t : trans) : bytes :=
  ull_enc (to_u64 (t_snub t)) ++ ull_enc (to_u64 (t_head t)) ++
  concat (map pair_enc (firstn (Z.to_nat (t_snub t)) (t_arr t))).

Definition pair_i64 (p : pair) : Prop := i64 (p_off p) /\ i64 (p_size p).

(** What serialization needs of a translation; [size] is _calculate_size_on_disk. *)
Record ser_ok (t : trans) (off : N) : Prop := {
  so_snub : (3 <= t_snub t <= t_len t)%Z;
  so_bound : (t_snub t < 2 ^ 28 - 34)%Z;
  so_head : i64 (t_head t);
  so_pairs : Forall pair_i64 (firstn (Z.to_nat (t_snub t)) (t_arr t));
  so_trans : nth_error (t_arr t) 1 = Some (mkP (Z.of_N off) (size_on_disk t));
  so_off : 0 < off < 2 ^ 63;
  so_align : off mod 512 = 0 }.

Lemma len_pairs l : len (concat (map pair_enc l)) = 16 * N.of_nat (length l).
Proof.
  induction l as [|p l IH]; [reflexivity|]. cbn [map concat length]. rewrite len_app, IH.
  unfold pair_enc. rewrite len_app, !len_ull. lia.
Qed.
Lemma body_len t off : ser_ok t off -> len (body t) = 16 + 16 * Z.to_N (t_snub t).
Proof.
  intros []. unfold body. rewrite !len_app, !len_ull, len_pairs, firstn_length. unfold t_len in *. lia.
Qed.
Lemma body_ok t : bytes_ok (body t).
Proof.
  unfold body. apply bytes_ok_app. split; [apply ull_ok|]. apply bytes_ok_app. split; [apply ull_ok|].
  induction (firstn (Z.to_nat (t_snub t)) (t_arr t)) as [|p l IH]; cbn [map concat]; [constructor|].
  apply bytes_ok_app. split; auto. unfold pair_enc. apply bytes_ok_app. split; apply ull_ok.
Qed.

Lemma ser_pairs_ok : forall l w, room w (16 * N.of_nat (length l)) -> wcrc w ->
  exists w', ser_pairs w l = Some w' /\ w_size w' = w_size w /\
    w_out w' = w_out w ++ concat (map pair_enc l) /\ wcrc w'.
Proof.
  induction l as [|p l IH]; intros w R C; cbn [ser_pairs map concat length] in *.
  - exists w. rewrite app_nil_r. auto.
  - unfold room in *.
    destruct (wbuf_ull_ok w (to_u64 (p_off p))) as (w1 & E1 & E2 & E3 & E4); auto; [unfold room; lia|].
    destruct (wbuf_ull_ok w1 (to_u64 (p_size p))) as (w2 & F1 & F2 & F3 & F4); auto.
    { unfold room. rewrite E2, E3, len_app, len_ull. lia. }
    destruct (IH w2) as (w3 & G1 & G2 & G3 & G4); auto.
    { rewrite F2, E2, F3, E3, !len_app, !len_ull. lia. }
    rewrite E1, F1, G1. exists w3. split; auto. split; [congruence|]. split; auto.
    rewrite G3, F3, E3. unfold pair_enc. now rewrite <- !app_assoc.
Qed.

Lemma size_u64 t : (3 <= t_snub t)%Z -> (t_snub t < 2 ^ 28)%Z ->
  to_u64 (size_on_disk t) = 20 + 16 * Z.to_N (t_snub t) /\ to_i64 (to_u64 (size_on_disk t)) = size_on_disk t.
Proof.
  intros H1 H2. split; [|apply i64_u64; unfold i64, size_on_disk; lia].
  rewrite u64_small by (unfold size_on_disk; lia). unfold size_on_disk. lia.
Qed.
Lemma roundup_bound a x : 0 < a -> x <= roundup a x < x + a.
Proof.
  intros H. unfold roundup. pose proof (N.div_mod (x + a - 1) a). pose proof (N.mod_lt (x + a - 1) a). nia.
Qed.

Definition stored (t : trans) : bytes :=
  let size := 20 + 16 * Z.to_N (t_snub t) in
  body t ++ le_enc 4 (checksum_spec (body t)) ++ repeat 0 (N.to_nat (roundup 512 size - size)).

Theorem ser_trans_ok t off : ser_ok t off ->
  ser_trans t = Some (stored t, off, 20 + 16 * Z.to_N (t_snub t)).
Proof.
  intros K. pose proof (body_len _ _ K) as BL. pose proof K as []. unfold ser_trans.
  destruct (size_u64 t) as (S1 & S2); try lia.
  unfold get. change (0 <=? B_TRANS)%Z with true. cbv iota. change (Z.to_nat B_TRANS) with 1%nat. rewrite so_trans0.
  cbv zeta. cbn [p_size p_off]. rewrite S2, Z.eqb_refl.
  set (size := 20 + 16 * Z.to_N (t_snub t)) in *. rewrite S1.
  pose proof (roundup_bound 512 size ltac:(lia)) as RB.
  assert (Hw : w_size (wbuf_init (roundup 512 size)) = roundup 512 size).
  { cbn [wbuf_init w_size]. apply N.mod_small. lia. }
  destruct (wbuf_ull_ok (wbuf_init (roundup 512 size)) (to_u64 (t_snub t))) as (w1 & E1 & E2 & E3 & E4).
  { unfold room. rewrite Hw. cbn [wbuf_init w_out]. change (len []) with 0. lia. } { apply wcrc_init. }
  rewrite E1. cbn [wbuf_init w_out app] in E3.
  destruct (wbuf_ull_ok w1 (to_u64 (t_head t))) as (w2 & F1 & F2 & F3 & F4); auto.
  { unfold room. rewrite E2, E3, Hw, len_ull. lia. }
  rewrite F1. destruct (Z.leb_spec (t_snub t) (t_len t)); [|lia].
  set (l := firstn (Z.to_nat (t_snub t)) (t_arr t)) in *.
  assert (Ll : N.of_nat (length l) = Z.to_N (t_snub t)).
  { unfold l. rewrite firstn_length. unfold t_len in *. lia. }
  destruct (ser_pairs_ok l w2) as (w3 & G1 & G2 & G3 & G4); auto.
  { unfold room. rewrite F2, E2, F3, E3, Hw, len_app, !len_ull. lia. }
  rewrite G1. assert (O3 : w_out w3 = body t).
  { rewrite G3, F3, E3. unfold body. fold l. now rewrite <- app_assoc. }
  assert (Cr : x1764_finish (w_crc w3) = checksum_spec (body t)).
  { destruct G4 as (ps & P1 & P2 & P3). rewrite P2, <- O3, P3. now apply x1764_incremental. }
  rewrite Cr. destruct (wput_ok w3 (le_enc 4 (checksum_spec (body t)))) as (w4 & H1 & H2 & H3 & H4); auto using le_enc_ok.
  { unfold room. rewrite G2, F2, E2, Hw, O3, BL, len_le_enc. lia. }
  unfold wbuf_uint. rewrite H1.
  destruct (Z.eqb_spec (Z.rem (Z.of_N off) 512) 0) as [_|C].
  2:{ exfalso. apply C. rewrite Z.rem_mod_nonneg by lia. change 512%Z with (Z.of_N 512). rewrite <- N2Z.inj_mod, so_align0. reflexivity. }
  rewrite u64_small by lia. rewrite N2Z.id. unfold stored. fold size. rewrite H3, O3, <- app_assoc. reflexivity.
Qed.

Lemma deser_pairs_ok : forall l r, Forall pair_i64 l ->
  deser_pairs (length l) (concat (map pair_enc l) ++ r) = Some l.
Proof.
  induction l as [|p l IH]; intros r F; [reflexivity|]. inversion F as [|? ? (P1 & P2) F']; subst.
  cbn [length deser_pairs map concat]. unfold pair_enc at 1. rewrite <- !app_assoc.
  rewrite rbuf_ull_app by apply u64_lt. rewrite rbuf_ull_app by apply u64_lt. rewrite IH by auto.
  rewrite !i64_u64 by auto. now destruct p.
Qed.

Lemma firstn_len_app {A} (a b : list A) n : n = length a -> firstn n (a ++ b) = a.
Proof. intros ->. rewrite firstn_app, Nat.sub_diag, firstn_all. cbn. apply app_nil_r. Qed.
Lemma skipn_len_app {A} (a b : list A) n : n = length a -> skipn n (a ++ b) = b.
Proof. intros ->. now rewrite skipn_app, Nat.sub_diag, skipn_all. Qed.

Lemma checksum_lt bs : checksum_spec bs < 2 ^ 32.
Proof. unfold checksum_spec. lia. Qed.

Lemma stored_crc t off : ser_ok t off ->
  le_val (firstn 4 (skipn (N.to_nat (16 + 16 * Z.to_N (t_snub t))) (stored t))) = checksum_spec (body t).
Proof.
  intros K. pose proof (body_len _ _ K) as BL. unfold len in BL. unfold stored. rewrite skipn_len_app by lia.
  rewrite firstn_len_app by (now rewrite le_enc_length). apply le_val_enc_small. apply checksum_lt.
Qed.

Theorem deser_ser_app t off rest : ser_ok t off -> (t_snub t < 2 ^ 27 - 1)%Z ->
  deser_trans off (20 + 16 * Z.to_N (t_snub t)) (body t ++ le_enc 4 (checksum_spec (body t)) ++ rest)
  = Some (Some (mkT (t_snub t) (t_head t) (firstn (Z.to_nat (t_snub t)) (t_arr t)))).
Proof.
  intros K Sm. pose proof (body_len _ _ K) as BL. pose proof K as []. unfold deser_trans.
  destruct (size_u64 t) as (S1 & S2); try lia. rewrite S1 in S2.
  set (size := 20 + 16 * Z.to_N (t_snub t)) in *.
  set (st := body t ++ le_enc 4 (checksum_spec (body t)) ++ rest).
  assert (SC : le_val (firstn 4 (skipn (N.to_nat (16 + 16 * Z.to_N (t_snub t))) st)) = checksum_spec (body t)).
  { unfold st. unfold len in BL. rewrite skipn_len_app by lia.
    rewrite firstn_len_app by (now rewrite le_enc_length). apply le_val_enc_small. apply checksum_lt. }
  destruct (N.eqb_spec off 0); [lia|]. cbn [negb].
  assert (LS : size <= len st).
  { unfold st. rewrite !len_app, BL, len_le_enc. lia. }
  destruct (N.leb_spec 4 size); [|lia]. destruct (N.leb_spec size (len st)); [|lia]. cbn [andb].
  replace (size - 4) with (16 + 16 * Z.to_N (t_snub t)) by lia. rewrite SC.
  unfold x1764_memory_int. rewrite N.mod_small by lia.
  destruct (N.ltb_spec (16 + 16 * Z.to_N (t_snub t)) (2 ^ 31)); [|lia].
  destruct (N.leb_spec (16 + 16 * Z.to_N (t_snub t)) (len st)); [|lia].
  assert (F : firstn (N.to_nat (16 + 16 * Z.to_N (t_snub t))) st = body t).
  { unfold st. apply firstn_len_app. unfold len in BL. lia. }
  rewrite F. rewrite x1764_memory_simple_eq, x1764_memory_simple_ok by apply body_ok.
  rewrite N.eqb_refl. cbn [negb]. unfold body at 1. rewrite rbuf_ull_app by apply u64_lt.
  rewrite i64_u64 by (unfold i64; lia). unfold RESERVED. destruct (Z.leb_spec 3 (t_snub t)); [|lia].
  rewrite rbuf_ull_app by apply u64_lt.
  set (l := firstn (Z.to_nat (t_snub t)) (t_arr t)) in *.
  assert (Ll : length l = Z.to_nat (t_snub t)).
  { unfold l. rewrite firstn_length. unfold t_len in *. lia. }
  rewrite len_pairs, Ll. rewrite u64_small by lia. destruct (N.leb_spec (Z.to_N (t_snub t)) (16 * N.of_nat (Z.to_nat (t_snub t)))); [|lia].
  replace (N.to_nat (Z.to_N (t_snub t))) with (length l) by lia.
  replace (concat (map pair_enc l)) with (concat (map pair_enc l) ++ []) by apply app_nil_r.
  rewrite deser_pairs_ok by auto. rewrite i64_u64 by auto.
  unfold size_on_disk at 1. cbn [t_snub]. fold (size_on_disk t). rewrite S2, Z.eqb_refl.
  unfold get. change (0 <=? B_TRANS)%Z with true. cbv iota. change (Z.to_nat B_TRANS) with 1%nat.
  assert (E1 : nth_error l 1 = nth_error (t_arr t) 1).
  { unfold l. rewrite <- (firstn_skipn (Z.to_nat (t_snub t)) (t_arr t)) at 2. rewrite nth_error_app1; auto. fold l. lia. }
  rewrite E1, so_trans0. cbn [p_size p_off]. rewrite Z.eqb_refl.
  replace (to_i64 off) with (Z.of_N off) by (unfold to_i64; destruct (N.ltb_spec off (2 ^ 63)); lia).
  rewrite Z.eqb_refl. reflexivity.
Qed.

Theorem deser_ser t off : ser_ok t off -> (t_snub t < 2 ^ 27 - 1)%Z ->
  deser_trans off (20 + 16 * Z.to_N (t_snub t)) (stored t)
  = Some (Some (mkT (t_snub t) (t_head t) (firstn (Z.to_nat (t_snub t)) (t_arr t)))).
Proof. intros K H. unfold stored. now apply deser_ser_app. Qed.

(** A translation is accepted only with a matching checksum. *)
Theorem deser_checks location size buf t : bytes_ok buf -> size < 2 ^ 31 ->
  deser_trans location size buf = Some (Some t) ->
  4 <= size <= len buf /\
  checksum_spec (firstn (N.to_nat (size - 4)) buf) = le_val (firstn 4 (skipn (N.to_nat (size - 4)) buf)).
Proof.
  intros B S. unfold deser_trans. destruct (location =? 0); [discriminate|]. cbn [negb].
  destruct (N.leb_spec 4 size); [|discriminate]. destruct (N.leb_spec size (len buf)); [|discriminate]. cbn [andb].
  unfold x1764_memory_int. rewrite N.mod_small by lia. destruct (N.ltb_spec (size - 4) (2 ^ 31)); [|lia].
  destruct (N.leb_spec (size - 4) (len buf)); [|lia].
  rewrite x1764_memory_simple_eq, x1764_memory_simple_ok by (now apply bytes_ok_firstn).
  destruct (N.eqb_spec (checksum_spec (firstn (N.to_nat (size - 4)) buf))
    (le_val (firstn 4 (skipn (N.to_nat (size - 4)) buf)))) as [E|E]; [auto|discriminate].
Qed.
(** A mismatch is reported as such: never an abort. *)
Theorem deser_rejects location size buf : bytes_ok buf -> size < 2 ^ 31 -> location <> 0 -> 4 <= size <= len buf ->
  checksum_spec (firstn (N.to_nat (size - 4)) buf) <> le_val (firstn 4 (skipn (N.to_nat (size - 4)) buf)) ->
  deser_trans location size buf = Some None.
Proof.
  intros B S Hl Hs Hc. unfold deser_trans. destruct (N.eqb_spec location 0); [lia|]. cbn [negb].
  destruct (N.leb_spec 4 size); [|lia]. destruct (N.leb_spec size (len buf)); [|lia]. cbn [andb].
  unfold x1764_memory_int. rewrite N.mod_small by lia. destruct (N.ltb_spec (size - 4) (2 ^ 31)); [|lia].
  destruct (N.leb_spec (size - 4) (len buf)); [|lia].
  rewrite x1764_memory_simple_eq, x1764_memory_simple_ok by (now apply bytes_ok_firstn).
  destruct (N.eqb_spec (checksum_spec (firstn (N.to_nat (size - 4)) buf))
    (le_val (firstn 4 (skipn (N.to_nat (size - 4)) buf)))) as [E|E]; [contradiction|reflexivity].
Qed.

(** A table whose serialized form has 2^31 bytes or more: the reader's checksum covers
    nothing, so the table is rejected unless its checksum happens to be 2^32-1. *)
Lemma deser_huge t off : ser_ok t off -> (2 ^ 27 - 1 <= t_snub t)%Z -> checksum_spec (body t) <> 2 ^ 32 - 1 ->
  deser_trans off (20 + 16 * Z.to_N (t_snub t)) (stored t) = Some None.
Proof.
  intros K Sm Hc. pose proof (body_len _ _ K) as BL. pose proof (stored_crc _ _ K) as SC. pose proof K as []. unfold deser_trans.
  set (size := 20 + 16 * Z.to_N (t_snub t)) in *.
  destruct (N.eqb_spec off 0); [lia|]. cbn [negb].
  assert (LS : size <= len (stored t)).
  { unfold stored. rewrite !len_app, BL, len_le_enc. lia. }
  destruct (N.leb_spec 4 size); [|lia]. destruct (N.leb_spec size (len (stored t))); [|lia]. cbn [andb].
  replace (size - 4) with (16 + 16 * Z.to_N (t_snub t)) by lia. rewrite SC.
  unfold x1764_memory_int. rewrite N.mod_small by lia.
  destruct (N.ltb_spec (16 + 16 * Z.to_N (t_snub t)) (2 ^ 31)); [lia|].
  change (x1764_memory []) with (2 ^ 32 - 1).
  destruct (N.eqb_spec (2 ^ 32 - 1) (checksum_spec (body t))); [congruence|]. reflexivity.
Qed.

(** Such tables exist: 2^27 block numbers of which the last one is written. *)
Section Huge.
Variable huge_n : N.
Hypothesis huge_lo : 2 ^ 27 <= huge_n.
Hypothesis huge_hi : huge_n < 2 ^ 28 - 34.
Definition huge (s : Z) : trans :=
  let n := Z.of_N huge_n in
  mkT n freelist_null
    ([mkP diskoff_unused 0; mkP 12288 (20 + 16 * n); mkP diskoff_unused 0] ++
     repeat (mkP diskoff_unused 0) (N.to_nat (huge_n - 4)) ++ [mkP 8192 s]).

Lemma huge_len s : length (t_arr (huge s)) = N.to_nat huge_n.
Proof.
  unfold huge. cbn [t_arr]. rewrite !app_length, repeat_length.
  change (length [mkP diskoff_unused 0; mkP 12288 (20 + 16 * Z.of_N huge_n); mkP diskoff_unused 0]) with 3%nat.
  change (length [mkP 8192 s]) with 1%nat. lia.
Qed.
Lemma huge_first s : firstn (Z.to_nat (t_snub (huge s))) (t_arr (huge s)) = t_arr (huge s).
Proof. apply firstn_all2. rewrite huge_len. unfold huge. cbn [t_snub]. lia. Qed.
Lemma huge_ser_ok s : (0 < s < 2 ^ 62)%Z -> ser_ok (huge s) 12288.
Proof.
  intros Hs. constructor.
  - unfold t_len. rewrite huge_len. unfold huge. cbn [t_snub]. lia.
  - unfold huge. cbn [t_snub]. lia.
  - unfold huge, i64, freelist_null. cbn [t_head]. lia.
  - rewrite huge_first. unfold huge. cbn [t_arr]. rewrite !Forall_app. split; [|split].
    + repeat constructor; cbn [p_off p_size]; unfold diskoff_unused; lia.
    + apply Forall_forall. intros p Hp. apply repeat_spec in Hp. subst. repeat constructor; cbn [p_off p_size]; unfold diskoff_unused; lia.
    + repeat constructor; cbn [p_off p_size]; lia.
  - unfold huge, size_on_disk. cbn [t_arr t_snub app nth_error]. apply f_equal, f_equal. lia.
  - lia.
  - reflexivity.
Qed.

Lemma poly17_snoc ws w : poly17 (ws ++ [w]) = poly17 ws * 17 + w.
Proof. unfold poly17. rewrite fold_left_app. reflexivity. Qed.

Lemma all8_ull l : all8 (concat (map (fun p => [ull_enc (to_u64 (p_off p)); ull_enc (to_u64 (p_size p))]) l)).
Proof.
  induction l as [|p l IH]; cbn [map concat]; [constructor|]. apply all8_app. split; auto.
  repeat constructor.
Qed.
Lemma concat_ull l : concat (concat (map (fun p => [ull_enc (to_u64 (p_off p)); ull_enc (to_u64 (p_size p))]) l))
  = concat (map pair_enc l).
Proof.
  induction l as [|p l IH]; cbn [map concat]; [reflexivity|]. rewrite concat_app, IH. cbn [concat]. rewrite app_nil_r. reflexivity.
Qed.

(** The two tables differ in one bit of the last word. *)
Lemma huge_body : exists pre, (forall s, body (huge s) = concat pre ++ ull_enc (to_u64 s)) /\ all8 pre.
Proof.
  set (l := [mkP diskoff_unused 0; mkP 12288 (20 + 16 * Z.of_N huge_n); mkP diskoff_unused 0] ++
     repeat (mkP diskoff_unused 0) (N.to_nat (huge_n - 4))).
  exists ([ull_enc (to_u64 (Z.of_N huge_n)); ull_enc (to_u64 freelist_null)] ++
     concat (map (fun p => [ull_enc (to_u64 (p_off p)); ull_enc (to_u64 (p_size p))]) l) ++ [ull_enc (to_u64 8192)]).
  split.
  - intros s'. unfold body. rewrite huge_first.
    replace (t_arr (huge s')) with (l ++ [mkP 8192 s']) by (unfold l, huge; cbn [t_arr]; rewrite <- !app_assoc; reflexivity).
    rewrite (map_app pair_enc), !concat_app, concat_ull. cbn [map concat]. unfold pair_enc at 2. cbn [p_off p_size].
    rewrite !app_nil_r, <- !app_assoc. reflexivity.
  - apply all8_app. split; [repeat constructor|]. apply all8_app. split; [apply all8_ull|repeat constructor].
Qed.

Lemma huge_checksum : checksum_spec (body (huge 1)) <> 2 ^ 32 - 1 \/ checksum_spec (body (huge 2)) <> 2 ^ 32 - 1.
Proof.
  destruct huge_body as (pre & E & A8).
  assert (G : forall s, groups8 (body (huge s)) = pre ++ [ull_enc (to_u64 s)]).
  { intros s. rewrite E. replace (concat pre ++ ull_enc (to_u64 s)) with (concat (pre ++ [ull_enc (to_u64 s)]) ++ []).
    2:{ rewrite app_nil_r, concat_app. cbn [concat]. now rewrite app_nil_r. }
    rewrite groups8_full; [cbn [is_nil]; apply app_nil_r| |reflexivity].
    apply all8_app. split; auto. repeat constructor. }
  unfold checksum_spec. rewrite !G, !map_app. cbn [map]. rewrite !poly17_snoc.
  set (c := poly17 (map le_val pre) * 17).
  change (le_val (ull_enc (to_u64 1))) with (2 ^ 32). change (le_val (ull_enc (to_u64 2))) with (2 * 2 ^ 32).
  set (a := (c + 2 ^ 32) mod 2 ^ 64).
  assert (Ha : a < 2 ^ 64) by (apply N.mod_lt; lia).
  assert (Eb : (c + 2 * 2 ^ 32) mod 2 ^ 64 = (a + 2 ^ 32) mod 2 ^ 64).
  { unfold a. rewrite N.add_mod_idemp_l by lia. f_equal. lia. }
  rewrite Eb. set (b := (a + 2 ^ 32) mod 2 ^ 64).
  assert (X : forall x, 2 ^ 32 - 1 - N.lxor (x mod 2 ^ 32) (x / 2 ^ 32) = 2 ^ 32 - 1 -> x mod 2 ^ 32 = x / 2 ^ 32).
  { intros x H. assert (Z0 : N.lxor (x mod 2 ^ 32) (x / 2 ^ 32) = 0) by lia. now apply N.lxor_eq. }
  destruct (N.eq_dec (2 ^ 32 - 1 - N.lxor (a mod 2 ^ 32) (a / 2 ^ 32)) (2 ^ 32 - 1)) as [Ea|]; [|auto].
  right. intros Ebb. apply X in Ea. apply X in Ebb.
  assert (b mod 2 ^ 32 = a mod 2 ^ 32).
  { unfold b. change (2 ^ 64) with (2 ^ 32 * 2 ^ 32). rewrite N.mod_mul_r by lia.
    rewrite N.mul_comm, N.mod_add, N.mod_mod by lia.
    rewrite <- (N.mul_1_l (2 ^ 32)) at 1. now rewrite N.mod_add by lia. }
  assert (b / 2 ^ 32 = a / 2 ^ 32) by congruence.
  assert (b = a). { rewrite (N.div_mod a (2 ^ 32)), (N.div_mod b (2 ^ 32)) by lia. congruence. }
  unfold b in *. destruct (N.lt_ge_cases (a + 2 ^ 32) (2 ^ 64)).
  - rewrite N.mod_small in * by auto. lia.
  - assert ((a + 2 ^ 32) mod 2 ^ 64 = a + 2 ^ 32 - 2 ^ 64).
    { symmetry. apply (N.mod_unique _ _ 1); lia. }
    lia.
Qed.

Theorem huge_rejected_n : exists t off, ser_ok t off /\
  ser_trans t = Some (stored t, off, 20 + 16 * Z.to_N (t_snub t)) /\
  deser_trans off (20 + 16 * Z.to_N (t_snub t)) (stored t) = Some None.
Proof.
  destruct huge_checksum as [H|H].
  - exists (huge 1), 12288. pose proof (huge_ser_ok 1 ltac:(lia)) as K. split; auto. split; [now apply ser_trans_ok|].
    apply deser_huge; auto. unfold huge; cbn [t_snub]; lia.
  - exists (huge 2), 12288. pose proof (huge_ser_ok 2 ltac:(lia)) as K. split; auto. split; [now apply ser_trans_ok|].
    apply deser_huge; auto. unfold huge; cbn [t_snub]; lia.
Qed.
End Huge.

Theorem huge_rejected : exists t off, ser_ok t off /\
  ser_trans t = Some (stored t, off, 20 + 16 * Z.to_N (t_snub t)) /\
  deser_trans off (20 + 16 * Z.to_N (t_snub t)) (stored t) = Some None.
Proof. apply (huge_rejected_n (2 ^ 27)); lia. Qed.
