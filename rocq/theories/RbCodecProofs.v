(** Proofs for the rollback node codec. *)
From Verif Require Import Base Bytes X1764Model X1764Spec X1764Proofs WbufModel WbufProofs LogModel LogSpec LogProofs RbModel RbInv RbCodecModel.
Open Scope N_scope.

(** An entry whose fields hold values of their C types. *)
Definition ent_fits (e : rentry) : Prop :=
  exists ts, rb_fields (ent_cmd e) = Some ts /\ Forall2 field_ok ts (ent_vals e) /\
             match e with ROp cmd _ => cmd <> 114 | RIncl _ _ _ _ => True end.
(** A node whose fields hold values of their C types, whose byte count is that of its entries,
    and whose serialized size is an unsigned int. *)
Definition node_fits (n : rnode) : Prop :=
  fst (n_xid n) < 2 ^ 64 /\ snd (n_xid n) < 2 ^ 64 /\ n_seq n < 2 ^ 64 /\ n_prev n < 2 ^ 64 /\
  Forall ent_fits (n_ents n) /\ sizes (n_ents n) = Some (n_bytes n) /\ n_bytes n + 76 < 2 ^ 32.
Definition head_fits (rh : rhead) : Prop :=
  rh_version rh = FT_LAYOUT_VERSION /\ rh_original rh < 2 ^ 32 /\ rh_build rh < 2 ^ 32 /\ rh_arena rh < 2 ^ 64.

Definition ent_bytes (e : rentry) : bytes :=
  match rb_fields (ent_cmd e) with
  | Some ts => let fb := fields_bytes ts (ent_vals e) in le_enc 4 (5 + len fb) ++ [ent_cmd e] ++ fb
  | None => []
  end.

Lemma rb_no_xid cmd ts : rb_fields cmd = Some ts -> ~ In T_XIDP ts /\ cmd < 256.
Proof.
  unfold rb_fields. destruct (find _ _) as [[c0 ts0]|] eqn:E; [|discriminate]. intros H. injection H as ->.
  apply find_some in E as [E1 E2]. cbn [fst] in E2. apply N.eqb_eq in E2. subst.
  cbn [rollbacks In] in E1. repeat (destruct E1 as [E1|E1]; [injection E1 as <- <-; split; [cbn; intuition discriminate|reflexivity]|]).
  contradiction.
Qed.

Lemma fsize_fits e : ent_fits e -> rb_fsize e = Some (len (ent_bytes e)).
Proof.
  intros (ts & E & F & _). unfold rb_fsize, ent_bytes. rewrite E. rewrite (logsizes_ok _ _ F). cbv zeta.
  rewrite !len_app, len_le_enc. f_equal. unfold len at 2. cbn [length]. lia.
Qed.

Lemma rb_put_ok e w : ent_fits e -> room w (len (ent_bytes e)) ->
  exists w', rb_put w e = Some w' /\ w_size w' = w_size w /\ w_out w' = w_out w ++ ent_bytes e.
Proof.
  intros EF R. pose proof (fsize_fits e EF) as FS. destruct EF as (ts & E & F & _). unfold rb_put. rewrite E, FS.
  unfold ent_bytes in R |- *. rewrite E in R |- *. cbv zeta in *. unfold room in R. rewrite !len_app, len_le_enc in R.
  assert (L1 : len [ent_cmd e] = 1) by reflexivity. rewrite L1 in R. rewrite !len_app, len_le_enc, L1.
  unfold wbuf_nocrc_uint, wbuf_nocrc_char.
  destruct (wput_nocrc_ok w (le_enc 4 (N.of_nat 4 + (1 + len (fields_bytes ts (ent_vals e)))))) as (w1 & E1 & S1 & O1).
  { unfold room. rewrite len_le_enc. lia. }
  rewrite E1. destruct (wput_nocrc_ok w1 [ent_cmd e]) as (w2 & E2 & S2 & O2).
  { unfold room. rewrite S1, O1, len_app, len_le_enc. unfold len at 2. cbn [length]. lia. }
  rewrite E2. destruct (put_fields_ok ts (ent_vals e) F w2) as (w3 & E3 & S3 & O3).
  { unfold room. rewrite S2, S1, O2, O1, !len_app, len_le_enc. unfold len at 2. cbn [length]. lia. }
  rewrite E3. exists w3. split; [reflexivity|]. split; [congruence|]. rewrite O3, O2, O1, <- !app_assoc. f_equal. f_equal. f_equal. lia.
Qed.

Lemma rb_puts_ok l : Forall ent_fits l -> forall w, room w (len (concat (map ent_bytes l))) ->
  exists w', rb_puts w l = Some w' /\ w_size w' = w_size w /\ w_out w' = w_out w ++ concat (map ent_bytes l).
Proof.
  induction 1 as [|e l EF F IH]; intros w R; cbn [rb_puts map concat] in *.
  - exists w. rewrite app_nil_r. auto.
  - unfold room in R. rewrite len_app in R. destruct (rb_put_ok e w EF) as (w1 & E1 & S1 & O1); [unfold room; lia|].
    rewrite E1. destruct (IH w1) as (w2 & E2 & S2 & O2); [unfold room; rewrite S1, O1, len_app; lia|].
    rewrite E2. exists w2. split; [reflexivity|]. split; [congruence|]. now rewrite O2, O1, <- app_assoc.
Qed.

Lemma sizes_fits l : Forall ent_fits l -> sizes l = Some (len (concat (map ent_bytes l))).
Proof.
  induction 1 as [|e l EF F IH]; cbn [sizes map concat]; [reflexivity|]. rewrite (fsize_fits e EF), IH, len_app. reflexivity.
Qed.

Lemma get_nums_ok l r : Forall (fun n => n < 2 ^ 32) l ->
  rb_get_nums (length l) (concat (map (le_enc 4) l) ++ r) = Some (l, r).
Proof.
  induction 1 as [|n l H F IH]; [reflexivity|]. cbn [length rb_get_nums map concat].
  rewrite <- app_assoc, rbuf_int_app by exact H. now rewrite IH.
Qed.

Lemma get_field_ok t v r : t <> T_XIDP -> field_ok t v -> len (field_bytes t v) < 2 ^ 32 ->
  rb_get_field t (field_bytes t v ++ r) = Some (v, r).
Proof.
  intros NX H HL. destruct t, v; try contradiction H; try congruence; cbn [field_ok field_bytes rb_get_field] in *;
    try (rewrite rbuf_int_app by exact H; reflexivity);
    try (rewrite b8_ull, rbuf_ull_app by exact H; reflexivity).
  - reflexivity.
  - cbn [app rbuf_char]. now destruct b.
  - destruct H as [H1 H2]. rewrite <- app_assoc, !b8_ull by assumption. rewrite rbuf_ull_app by exact H1. now rewrite rbuf_ull_app by exact H2.
  - rewrite len_app, len_le_enc in HL. assert (L : forall k, len (concat (map (le_enc 4) k)) = 4 * N.of_nat (length k)).
    { induction k as [|a k IHk]; [reflexivity|]. cbn [map concat length]. rewrite len_app, len_le_enc, IHk. lia. }
    rewrite L in HL. rewrite <- app_assoc, rbuf_int_app by lia.
    destruct (N.leb_spec (4 * N.of_nat (length l)) (len (concat (map (le_enc 4) l) ++ r))) as [_|LT].
    + rewrite Nat2N.id. now rewrite get_nums_ok.
    + rewrite len_app, L in LT. lia.
  - rewrite len_app, len_le_enc in HL. change (le_enc 4 (len bs) ++ bs) with (bs_enc bs). rewrite rbuf_bytes_app by lia. reflexivity.
Qed.

Lemma get_fields_ok ts vs : ~ In T_XIDP ts -> Forall2 field_ok ts vs -> len (fields_bytes ts vs) < 2 ^ 32 ->
  forall r, rb_get_fields ts (fields_bytes ts vs ++ r) = Some (vs, r).
Proof.
  intros NX F. induction F as [|t v ts vs H F IH]; intros HL r; [reflexivity|]. rewrite fields_cons in *. rewrite len_app in HL.
  cbn [rb_get_fields]. rewrite <- app_assoc, get_field_ok; [|intros ->; apply NX; left; reflexivity|exact H|lia].
  rewrite IH; [reflexivity|intros I; apply NX; right; exact I|lia].
Qed.

Lemma parse_ok e : ent_fits e -> len (ent_bytes e) < 2 ^ 32 ->
  exists fb, ent_bytes e = le_enc 4 (5 + len fb) ++ ent_cmd e :: fb /\ rb_parse (ent_cmd e :: fb) = Some e.
Proof.
  intros (ts & E & F & K) HL. unfold ent_bytes in *. rewrite E in *. cbv zeta in *. rewrite !len_app in HL.
  destruct (rb_no_xid _ _ E) as [NX _].
  exists (fields_bytes ts (ent_vals e)). split; [reflexivity|]. unfold rb_parse. cbn [rbuf_char]. rewrite E.
  pose proof (get_fields_ok ts (ent_vals e) NX F ltac:(lia) []) as G. rewrite app_nil_r in G. rewrite G.
  destruct e as [cmd vs|x n h t]; cbn [ent_cmd ent_vals] in *.
  - destruct (N.eqb_spec cmd 114); [contradiction|reflexivity].
  - cbn. now destruct x.
Qed.

Lemma rb_ents_ok l : Forall ent_fits l -> len (concat (map ent_bytes l)) < 2 ^ 32 -> forall k, (length l <= k)%nat ->
  rb_ents k (concat (map ent_bytes l)) = Some l.
Proof.
  induction 1 as [|e l EF F IH]; intros HL k LE; cbn [map concat] in *; [destruct k; reflexivity|].
  cbn [length] in LE. destruct k as [|k]; [lia|]. rewrite len_app in HL.
  destruct (parse_ok e EF ltac:(lia)) as (fb & EB & P). pose proof EB as EB'. apply (f_equal (@len)) in EB'.
  rewrite len_app, len_le_enc in EB'. assert (L1 : len (ent_cmd e :: fb) = 1 + len fb) by (unfold len; cbn [length]; lia).
  cbn [rb_ents]. destruct (ent_bytes e ++ concat (map ent_bytes l)) as [|z zs] eqn:Z.
  { apply app_eq_nil in Z as [Z _]. rewrite Z in EB. destruct (le_enc4_cons (5 + len fb)) as (? & ? & ? & ? & E4). rewrite E4 in EB. discriminate. }
  rewrite <- Z, EB, <- app_assoc. rewrite rbuf_int_app by lia.
  replace ((5 + len fb + 2 ^ 32 - 4) mod 2 ^ 32) with (len (ent_cmd e :: fb)).
  2:{ rewrite L1. replace (5 + len fb + 2 ^ 32 - 4) with (1 + len fb + 1 * 2 ^ 32) by lia. rewrite N.mod_add by discriminate.
      symmetry. apply N.mod_small. lia. }
  rewrite literal_app, P, IH by lia. reflexivity.
Qed.

Lemma ents_len_le l : Forall ent_fits l -> (length l <= length (concat (map ent_bytes l)))%nat.
Proof.
  induction 1 as [|e l EF F IH]; [auto|]. cbn [map concat length]. rewrite app_length.
  assert (1 <= length (ent_bytes e))%nat; [|lia]. destruct EF as (ts & E & _ & _). unfold ent_bytes. rewrite E. cbv zeta.
  rewrite !app_length. cbn [length]. lia.
Qed.

(** The bytes of a node. *)
Definition node_bytes (rh : rhead) (b : N) (n : rnode) : bytes :=
  tokuroll ++ le_enc 4 (rh_version rh) ++ le_enc 4 (rh_original rh) ++ le_enc 4 (rh_build rh) ++
  ull_enc (fst (n_xid n)) ++ ull_enc (snd (n_xid n)) ++ ull_enc (n_seq n) ++ ull_enc b ++ ull_enc (n_prev n) ++
  ull_enc (n_bytes n) ++ ull_enc (rh_arena rh) ++ concat (map ent_bytes (n_ents n)).

Lemma serialize_ok rh b n : node_fits n -> head_fits rh -> rb_serialize rh b n = Some (node_bytes rh b n).
Proof.
  intros (X & Y & SQ & PV & EF & SZ & TOT) (V & VO & BI & AR). unfold rb_serialize. cbv zeta.
  pose proof (sizes_fits _ EF) as SF. rewrite SZ in SF. injection SF as SF.
  assert (W0 : w_size (wbuf_init (rb_size n)) = rb_size n).
  { unfold wbuf_init. cbn [w_size]. apply N.mod_small. unfold rb_size. lia. }
  assert (O0 : w_out (wbuf_init (rb_size n)) = []) by reflexivity.
  assert (RS : rb_size n = 76 + n_bytes n) by (unfold rb_size; lia).
  remember (wbuf_init (rb_size n)) as w0 eqn:EQ0. clear EQ0.
  assert (LR : len tokuroll = 8) by reflexivity.
  assert (LU : forall x, len (ull_enc x) = 8) by (intros; apply len_ull).
  unfold wbuf_nocrc_literal, wbuf_nocrc_uint.
  destruct (wput_nocrc_ok w0 tokuroll) as (w1 & E1 & S1 & O1); [unfold room; rewrite O0, W0, LR, RS; unfold len at 1; cbn [length]; lia|].
  rewrite E1, V, N.eqb_refl. rewrite O0 in O1. cbn [app] in O1. rewrite W0 in S1.
  destruct (wput_nocrc_ok w1 (le_enc 4 FT_LAYOUT_VERSION)) as (w2 & E2 & S2 & O2); [unfold room; rewrite O1, S1, LR, len_le_enc; lia|].
  rewrite E2. rewrite O1 in O2. rewrite S1 in S2. assert (L2 : len (w_out w2) = 12) by (rewrite O2, len_app, LR, len_le_enc; reflexivity).
  destruct (wput_nocrc_ok w2 (le_enc 4 (rh_original rh))) as (w3 & E3 & S3 & O3); [unfold room; rewrite L2, S2, len_le_enc; lia|].
  rewrite E3. rewrite S2 in S3. assert (L3 : len (w_out w3) = 16) by (rewrite O3, len_app, L2, len_le_enc; reflexivity).
  destruct (wput_nocrc_ok w3 (le_enc 4 (rh_build rh))) as (w4 & E4 & S4 & O4); [unfold room; rewrite L3, S3, len_le_enc; lia|].
  rewrite E4. rewrite S3 in S4. assert (L4 : len (w_out w4) = 20) by (rewrite O4, len_app, L3, len_le_enc; reflexivity).
  destruct (wbuf_nocrc_ull_ok w4 (fst (n_xid n))) as (w5 & E5 & S5 & O5); [unfold room; rewrite L4, S4; lia|].
  rewrite E5. rewrite S4 in S5. assert (L5 : len (w_out w5) = 28) by (rewrite O5, len_app, L4, LU; reflexivity).
  destruct (wbuf_nocrc_ull_ok w5 (snd (n_xid n))) as (w6 & E6 & S6 & O6); [unfold room; rewrite L5, S5; lia|].
  rewrite E6. rewrite S5 in S6. assert (L6 : len (w_out w6) = 36) by (rewrite O6, len_app, L5, LU; reflexivity).
  destruct (wbuf_nocrc_ull_ok w6 (n_seq n)) as (w7 & E7 & S7 & O7); [unfold room; rewrite L6, S6; lia|].
  rewrite E7. rewrite S6 in S7. assert (L7 : len (w_out w7) = 44) by (rewrite O7, len_app, L6, LU; reflexivity).
  destruct (wbuf_nocrc_ull_ok w7 b) as (w8 & E8 & S8 & O8); [unfold room; rewrite L7, S7; lia|].
  rewrite E8. rewrite S7 in S8. assert (L8 : len (w_out w8) = 52) by (rewrite O8, len_app, L7, LU; reflexivity).
  destruct (wbuf_nocrc_ull_ok w8 (n_prev n)) as (w9 & E9 & S9 & O9); [unfold room; rewrite L8, S8; lia|].
  rewrite E9. rewrite S8 in S9. assert (L9 : len (w_out w9) = 60) by (rewrite O9, len_app, L8, LU; reflexivity).
  destruct (wbuf_nocrc_ull_ok w9 (n_bytes n)) as (w10 & E10 & S10 & O10); [unfold room; rewrite L9, S9; lia|].
  rewrite E10. rewrite S9 in S10. assert (L10 : len (w_out w10) = 68) by (rewrite O10, len_app, L9, LU; reflexivity).
  destruct (wbuf_nocrc_ull_ok w10 (rh_arena rh)) as (w11 & E11 & S11 & O11); [unfold room; rewrite L10, S10; lia|].
  rewrite E11. rewrite S10 in S11. assert (L11 : len (w_out w11) = 76) by (rewrite O11, len_app, L10, LU; reflexivity).
  destruct (rb_puts_ok (n_ents n) EF w11) as (w12 & E12 & S12 & O12); [unfold room; rewrite L11, S11, <- SF; lia|].
  rewrite E12. rewrite S11 in S12. assert (L12 : len (w_out w12) = 76 + n_bytes n) by (rewrite O12, len_app, L11, <- SF; reflexivity).
  rewrite L11, L12, S12, RS, !N.eqb_refl. f_equal.
  rewrite O12, O11, O10, O9, O8, O7, O6, O5, O4, O3, O2. unfold node_bytes. rewrite V, <- !app_assoc. reflexivity.
Qed.

Lemma deserialize_ok rh b n : node_fits n -> 25 <= rh_version rh <= 29 -> rh_original rh < 2 ^ 32 -> rh_build rh < 2 ^ 32 ->
  rh_arena rh < 2 ^ 64 -> b < 2 ^ 64 ->
  rb_deserialize b (node_bytes rh b n) = if rh_version rh =? 28 then None else Some (rh, n).
Proof.
  intros (X & Y & SQ & PV & EF & SZ & TOT) V VO BI AR B. unfold rb_deserialize.
  pose proof (sizes_fits _ EF) as SF. rewrite SZ in SF. injection SF as SF.
  assert (L4 : (4 <? len (node_bytes rh b n)) = true).
  { apply N.ltb_lt. unfold node_bytes. rewrite len_app. change (len tokuroll) with 8. lia. }
  rewrite L4. unfold node_bytes. pose proof (literal_app tokuroll) as LA. change (len tokuroll) with 8 in LA. rewrite LA. clear LA.
  change (bytes_eqb tokuroll tokuroll) with true. cbv iota.
  rewrite rbuf_int_app by lia. unfold FT_LAYOUT_VERSION.
  assert (VV : ((25 <=? rh_version rh) && (rh_version rh <=? 27)) || (rh_version rh =? 29) = negb (rh_version rh =? 28)).
  { destruct (N.leb_spec 25 (rh_version rh)), (N.leb_spec (rh_version rh) 27), (N.eqb_spec (rh_version rh) 29), (N.eqb_spec (rh_version rh) 28); cbn; try reflexivity; lia. }
  rewrite VV. clear VV. destruct (N.eqb_spec (rh_version rh) 28); cbn [negb]; [reflexivity|].
  rewrite rbuf_int_app by exact VO. rewrite rbuf_int_app by exact BI.
  rewrite !rbuf_ull_app by first [assumption | lia]. rewrite N.eqb_refl.
  rewrite rb_ents_ok; [|exact EF|lia|apply ents_len_le; exact EF].
  destruct rh as [v vo bi ar]. destruct n as [[x y] sq pv es bc]. reflexivity.
Qed.
