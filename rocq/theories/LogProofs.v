(** The record codec: what the writer writes is what the readers read. *)
From Verif Require Import Base Bytes X1764Model X1764Spec X1764Proofs WbufModel WbufProofs
  TransCodecModel TransCodecProofs LogModel LogSpec.
Open Scope N_scope.

(** * Readers *)

(** [reads m s x a s']: on any input starting with [x] the reader returns [a] having
    consumed [x], and on a strict prefix of [x] it reports the end of the file. *)
Definition reads {A} (m : R A) (s : rst) (x : bytes) (a : A) (s' : rst) : Prop :=
  (forall i, m (x ++ i) s = ROk (a, s') i) /\
  (forall x1 x2, x = x1 ++ x2 -> x2 <> [] -> m x1 s = REof).

Lemma reads_at {A} (m g : R A) s x a s' :
  (forall i, m i s = g i s) -> reads g s x a s' -> reads m s x a s'.
Proof. intros E [G1 G2]. split; intros; rewrite E; eauto. Qed.

Lemma reads_ret {A} (a : A) s : reads (rret a) s [] a s.
Proof.
  split; [reflexivity|]. intros x1 x2 E N. symmetry in E. apply app_eq_nil in E. tauto.
Qed.

Lemma reads_bind {A B} (m : R A) (f : A -> R B) s x a s1 y b s2 :
  reads m s x a s1 -> reads (f a) s1 y b s2 -> reads (rbind m f) s (x ++ y) b s2.
Proof.
  intros [M1 M2] [F1 F2]. split.
  - intros i. unfold rbind. rewrite <- app_assoc, M1. apply F1.
  - intros x1 x2 E N. unfold rbind.
    apply app_eq_app in E as (l & [[-> ->] | [-> ->]]).
    + destruct l as [|c l].
      * rewrite <- (app_nil_r x1) at 1. rewrite app_nil_r in M1. rewrite M1.
        apply (F2 [] y); auto.
      * rewrite (M2 x1 (c :: l)); auto. discriminate.
    + rewrite M1. apply (F2 l x2); auto.
Qed.

(** The state after reading [x] with checksumming. *)
Definition adv (s : rst) (x : bytes) : rst :=
  mkR (fold_left (fun m b => x1764_add m [b]) x (r_mm s)) ((r_len s + len x) mod 2 ^ 32).
Definition sok (s : rst) : Prop := r_len s < 2 ^ 32.

Lemma sok_adv s x : sok (adv s x).
Proof. unfold sok, adv. cbn [r_len]. apply N.mod_lt. discriminate. Qed.
Lemma adv_nil s : sok s -> adv s [] = s.
Proof.
  intros H. destruct s as [m l]. unfold adv, sok in *. cbn [r_mm r_len fold_left] in *.
  unfold len. cbn [length]. rewrite N.add_0_r, N.mod_small by auto. reflexivity.
Qed.
Lemma adv_app s x y : adv (adv s x) y = adv s (x ++ y).
Proof.
  unfold adv. cbn [r_mm r_len]. rewrite fold_left_app, len_app, N.add_mod_idemp_l, N.add_assoc by lia.
  reflexivity.
Qed.

Lemma reads_u8 s b : reads fread_u8 s [b] b (adv s [b]).
Proof.
  split; [reflexivity|]. intros [|y x1] x2 E N; [reflexivity|].
  injection E as <- E. symmetry in E. apply app_eq_nil in E. tauto.
Qed.
Lemma reads_u8_nocrc s b : reads fread_u8_nocrc s [b] b s.
Proof.
  split; [reflexivity|]. intros [|y x1] x2 E N; [reflexivity|].
  injection E as <- E. symmetry in E. apply app_eq_nil in E. tauto.
Qed.

(** Checksummed readers: [rd m x a] for every consistent state. *)
Definition rd {A} (m : R A) (x : bytes) (a : A) : Prop :=
  forall s, sok s -> reads m s x a (adv s x).

Lemma rd_u8 b : rd fread_u8 [b] b.
Proof. intros s _. apply reads_u8. Qed.
Lemma rd_ret {A} (a : A) : rd (rret a) [] a.
Proof. intros s H. rewrite adv_nil by auto. apply reads_ret. Qed.
Lemma rd_bind {A B} (m : R A) (f : A -> R B) x a y b :
  rd m x a -> rd (f a) y b -> rd (rbind m f) (x ++ y) b.
Proof.
  intros M F s H. eapply reads_bind; [apply M; auto|]. rewrite <- adv_app. apply F, sok_adv.
Qed.
Lemma rd_ext {A} (m : R A) x y a b : rd m x a -> x = y -> a = b -> rd m y b.
Proof. intros; subst; auto. Qed.

(** A final pure step. *)
Lemma rd_map {A B} (m : R A) (f : A -> B) x a : rd m x a -> rd (rbind m (fun v => rret (f v))) x (f a).
Proof. intros M. rewrite <- (app_nil_r x). eapply rd_bind; [exact M|apply rd_ret]. Qed.

Lemma le_enc4_cons n : exists b0 b1 b2 b3, le_enc 4 n = [b0; b1; b2; b3].
Proof. do 4 eexists. reflexivity. Qed.

Lemma rd_u32 n : n < 2 ^ 32 -> rd fread_u32 (le_enc 4 n) n.
Proof.
  intros H. pose proof (le_val_enc_small 4 n H) as V.
  destruct (le_enc4_cons n) as (b0 & b1 & b2 & b3 & E). rewrite E in *. rewrite <- V.
  change [b0; b1; b2; b3] with ([b0] ++ [b1] ++ [b2] ++ [b3] ++ []) at 1.
  unfold fread_u32.
  eapply rd_bind; [apply rd_u8|]. eapply rd_bind; [apply rd_u8|].
  eapply rd_bind; [apply rd_u8|]. eapply rd_bind; [apply rd_u8|]. apply rd_ret.
Qed.
Lemma reads_u32_nocrc s n : n < 2 ^ 32 -> reads fread_u32_nocrc s (le_enc 4 n) n s.
Proof.
  intros H. pose proof (le_val_enc_small 4 n H) as V.
  destruct (le_enc4_cons n) as (b0 & b1 & b2 & b3 & E). rewrite E in *. rewrite <- V.
  change [b0; b1; b2; b3] with ([b0] ++ [b1] ++ [b2] ++ [b3] ++ []) at 1.
  unfold fread_u32_nocrc.
  eapply reads_bind; [apply reads_u8_nocrc|]. eapply reads_bind; [apply reads_u8_nocrc|].
  eapply reads_bind; [apply reads_u8_nocrc|]. eapply reads_bind; [apply reads_u8_nocrc|].
  apply reads_ret.
Qed.
Lemma rd_u64 n : n < 2 ^ 64 -> rd fread_u64 (b8 n) n.
Proof.
  intros H. unfold fread_u64, b8.
  assert (E : N.lor (N.shiftl (n / 2 ^ 32) 32) (n mod 2 ^ 32) = n).
  { rewrite lor_words by (apply N.mod_lt; discriminate).
    rewrite N.mul_comm. symmetry. apply N.div_mod. discriminate. }
  eapply rd_bind; [apply rd_u32|].
  - apply N.div_lt_upper_bound; [discriminate|]. exact H.
  - rewrite <- E at 2. rewrite <- (app_nil_r (le_enc 4 (n mod 2 ^ 32))).
    eapply rd_bind; [apply rd_u32, N.mod_lt; discriminate|]. apply rd_ret.
Qed.

Lemma rd_n l : rd (fread_n (length l)) l l.
Proof.
  induction l as [|b l IH]; cbn [length fread_n]; [apply rd_ret|].
  apply (rd_bind _ _ [b] b l (b :: l)); [apply rd_u8|]. cbv beta.
  apply (rd_map _ (fun x => b :: x)). exact IH.
Qed.
Lemma rd_nums_n l : Forall (fun n => n < 2 ^ 32) l ->
  rd (fread_nums_n (length l)) (concat (map (le_enc 4) l)) l.
Proof.
  induction 1 as [|b l Hb Hl IH]; cbn [length fread_nums_n map concat]; [apply rd_ret|].
  apply (rd_bind _ _ _ b); [apply rd_u32; auto|].
  apply (rd_map _ (fun x => b :: x)). exact IH.
Qed.
Lemma rd_many {A} n (loop : nat -> R A) x a :
  rd (loop (N.to_nat n)) x a -> n <= len x -> rd (fread_many n loop) x a.
Proof.
  intros L Hn s Hs. destruct (L s Hs) as [L1 L2]. unfold fread_many. split.
  - intros i. rewrite len_app. destruct (N.ltb_spec (len x + len i) n); [lia|]. apply L1.
  - intros x1 x2 E N. destruct (N.ltb_spec (len x1) n); [reflexivity|]. eapply L2; eauto.
Qed.

Lemma rd_xid f g b : field_ok T_XIDP (V_xid f g b) ->
  rd fread_xid (field_bytes T_XIDP (V_xid f g b)) (V_xid f g b).
Proof.
  intros (Hf & Hg & Hb & _ & _). cbn [field_bytes]. unfold fread_xid.
  eapply rd_bind; [apply rd_u32; lia|].
  change ([len g; len b] ++ g ++ b) with ([len g] ++ [len b] ++ g ++ b).
  eapply rd_bind; [apply rd_u8|]. eapply rd_bind; [apply rd_u8|].
  intros s Hs.
  assert (M : rd (fread_many (len g + len b) fread_n) (g ++ b) (g ++ b)).
  { apply rd_many; [|rewrite len_app; lia].
    replace (N.to_nat (len g + len b)) with (length (g ++ b))
      by (rewrite app_length; unfold len; lia).
    apply rd_n. }
  destruct (M s Hs) as [M1 M2]. split.
  - intros i. rewrite M1.
    destruct (N.leb_spec (len g + len b) XIDDATASIZE) as [_|C]; [|unfold XIDDATASIZE in C; lia].
    rewrite Z2N.id by lia. unfold len. rewrite !Nat2N.id.
    rewrite firstn_app, Nat.sub_diag, firstn_all, firstn_O, app_nil_r.
    rewrite skipn_app, Nat.sub_diag, skipn_all, skipn_O. reflexivity.
  - intros x1 x2 E N. rewrite (M2 _ _ E N).
    destruct (N.ltb_spec XIDDATASIZE (len g + len b)) as [C|_]; [unfold XIDDATASIZE in C; lia|].
    reflexivity.
Qed.

Lemma rd_field t v : field_ok t v -> len (field_bytes t v) < 2 ^ 32 ->
  rd (fread_field t) (field_bytes t v) v.
Proof.
  intros H HL. destruct t, v; try contradiction H; unfold fread_field;
    try (apply (rd_map _ V_num), rd_u32; exact H);
    try (apply (rd_map _ V_num), rd_u64; exact H).
  - apply (rd_map _ V_num), rd_u8.
  - cbn [field_bytes].
    apply (rd_ext _ _ _ _ _ (rd_map _ (fun n => V_bool (negb (n =? 0))) _ _ (rd_u8 (if b then 1 else 0)))
             eq_refl). destruct b; reflexivity.
  - destruct H as [Hp Hq]. cbn [field_bytes].
    eapply rd_bind; [apply rd_u64; auto|]. apply (rd_map _ (fun q => V_pair parent q)), rd_u64; auto.
  - apply rd_xid, H.
  - cbn [field_ok] in H. cbn [field_bytes] in *. rewrite len_app in HL.
    assert (Hl : len (concat (map (le_enc 4) l)) = 4 * N.of_nat (length l)).
    { clear. induction l as [|a l IH]; [reflexivity|]. cbn [map concat length].
      rewrite len_app, IH, len_le_enc. lia. }
    eapply rd_bind; [apply rd_u32; lia|]. apply (rd_map _ V_nums). apply rd_many; [|lia].
    rewrite Nat2N.id. apply rd_nums_n, H.
  - cbn [field_bytes] in *. rewrite len_app in HL.
    eapply rd_bind; [apply rd_u32; lia|]. apply (rd_map _ V_bytes). apply rd_many; [|lia].
    unfold len. rewrite Nat2N.id. apply rd_n.
Qed.

Lemma fields_cons t ts v vs :
  fields_bytes (t :: ts) (v :: vs) = field_bytes t v ++ fields_bytes ts vs.
Proof. reflexivity. Qed.

Lemma rd_fields ts vs : Forall2 field_ok ts vs -> len (fields_bytes ts vs) < 2 ^ 32 ->
  rd (fread_fields ts) (fields_bytes ts vs) vs.
Proof.
  induction 1 as [|t v ts vs Hv Hvs IH]; intros HL; cbn [fread_fields]; [apply rd_ret|].
  rewrite fields_cons in *. rewrite len_app in HL.
  eapply rd_bind; [apply rd_field; [auto|lia]|].
  apply (rd_map _ (fun x => v :: x)), IH. lia.
Qed.

(** * Bytes *)
Lemma b8_ok n : bytes_ok (b8 n).
Proof. unfold b8. apply bytes_ok_app. split; apply le_enc_ok. Qed.
Lemma len_b8 n : len (b8 n) = 8.
Proof. unfold b8. rewrite len_app, !len_le_enc. reflexivity. Qed.
Lemma b8_ull n : n < 2 ^ 64 -> b8 n = ull_enc n.
Proof.
  intros H. unfold b8, ull_enc. f_equal. f_equal. symmetry. apply N.mod_small.
  apply N.div_lt_upper_bound; [discriminate|]. exact H.
Qed.

Lemma field_bytes_ok t v : field_ok t v -> bytes_ok (field_bytes t v).
Proof.
  intros H. destruct t, v; try contradiction H; cbn [field_bytes field_ok] in *;
    try apply le_enc_ok; try apply b8_ok.
  - repeat constructor. exact H.
  - destruct b; repeat constructor.
  - apply bytes_ok_app. split; apply b8_ok.
  - destruct H as (Hf & Hg & Hb & G & B).
    apply bytes_ok_app. split; [apply le_enc_ok|].
    apply bytes_ok_app. split; [repeat constructor; lia|].
    apply bytes_ok_app. auto.
  - apply bytes_ok_app. split; [apply le_enc_ok|].
    clear. induction l as [|a l IH]; cbn [map concat]; [constructor|].
    apply bytes_ok_app. split; [apply le_enc_ok|exact IH].
  - apply bytes_ok_app. split; [apply le_enc_ok|exact H].
Qed.
Lemma fields_bytes_ok ts vs : Forall2 field_ok ts vs -> bytes_ok (fields_bytes ts vs).
Proof.
  induction 1; [constructor|]. rewrite fields_cons. apply bytes_ok_app. split; auto using field_bytes_ok.
Qed.

Lemma fields_of_cmd cmd ts : fields_of cmd = Some ts -> In (cmd, ts) logtypes.
Proof.
  unfold fields_of. destruct (find _ _) as [[c0 ts0]|] eqn:E; [|discriminate].
  intros H. injection H as ->. apply find_some in E as [E1 E2]. cbn [fst] in E2.
  apply N.eqb_eq in E2. now subst.
Qed.
Lemma cmd_byte cmd ts : fields_of cmd = Some ts -> cmd < 256.
Proof.
  intros H. apply fields_of_cmd in H. unfold logtypes in H. cbn [In] in H.
  repeat (destruct H as [H|H]; [injection H as <- <-; reflexivity|]). contradiction.
Qed.

Lemma rec_head_ok ts e : fields_of (e_cmd e) = Some ts -> Forall2 field_ok ts (e_vals e) ->
  bytes_ok (rec_head ts e).
Proof.
  intros H F. unfold rec_head. apply bytes_ok_app. split; [apply le_enc_ok|].
  apply bytes_ok_app. split; [repeat constructor; eapply cmd_byte; eauto|].
  apply bytes_ok_app. split; [apply b8_ok|]. now apply fields_bytes_ok.
Qed.
Lemma len_rec_head ts e : len (rec_head ts e) + 8 = rec_len ts e.
Proof.
  unfold rec_head, rec_len. rewrite !len_app, len_le_enc, len_b8. unfold len at 1. cbn [length]. lia.
Qed.
Lemma rec_bytes_ok e : entry_ok e -> bytes_ok (rec_bytes e).
Proof.
  intros (ts & H & F & _). unfold rec_bytes. rewrite H.
  apply bytes_ok_app. split; [now apply rec_head_ok|].
  apply bytes_ok_app. split; apply le_enc_ok.
Qed.
Lemma len_rec_bytes e ts : fields_of (e_cmd e) = Some ts -> len (rec_bytes e) = rec_len ts e.
Proof.
  intros H. unfold rec_bytes. rewrite H, !len_app, !len_le_enc, <- len_rec_head. lia.
Qed.

Lemma fold_add_spec x : bytes_ok x ->
  x1764_finish (fold_left (fun m b => x1764_add m [b]) x x1764_init) = checksum_spec x.
Proof.
  intros H.
  assert (E : forall m, fold_left (fun m b => x1764_add m [b]) x m
              = fold_left x1764_add (map (fun b => [b]) x) m).
  { clear H. induction x as [|b x IH]; intros m; cbn; auto. }
  rewrite E, x1764_incremental.
  - f_equal. clear. induction x as [|b x IH]; cbn; congruence.
  - clear E. induction H; cbn; constructor; auto. repeat constructor. auto.
Qed.

(** * Reading a record back *)
Lemma rec_reads e : entry_ok e ->
  exists s', reads log_fread_m (mkR x1764_init 0) (rec_bytes e) e s'.
Proof.
  intros (ts & H & F & L & B). unfold rec_bytes. rewrite H.
  set (crc := checksum_spec (rec_head ts e)).
  assert (HB : len (fields_bytes ts (e_vals e)) < 2 ^ 32) by (unfold rec_len in B; lia).
  assert (E : rec_head ts e ++ le_enc 4 crc ++ le_enc 4 (rec_len ts e) =
    le_enc 4 (rec_len ts e) ++ [e_cmd e] ++ b8 (e_lsn e) ++ fields_bytes ts (e_vals e) ++
    le_enc 4 crc ++ le_enc 4 (rec_len ts e) ++ []).
  { unfold rec_head. rewrite <- !app_assoc, app_nil_r. reflexivity. }
  rewrite E. eexists. unfold log_fread_m.
  eapply reads_bind; [apply rd_u32; [lia|reflexivity]|].
  eapply reads_bind; [apply reads_u8|]. rewrite H.
  set (s2 := adv (adv (mkR x1764_init 0) (le_enc 4 (rec_len ts e))) [e_cmd e]).
  assert (S2 : s2 = mkR (r_mm s2) 5).
  { unfold s2, adv. cbn [r_mm r_len]. rewrite len_le_enc. reflexivity. }
  unfold log_fread_body.
  eapply reads_at; [intros i; rewrite <- S2; reflexivity|].
  set (s4 := adv (adv s2 (b8 (e_lsn e))) (fields_bytes ts (e_vals e))).
  assert (S4 : s4 = adv (mkR x1764_init 0) (rec_head ts e)).
  { unfold s4, s2. rewrite !adv_app. reflexivity. }
  eapply reads_bind; [apply rd_u64; [auto|apply sok_adv]|].
  eapply reads_bind; [apply rd_fields; [auto|auto|apply sok_adv]|].
  eapply reads_bind; [apply reads_u32_nocrc; apply checksum_lt|].
  eapply reads_bind; [apply reads_u32_nocrc; lia|].
  assert (C1 : x1764_finish (r_mm s4) = crc).
  { rewrite S4. unfold adv. cbn [r_mm]. apply fold_add_spec. now apply rec_head_ok. }
  assert (C2 : (r_len s4 + 8) mod 2 ^ 32 = rec_len ts e).
  { rewrite S4. unfold adv. cbn [r_len]. pose proof (len_rec_head ts e).
    rewrite (N.mod_small (0 + _)) by lia. rewrite N.mod_small; lia. }
  fold s4. eapply reads_at; [|apply reads_ret].
  intros i. cbv beta. rewrite C1, C2, !N.eqb_refl. cbn [negb orb].
  destruct e as [cmd lsn vs]. reflexivity.
Qed.

Lemma log_fread_rec e i : entry_ok e -> log_fread (rec_bytes e ++ i) = ROk e i.
Proof.
  intros H. destruct (rec_reads e H) as (s' & R1 & _). unfold log_fread. rewrite R1. reflexivity.
Qed.
Lemma log_fread_torn e x y : entry_ok e -> rec_bytes e = x ++ y -> y <> [] -> log_fread x = REof.
Proof.
  intros H E N. destruct (rec_reads e H) as (s' & _ & R2). unfold log_fread.
  rewrite (R2 _ _ E N). reflexivity.
Qed.

(** * The writer *)
Lemma put_nums_ok l : forall w, room w (4 * N.of_nat (length l)) ->
  exists w', put_nums w l = Some w' /\ w_size w' = w_size w /\
             w_out w' = w_out w ++ concat (map (le_enc 4) l).
Proof.
  induction l as [|n l IH]; intros w R; cbn [put_nums map concat length] in *.
  - exists w. now rewrite app_nil_r.
  - unfold wbuf_nocrc_uint. destruct (wput_nocrc_ok w (le_enc 4 n)) as (w1 & E1 & E2 & E3).
    { unfold room in *. rewrite len_le_enc. lia. }
    rewrite E1. destruct (IH w1) as (w2 & F1 & F2 & F3).
    { unfold room in *. rewrite E2, E3, len_app, len_le_enc. lia. }
    exists w2. split; auto. split; [congruence|]. rewrite F3, E3, <- app_assoc. reflexivity.
Qed.

Lemma logsizeof_ok t v : field_ok t v -> logsizeof t v = Some (len (field_bytes t v)).
Proof.
  intros H. destruct t, v; try contradiction H; cbn [logsizeof field_bytes field_ok] in *;
    rewrite ?len_le_enc, ?len_b8, ?len_app, ?len_le_enc, ?len_b8; try reflexivity.
  - destruct H as (_ & Hg & Hb & _). destruct (N.leb_spec (len gtrid) 64); [|lia].
    destruct (N.leb_spec (len bqual) 64); [|lia]. f_equal.
    change (len [len gtrid; len bqual]) with 2. lia.
  - f_equal. f_equal. clear. induction l as [|a l IH]; [reflexivity|]. cbn [map concat length].
    rewrite len_app, <- IH, len_le_enc. lia.
Qed.
Lemma logsizes_ok ts vs : Forall2 field_ok ts vs -> logsizes ts vs = Some (len (fields_bytes ts vs)).
Proof.
  induction 1 as [|t v ts vs H Hs IH]; cbn [logsizes]; [reflexivity|].
  rewrite logsizeof_ok, IH, fields_cons, len_app by auto. reflexivity.
Qed.

Lemma put_field_ok t v w : field_ok t v -> room w (len (field_bytes t v)) ->
  exists w', put_field w t v = Some w' /\ w_size w' = w_size w /\
             w_out w' = w_out w ++ field_bytes t v.
Proof.
  intros H R. destruct t, v; try contradiction H; cbn [put_field field_bytes field_ok] in *;
    try (apply wput_nocrc_ok; exact R);
    try (rewrite b8_ull in * by exact H; apply wbuf_nocrc_ull_ok; rewrite len_ull in R; exact R).
  - rewrite N.mod_small by exact H. apply wput_nocrc_ok, R.
  - destruct H as [Hp Hq]. rewrite !b8_ull in * by auto. rewrite len_app, !len_ull in R.
    destruct (wbuf_nocrc_ull_ok w parent) as (w1 & E1 & E2 & E3); [unfold room in *; lia|].
    rewrite E1. destruct (wbuf_nocrc_ull_ok w1 child) as (w2 & F1 & F2 & F3).
    { unfold room in *. rewrite E2, E3, len_app, len_ull. lia. }
    exists w2. split; auto. split; [congruence|]. rewrite F3, E3, <- app_assoc. reflexivity.
  - destruct H as (Hf & Hg & Hb & _). rewrite !len_app, len_le_enc in R.
    change (len [len gtrid; len bqual]) with 2 in R.
    rewrite Z.mod_small by lia. rewrite !N.mod_small by lia.
    unfold wbuf_nocrc_uint, wbuf_nocrc_char, wbuf_nocrc_literal.
    destruct (wput_nocrc_ok w (le_enc 4 (Z.to_N fmt))) as (w1 & E1 & E2 & E3).
    { unfold room in *. rewrite len_le_enc. lia. }
    rewrite E1. destruct (wput_nocrc_ok w1 [len gtrid]) as (w2 & F1 & F2 & F3).
    { unfold room in *. rewrite E2, E3, len_app, len_le_enc. change (len [len gtrid]) with 1. lia. }
    rewrite F1. destruct (wput_nocrc_ok w2 [len bqual]) as (w3 & G1 & G2 & G3).
    { unfold room in *. rewrite F2, E2, F3, E3, !len_app, len_le_enc.
      change (len [len gtrid]) with 1. change (len [len bqual]) with 1. lia. }
    rewrite G1. destruct (wput_nocrc_ok w3 (gtrid ++ bqual)) as (w4 & K1 & K2 & K3).
    { unfold room in *. rewrite G2, F2, E2, G3, F3, E3, !len_app, len_le_enc.
      change (len [len gtrid]) with 1. change (len [len bqual]) with 1. lia. }
    exists w4. split; auto. split; [congruence|].
    rewrite K3, G3, F3, E3, <- !app_assoc. reflexivity.
  - rewrite len_app, len_le_enc in R.
    assert (Hl : len (concat (map (le_enc 4) l)) = 4 * N.of_nat (length l)).
    { clear. induction l as [|a l IH]; [reflexivity|]. cbn [map concat length].
      rewrite len_app, IH, len_le_enc. lia. }
    unfold wbuf_nocrc_uint.
    destruct (wput_nocrc_ok w (le_enc 4 (N.of_nat (length l)))) as (w1 & E1 & E2 & E3).
    { unfold room in *. rewrite len_le_enc. lia. }
    rewrite E1. destruct (put_nums_ok l w1) as (w2 & F1 & F2 & F3).
    { unfold room in *. rewrite E2, E3, len_app, len_le_enc. lia. }
    exists w2. split; auto. split; [congruence|]. rewrite F3, E3, <- app_assoc. reflexivity.
  - apply wbuf_nocrc_bytes_ok. rewrite len_app, len_le_enc in R. exact R.
Qed.
Lemma put_fields_ok ts vs : Forall2 field_ok ts vs -> forall w, room w (len (fields_bytes ts vs)) ->
  exists w', put_fields w ts vs = Some w' /\ w_size w' = w_size w /\
             w_out w' = w_out w ++ fields_bytes ts vs.
Proof.
  induction 1 as [|t v ts vs H Hs IH]; intros w R; cbn [put_fields].
  - exists w. split; [reflexivity|]. split; [reflexivity|]. symmetry. apply app_nil_r.
  - rewrite fields_cons in *. rewrite len_app in R.
    destruct (put_field_ok t v w H) as (w1 & E1 & E2 & E3); [unfold room in *; lia|].
    rewrite E1. destruct (IH w1) as (w2 & F1 & F2 & F3).
    { unfold room in *. rewrite E2, E3, len_app. lia. }
    exists w2. split; auto. split; [congruence|]. rewrite F3, E3, <- app_assoc. reflexivity.
Qed.

Lemma log_write_ok e : entry_ok e -> log_write e = Some (rec_bytes e).
Proof.
  intros (ts & H & F & L & B). unfold log_write, rec_bytes. rewrite H, logsizes_ok by auto.
  replace (4 + 1 + 8 + len (fields_bytes ts (e_vals e)) + 8) with (rec_len ts e) by (unfold rec_len; lia).
  rewrite (N.mod_small (rec_len ts e)) by lia.
  set (w0 := wbuf_init (rec_len ts e)).
  assert (S0 : w_size w0 = rec_len ts e) by (unfold w0, wbuf_init; cbn [w_size]; apply N.mod_small; lia).
  assert (O0 : w_out w0 = []) by reflexivity.
  pose proof (len_rec_head ts e) as LH.
  assert (LF : rec_len ts e = 21 + len (fields_bytes ts (e_vals e))) by reflexivity.
  unfold wbuf_nocrc_uint, wbuf_nocrc_char.
  destruct (wput_nocrc_ok w0 (le_enc 4 (rec_len ts e))) as (w1 & E1 & E2 & E3).
  { unfold room. rewrite len_le_enc, O0, S0. change (len []) with 0. lia. }
  rewrite E1. rewrite O0 in E3. cbn [app] in E3.
  destruct (wput_nocrc_ok w1 [e_cmd e]) as (w2 & F1 & F2 & F3).
  { unfold room. rewrite E2, S0, E3, len_le_enc. change (len [e_cmd e]) with 1. lia. }
  rewrite F1. destruct (wbuf_nocrc_ull_ok w2 (e_lsn e)) as (w3 & G1 & G2 & G3).
  { unfold room. rewrite F2, E2, S0, F3, E3, len_app, len_le_enc. change (len [e_cmd e]) with 1. lia. }
  rewrite G1. rewrite <- b8_ull in G3 by auto.
  destruct (put_fields_ok ts (e_vals e) F w3) as (w4 & K1 & K2 & K3).
  { unfold room. rewrite G2, F2, E2, S0, G3, F3, E3, !len_app, len_le_enc, len_b8.
    change (len [e_cmd e]) with 1. lia. }
  rewrite K1.
  assert (O4 : w_out w4 = rec_head ts e).
  { rewrite K3, G3, F3, E3. unfold rec_head. rewrite <- !app_assoc. reflexivity. }
  assert (S4 : w_size w4 = rec_len ts e) by congruence.
  rewrite O4. unfold x1764_memory_int. rewrite N.mod_small by lia.
  destruct (N.ltb_spec (len (rec_head ts e)) (2 ^ 31)); [|lia].
  rewrite N.leb_refl. unfold len at 1. rewrite Nat2N.id, firstn_all.
  rewrite x1764_memory_simple_eq, x1764_memory_simple_ok by (now apply rec_head_ok).
  destruct (wput_nocrc_ok w4 (le_enc 4 (checksum_spec (rec_head ts e)))) as (w5 & P1 & P2 & P3).
  { unfold room. rewrite len_le_enc, O4, S4. lia. }
  rewrite P1. destruct (wput_nocrc_ok w5 (le_enc 4 (rec_len ts e))) as (w6 & Q1 & Q2 & Q3).
  { unfold room. rewrite len_le_enc, P2, S4, P3, O4, len_app, len_le_enc. lia. }
  rewrite Q1, Q3, P3, O4. rewrite !len_app, !len_le_enc.
  destruct (N.eqb_spec (len (rec_head ts e) + N.of_nat 4 + N.of_nat 4) (rec_len ts e)); [|lia].
  rewrite <- app_assoc. reflexivity.
Qed.

(** * Reading backward *)
Lemma skipn_len a b : skipn (N.to_nat (len a)) (a ++ b) = b.
Proof. unfold len. rewrite Nat2N.id. rewrite skipn_app, skipn_all, Nat.sub_diag. reflexivity. Qed.

Lemma backward_rec pre e post : entry_ok e -> 12 <= len pre ->
  log_fread_backward (pre ++ rec_bytes e ++ post) (len pre + len (rec_bytes e)) = BOk e (len pre).
Proof.
  intros H P. pose proof H as (ts & Hc & F & L & B). pose proof (len_rec_bytes e ts Hc) as LR.
  assert (21 <= rec_len ts e) by (unfold rec_len; lia).
  unfold log_fread_backward. destruct (N.leb_spec (len pre + len (rec_bytes e)) 12); [lia|].
  assert (E : exists mid, rec_bytes e = mid ++ le_enc 4 (rec_len ts e)).
  { unfold rec_bytes. rewrite Hc. rewrite app_assoc. eauto. }
  destruct E as (mid & E).
  assert (S : skipn (N.to_nat (len pre + len (rec_bytes e) - 4)) (pre ++ rec_bytes e ++ post)
              = le_enc 4 (rec_len ts e) ++ post).
  { rewrite E. replace (len pre + len (mid ++ le_enc 4 (rec_len ts e)) - 4) with (len (pre ++ mid))
      by (rewrite !len_app, len_le_enc; lia).
    rewrite <- app_assoc, app_assoc. apply skipn_len. }
  rewrite S. destruct (reads_u32_nocrc (mkR x1764_init 0) (rec_len ts e)) as [R1 _]; [lia|].
  rewrite R1. unfold back_disp. destruct (N.leb_spec (rec_len ts e) (2 ^ 31)); [|lia].
  replace (Z.of_N (len pre + len (rec_bytes e)) + - Z.of_N (rec_len ts e))%Z with (Z.of_N (len pre)) by lia.
  destruct (Z.ltb_spec (Z.of_N (len pre)) 0); [lia|].
  destruct (Z.ltb_spec (Z.of_N (len (pre ++ rec_bytes e ++ post))) (Z.of_N (len pre))).
  { rewrite len_app in *. lia. }
  rewrite <- Z_N_nat, N2Z.id. rewrite skipn_len, log_fread_rec by auto.
  rewrite !len_app. replace (len pre + (len (rec_bytes e) + len post) - len post)
    with (len pre + len (rec_bytes e)) by lia.
  rewrite N.eqb_refl. reflexivity.
Qed.
