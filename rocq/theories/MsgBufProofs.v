(** The buffer's memory: entries are found at their offsets; the wire format. *)
From Verif Require Import Base Bytes X1764Model WbufModel WbufProofs XidsModel XidsProofs MsgBufModel MsgBufSpec.
Open Scope N_scope.

Definition enc (e : entry) : bytes := entry_bytes (fst e) (snd e).
Definition memof (es : list entry) : bytes := concat (map enc es).
Definition off (es : list entry) (i : nat) : N := len (memof (firstn i es)).

(** ** Reading at an offset *)
Lemma rd_app pre x post : rd (pre ++ x ++ post) (len pre) (len x) = Some x.
Proof.
  unfold rd. rewrite !len_app. destruct (N.leb_spec (len pre + len x) (len pre + (len x + len post))); [|lia].
  unfold len. rewrite !Nat2N.id, skipn_app_exact, firstn_app_exact. reflexivity.
Qed.
Lemma rd_field pre l1 x l2 post :
  rd (pre ++ concat (l1 ++ x :: l2) ++ post) (len pre + len (concat l1)) (len x) = Some x.
Proof.
  rewrite concat_app. cbn [concat]. replace (pre ++ (concat l1 ++ x ++ concat l2) ++ post)
    with ((pre ++ concat l1) ++ x ++ (concat l2 ++ post)) by (now rewrite !app_assoc).
  rewrite <- len_app. apply rd_app.
Qed.

Definition ids8 (x : xids) : bytes := concat (map (le_enc 8) (firstn (N.to_nat (x_num x)) (x_ids x))).
Definition fields (m : msg) (f : bool) : list bytes :=
  [le_enc 4 (len (m_key m)); le_enc 4 (len (m_val m)); [m_type m mod 256]; [if f then 1 else 0];
   le_enc 8 (m_msn m); [x_num (m_xids m)]; ids8 (m_xids m); m_key m; m_val m].
Lemma entry_fields m f : entry_bytes m f = concat (fields m f).
Proof. unfold entry_bytes, fields. cbn [concat]. rewrite app_nil_r. reflexivity. Qed.
Lemma len_ids8 x : xids_ok x -> len (ids8 x) = 8 * x_num x.
Proof.
  intros OK. unfold ids8. rewrite xids_full by auto. destruct OK as (E & _). rewrite <- E. clear E.
  induction (x_ids x); cbn [map concat length]; [reflexivity|]. rewrite len_app, len_le_enc, IHl. lia.
Qed.
Lemma len_entry m f : msg_ok m -> len (entry_bytes m f) = memsize_in_buffer m.
Proof.
  intros (_ & _ & _ & X & _). change (xids_ok (m_xids m)) in X. rewrite entry_fields. unfold fields. cbn [concat].
  rewrite !len_app, !len_le_enc, len_ids8 by auto. unfold memsize_in_buffer, xids_size, sizeof_buffer_entry.
  change (len [m_type m mod 256]) with 1. change (len [if f then 1 else 0]) with 1. change (len [x_num (m_xids m)]) with 1.
  change (len []) with 0. lia.
Qed.
Lemma memsize_pos m : 1 <= memsize_in_buffer m.
Proof. unfold memsize_in_buffer, sizeof_buffer_entry, xids_size. lia. Qed.
Lemma words8_ok l r : Forall (fun i => i < 2 ^ 64) l -> words8 (length l) (concat (map (le_enc 8) l) ++ r) = l.
Proof.
  induction 1; cbn [length words8 map concat]; auto. rewrite <- app_assoc.
  pose proof (le_enc_length 8 x) as L.
  replace (firstn 8 (le_enc 8 x ++ concat (map (le_enc 8) l) ++ r)) with (le_enc 8 x).
  2:{ symmetry. etransitivity; [|exact (firstn_app_exact (le_enc 8 x) (concat (map (le_enc 8) l) ++ r))]. now rewrite L. }
  replace (skipn 8 (le_enc 8 x ++ concat (map (le_enc 8) l) ++ r)) with (concat (map (le_enc 8) l) ++ r).
  2:{ symmetry. etransitivity; [|exact (skipn_app_exact (le_enc 8 x) (concat (map (le_enc 8) l) ++ r))]. now rewrite L. }
  rewrite le_val_enc_small by assumption. now rewrite IHForall.
Qed.
Lemma one_byte b : le_val [b] = b.
Proof. cbn [le_val]. lia. Qed.

Ltac field pre m f post l1 x l2 :=
  let H := fresh "F" in
  pose proof (rd_field pre l1 x l2 post) as H; change (l1 ++ x :: l2) with (fields m f) in H.

Lemma get_message_at pre m f post : msg_ok m -> get_message (pre ++ entry_bytes m f ++ post) (len pre) = Some m.
Proof.
  intros (T & _ & MS & X & K & V). change (xids_ok (m_xids m)) in X. rewrite entry_fields.
  set (a1 := le_enc 4 (len (m_key m))). set (a2 := le_enc 4 (len (m_val m))). set (a3 := [m_type m mod 256]).
  set (a4 := [if f then 1 else 0]). set (a5 := le_enc 8 (m_msn m)). set (a6 := [x_num (m_xids m)]). set (a7 := ids8 (m_xids m)).
  field pre m f post ([] : list bytes) a1 [a2; a3; a4; a5; a6; a7; m_key m; m_val m].
  field pre m f post [a1] a2 [a3; a4; a5; a6; a7; m_key m; m_val m].
  field pre m f post [a1; a2] a3 [a4; a5; a6; a7; m_key m; m_val m].
  field pre m f post [a1; a2; a3; a4] a5 [a6; a7; m_key m; m_val m].
  field pre m f post [a1; a2; a3; a4; a5] a6 [a7; m_key m; m_val m].
  field pre m f post [a1; a2; a3; a4; a5; a6] a7 [m_key m; m_val m].
  field pre m f post [a1; a2; a3; a4; a5; a6; a7] (m_key m) [m_val m].
  field pre m f post [a1; a2; a3; a4; a5; a6; a7; m_key m] (m_val m) ([] : list bytes).
  cbn [concat] in *. rewrite !app_nil_r, ?len_app in *.
  assert (L1 : len a1 = 4) by apply len_le_enc. assert (L2 : len a2 = 4) by apply len_le_enc.
  assert (L3 : len a3 = 1) by reflexivity. assert (L4 : len a4 = 1) by reflexivity.
  assert (L5 : len a5 = 8) by apply len_le_enc. assert (L6 : len a6 = 1) by reflexivity.
  assert (L7 : len a7 = 8 * x_num (m_xids m)) by (apply len_ids8; auto).
  assert (LV1 : le_val a1 = len (m_key m)) by (apply le_val_enc_small; exact K).
  assert (LV2 : le_val a2 = len (m_val m)) by (apply le_val_enc_small; exact V).
  rewrite L1, ?L2, ?L3, ?L4, ?L5, ?L6, ?L7 in *. change (len []) with 0 in *. rewrite N.add_0_r in F.
  unfold get_message. rewrite F, F0.
  replace (len pre + 8) with (len pre + (4 + 4)) by lia. rewrite F1.
  replace (len pre + 10) with (len pre + (4 + (4 + (1 + 1)))) by lia. rewrite F2.
  replace (len pre + 18) with (len pre + (4 + (4 + (1 + (1 + 8))))) by lia. rewrite F3.
  cbv zeta. unfold a6 at 1 2 3 4 5. rewrite one_byte.
  replace (len pre + 19) with (len pre + (4 + (4 + (1 + (1 + (8 + 1)))))) by lia. rewrite F4.
  rewrite LV1, LV2.
  replace (len pre + (4 + (4 + (1 + (1 + (8 + 1))))) + 8 * x_num (m_xids m))
    with (len pre + (4 + (4 + (1 + (1 + (8 + (1 + 8 * x_num (m_xids m)))))))) by lia. rewrite F5.
  replace (len pre + (4 + (4 + (1 + (1 + (8 + (1 + 8 * x_num (m_xids m))))))) + len (m_key m))
    with (len pre + (4 + (4 + (1 + (1 + (8 + (1 + (8 * x_num (m_xids m) + len (m_key m))))))))) by lia. rewrite F6.
  f_equal. unfold a3, a5. rewrite one_byte, N.mod_small by auto. rewrite le_val_enc_small by exact MS.
  unfold a7, ids8. rewrite xids_full by auto. destruct X as (XE & _ & XF). rewrite <- XE, Nat2N.id.
  pose proof (words8_ok (x_ids (m_xids m)) [] XF) as W. rewrite app_nil_r in W. rewrite W, XE.
  destruct m as [? ? [] ? ?]; reflexivity.
Qed.
Lemma get_key_msn_at pre m f post : msg_ok m ->
  get_key_msn (pre ++ entry_bytes m f ++ post) (len pre) = Some (m_key m, m_msn m).
Proof.
  intros OK. pose proof (get_message_at pre m f post OK) as G. unfold get_message, get_key_msn in *.
  destruct (rd (pre ++ entry_bytes m f ++ post) (len pre) 4) as [kl|]; [|discriminate].
  destruct (rd (pre ++ entry_bytes m f ++ post) (len pre + 4) 4) as [vl|]; [|discriminate].
  destruct (rd (pre ++ entry_bytes m f ++ post) (len pre + 8) 1) as [t|]; [|discriminate].
  destruct (rd (pre ++ entry_bytes m f ++ post) (len pre + 10) 8) as [n|]; [|discriminate].
  destruct (rd (pre ++ entry_bytes m f ++ post) (len pre + 18) 1) as [c|]; [|discriminate].
  cbv zeta in G.
  destruct (rd (pre ++ entry_bytes m f ++ post) (len pre + 19) (8 * le_val c)) as [ids|]; [|discriminate].
  destruct (rd (pre ++ entry_bytes m f ++ post) (len pre + 19 + 8 * le_val c) (le_val kl)) as [k|]; [|discriminate].
  destruct (rd (pre ++ entry_bytes m f ++ post) (len pre + 19 + 8 * le_val c + le_val kl) (le_val vl)) as [v|]; [|discriminate].
  injection G as <-. reflexivity.
Qed.
Lemma get_freshness_at pre m f post : get_freshness (pre ++ entry_bytes m f ++ post) (len pre) = Some f.
Proof.
  rewrite entry_fields. unfold get_freshness.
  set (a1 := le_enc 4 (len (m_key m))). set (a2 := le_enc 4 (len (m_val m))). set (a3 := [m_type m mod 256]).
  set (a4 := [if f then 1 else 0]).
  field pre m f post [a1; a2; a3] a4 [le_enc 8 (m_msn m); [x_num (m_xids m)]; ids8 (m_xids m); m_key m; m_val m].
  assert (L1 : len a1 = 4) by apply len_le_enc. assert (L2 : len a2 = 4) by apply len_le_enc.
  cbn [concat] in F. rewrite app_nil_r, !len_app, L1, L2 in F. change (len a3) with 1 in F. change (len a4) with 1 in F.
  replace (len pre + 9) with (len pre + (4 + (4 + 1))) by lia. rewrite F. unfold a4. rewrite one_byte. destruct f; reflexivity.
Qed.
Lemma split_at (A : Type) (p q r : list A) : firstn (length p) (p ++ q ++ r) = p /\ skipn (length p + length q) (p ++ q ++ r) = r.
Proof.
  split; [apply firstn_app_exact|]. rewrite app_assoc, <- app_length. apply skipn_app_exact.
Qed.
Lemma set_freshness_at pre m f f' post :
  set_freshness (pre ++ entry_bytes m f ++ post) (len pre) f' = Some (pre ++ entry_bytes m f' ++ post).
Proof.
  unfold set_freshness. set (a := le_enc 4 (len (m_key m)) ++ le_enc 4 (len (m_val m)) ++ [m_type m mod 256]).
  set (c := le_enc 8 (m_msn m) ++ [x_num (m_xids m)] ++ ids8 (m_xids m) ++ m_key m ++ m_val m).
  assert (E : forall g, entry_bytes m g = a ++ [if g then 1 else 0] ++ c).
  { intros g. unfold entry_bytes, a, c, ids8. now rewrite <- !app_assoc. }
  assert (LA : len a = 9). { unfold a. rewrite !len_app, !len_le_enc. reflexivity. }
  rewrite !E. rewrite <- !app_assoc. rewrite !len_app. change (len [if f then 1 else 0]) with 1.
  destruct (N.leb_spec (len pre + 10) (len pre + (len a + (1 + (len c + len post))))); [|lia].
  rewrite !(app_assoc pre a).
  destruct (split_at _ (pre ++ a) [if f then 1 else 0] (c ++ post)) as (S1 & S2).
  replace (N.to_nat (len pre + 9)) with (length (pre ++ a)).
  2:{ rewrite <- LA, <- len_app. unfold len. now rewrite Nat2N.id. }
  replace (N.to_nat (len pre + 10)) with (length (pre ++ a) + 1)%nat.
  2:{ replace (len pre + 10) with (len (pre ++ a) + 1) by (rewrite len_app; lia). unfold len. cbn [length]. lia. }
  cbn [length] in S2. now rewrite S1, S2.
Qed.

(** ** Entries by index *)
Lemma memof_app a b : memof (a ++ b) = memof a ++ memof b.
Proof. unfold memof. now rewrite map_app, concat_app. Qed.
Lemma memof_cons e b : memof (e :: b) = enc e ++ memof b.
Proof. reflexivity. Qed.
Lemma memof_one e : memof [e] = enc e.
Proof. unfold memof. cbn [map concat]. apply app_nil_r. Qed.
Lemma memof_at es i e : nth_error es i = Some e ->
  exists post, memof es = memof (firstn i es) ++ enc e ++ post.
Proof.
  intros N. apply nth_error_split in N as (a & b & -> & <-). rewrite firstn_app_exact, memof_app.
  exists (memof b). reflexivity.
Qed.
Definition km (es : list entry) (i : nat) : bytes * N :=
  match nth_error es i with Some (m, _) => (m_key m, m_msn m) | None => ([], 0) end.
Definition oks (es : list entry) : Prop := Forall (fun e => msg_ok (fst e)) es.
Lemma oks_nth es i e : oks es -> nth_error es i = Some e -> msg_ok (fst e).
Proof. intros O N. apply nth_error_In in N. exact (proj1 (Forall_forall _ _) O _ N). Qed.
Lemma get_message_i es i e : oks es -> nth_error es i = Some e -> get_message (memof es) (off es i) = Some (fst e).
Proof. intros O N. destruct (memof_at es i e N) as (post & ->). apply get_message_at. eapply oks_nth; eauto. Qed.
Lemma get_freshness_i es i e : nth_error es i = Some e -> get_freshness (memof es) (off es i) = Some (snd e).
Proof. intros N. destruct (memof_at es i e N) as (post & ->). apply get_freshness_at. Qed.
Lemma get_key_msn_i es i : oks es -> (i < length es)%nat -> get_key_msn (memof es) (off es i) = Some (km es i).
Proof.
  intros O L. destruct (nth_error es i) as [[m f]|] eqn:N; [|apply nth_error_None in N; lia].
  destruct (memof_at es i _ N) as (post & ->). unfold km. rewrite N. apply get_key_msn_at.
  exact (oks_nth _ _ _ O N).
Qed.
Lemma off_app a b i : (i <= length a)%nat -> off (a ++ b) i = off a i.
Proof. intros L. unfold off. rewrite firstn_app. replace (i - length a)%nat with 0%nat by lia. cbn [firstn]. now rewrite app_nil_r. Qed.
Lemma off_end a : off a (length a) = len (memof a).
Proof. unfold off. now rewrite firstn_all. Qed.
Lemma km_app a b i : (i < length a)%nat -> km (a ++ b) i = km a i.
Proof. intros L. unfold km. now rewrite nth_error_app1. Qed.

(** ** Iteration *)
Lemma iterate_from_ok a b fuel : oks (a ++ b) -> (length b <= fuel)%nat ->
  iterate_from fuel (memof (a ++ b)) (len (memof a)) = Some b.
Proof.
  revert a fuel. induction b as [|e b IH]; intros a fuel O L.
  { rewrite app_nil_r. destruct fuel; cbn [iterate_from]; rewrite N.ltb_irrefl; reflexivity. }
  destruct fuel as [|fuel]; [cbn in L; lia|]. cbn [iterate_from].
  assert (NE : nth_error (a ++ e :: b) (length a) = Some e) by (rewrite nth_error_app2, Nat.sub_diag; auto).
  assert (OE : msg_ok (fst e)) by exact (oks_nth _ _ _ O NE).
  assert (OF : len (memof a) = off (a ++ e :: b) (length a)) by (rewrite off_app, off_end; auto).
  assert (LE : len (enc e) = memsize_in_buffer (fst e)) by (apply len_entry; auto).
  destruct (N.ltb_spec (len (memof a)) (len (memof (a ++ e :: b)))) as [_|H].
  2:{ exfalso. rewrite memof_app, len_app, memof_cons, len_app, LE in H.
      pose proof (memsize_pos (fst e)). lia. }
  rewrite OF, (get_message_i _ _ _ O NE), (get_freshness_i _ _ _ NE), <- OF.
  replace (len (memof a) + memsize_in_buffer (fst e)) with (len (memof (a ++ [e]))).
  2:{ rewrite memof_app, len_app, memof_one, LE. reflexivity. }
  replace (a ++ e :: b) with ((a ++ [e]) ++ b) in * by (now rewrite <- app_assoc).
  rewrite IH by (auto; cbn in L; lia). destruct e; reflexivity.
Qed.
Lemma length_memof es : oks es -> (length es <= length (memof es))%nat.
Proof.
  induction 1 as [|e l H _ IH]; cbn [length]; auto. unfold memof in *. cbn [map concat]. rewrite app_length.
  pose proof (len_entry (fst e) (snd e) H) as L. pose proof (memsize_pos (fst e)). unfold enc, len in *. lia.
Qed.
Lemma iterate_ok n es z : oks es -> iterate (mkBuf n (memof es) z) = Some es.
Proof.
  intros O. unfold iterate. cbn [b_mem]. apply (iterate_from_ok [] es); auto. apply length_memof, O.
Qed.

(** ** Enqueue *)
Lemma pow2_loop_ok fuel r n : n <= 2 ^ 30 -> 2 ^ 30 <= r * 2 ^ N.of_nat fuel ->
  exists p, pow2_loop fuel r n = Some p.
Proof.
  intros L. revert r. induction fuel as [|f IH]; intros r B; cbn [pow2_loop].
  - assert (n <= r) by (cbn in B; lia). destruct (N.ltb_spec r n); [lia|]. eauto.
  - destruct (N.ltb_spec r n); [|eauto].
    assert (P : 2 ^ 31 = 2 * 2 ^ 30) by reflexivity. destruct (N.leb_spec (2 ^ 31) (r * 2)); [lia|].
    apply IH. rewrite Nat2N.inj_succ, N.pow_succ_r' in B. lia.
Qed.
Lemma enqueue_ok n es z m f : oks es -> msg_ok m -> len (memof es) + memsize_in_buffer m <= 2 ^ 30 ->
  exists z', enqueue (mkBuf n (memof es) z) m f = Some (mkBuf (n + 1) (memof (es ++ [(m, f)])) z', off (es ++ [(m, f)]) (length es)).
Proof.
  intros O OM L. unfold enqueue. cbn [b_mem b_size b_num].
  assert (P : 2 ^ 31 = 2 * 2 ^ 30) by reflexivity.
  assert (P0 : 0 < 2 ^ 30) by reflexivity.
  destruct (N.ltb_spec (len (memof es) + memsize_in_buffer m) (2 ^ 31)); [|lia].
  rewrite off_app, off_end by lia.
  replace (memof (es ++ [(m, f)])) with (memof es ++ entry_bytes m f).
  2:{ rewrite memof_app, memof_one. reflexivity. }
  destruct (z <? Z.of_N (len (memof es) + memsize_in_buffer m))%Z; [|eauto].
  destruct (pow2_loop_ok 32 4096 _ L) as (p & E); [|unfold next_power_of_two; rewrite E; eauto].
  vm_compute. discriminate.
Qed.

(** ** The wire format *)
Definition wenc (e : entry) : bytes :=
  [m_type (fst e)] ++ [if snd e then 1 else 0] ++ ull_enc (m_msn (fst e)) ++ xids_enc (m_xids (fst e)) ++
  bs_enc (m_key (fst e)) ++ bs_enc (m_val (fst e)).
Definition wire (es : list entry) : bytes := concat (map wenc es).
Lemma len_wenc e : msg_ok (fst e) -> len (wenc e) = msg_total_size (fst e).
Proof.
  intros (_ & _ & _ & X & _). unfold wenc, msg_total_size, bs_enc. change (xids_ok (m_xids (fst e))) in X.
  rewrite !len_app, !len_le_enc, len_ull, len_xids by auto.
  change (len [m_type (fst e)]) with 1. change (len [if snd e then 1 else 0]) with 1. lia.
Qed.
Lemma sizes_agree m : msg_total_size m = memsize_in_buffer m.
Proof. unfold msg_total_size, memsize_in_buffer, sizeof_buffer_entry, xids_size, xids_serialize_size. lia. Qed.
Lemma len_wire es : oks es -> len (wire es) = len (memof es).
Proof.
  induction 1 as [|e l H _ IH]; [reflexivity|]. unfold wire, memof in *. cbn [map concat].
  rewrite !len_app, IH, len_wenc, sizes_agree by auto. unfold enc. rewrite len_entry by auto. reflexivity.
Qed.

Lemma wput_room w bs : room w (len bs) ->
  exists w', wput w bs = Some w' /\ w_size w' = w_size w /\ w_out w' = w_out w ++ bs.
Proof.
  unfold room, wput. intros R. destruct (N.leb_spec (len (w_out w) + len bs) (w_size w)); [|lia].
  eexists; split; [reflexivity|]. auto.
Qed.
Lemma wbuf_ull_room w x : room w 8 ->
  exists w', wbuf_ull w x = Some w' /\ w_size w' = w_size w /\ w_out w' = w_out w ++ ull_enc x.
Proof.
  intros R. unfold wbuf_ull, wbuf_uint, room in *.
  destruct (wput_room w (le_enc 4 (x / 2 ^ 32 mod 2 ^ 32))) as (w1 & E1 & E2 & E3).
  { unfold room. rewrite len_le_enc. lia. }
  rewrite E1. destruct (wput_room w1 (le_enc 4 (x mod 2 ^ 32))) as (w2 & F1 & F2 & F3).
  { unfold room. rewrite E2, E3, len_app, !len_le_enc. lia. }
  rewrite F1. exists w2. split; auto. split; [congruence|]. rewrite F3, E3. unfold ull_enc. now rewrite <- app_assoc.
Qed.
Lemma msg_write_ok w e : msg_ok (fst e) -> room w (len (wenc e)) ->
  exists w', msg_write w (fst e) (snd e) = Some w' /\ w_size w' = w_size w /\ w_out w' = w_out w ++ wenc e.
Proof.
  intros OK R. pose proof OK as (_ & _ & _ & X & _). change (xids_ok (m_xids (fst e))) in X.
  rewrite (len_wenc e OK) in R. unfold msg_total_size, room in R. unfold msg_write, wbuf_nocrc_char.
  destruct (wput_nocrc_ok w [m_type (fst e)]) as (w1 & E1 & S1 & O1); [unfold room; change (len [_]) with 1; lia|]. rewrite E1.
  assert (B1 : len (w_out w1) = len (w_out w) + 1) by (rewrite O1, len_app; reflexivity).
  destruct (wput_nocrc_ok w1 [if snd e then 1 else 0]) as (w2 & E2 & S2 & O2).
  { unfold room. rewrite S1, B1. change (len [_]) with 1. lia. } rewrite E2.
  assert (B2 : len (w_out w2) = len (w_out w) + 2) by (rewrite O2, len_app, B1; change (len [_]) with 1; lia).
  destruct (wbuf_ull_room w2 (m_msn (fst e))) as (w3 & E3 & S3 & O3); [unfold room; rewrite S2, S1, B2; lia|]. rewrite E3.
  assert (B3 : len (w_out w3) = len (w_out w) + 10) by (rewrite O3, len_app, B2, len_ull; lia).
  destruct (wbuf_xids_ok w3 (m_xids (fst e)) X) as (w4 & E4 & S4 & O4); [unfold room; rewrite S3, S2, S1, B3; lia|]. rewrite E4.
  assert (B4 : len (w_out w4) = len (w_out w) + 10 + xids_serialize_size (m_xids (fst e))) by (rewrite O4, len_app, B3, len_xids by auto; lia).
  destruct (wbuf_nocrc_bytes_ok w4 (m_key (fst e))) as (w5 & E5 & S5 & O5); [unfold room; rewrite S4, S3, S2, S1, B4; lia|]. rewrite E5.
  assert (B5 : len (w_out w5) = len (w_out w) + 10 + xids_serialize_size (m_xids (fst e)) + (4 + len (m_key (fst e)))).
  { rewrite O5, len_app, B4. unfold bs_enc. rewrite len_app, len_le_enc. lia. }
  destruct (wbuf_nocrc_bytes_ok w5 (m_val (fst e))) as (w6 & E6 & S6 & O6); [unfold room; rewrite S5, S4, S3, S2, S1, B5; lia|].
  exists w6. split; [exact E6|]. split; [congruence|]. rewrite O6, O5, O4, O3, O2, O1. unfold wenc. now rewrite <- !app_assoc.
Qed.
Lemma write_all_ok es w : oks es -> room w (len (wire es)) ->
  exists w', write_all w es = Some w' /\ w_size w' = w_size w /\ w_out w' = w_out w ++ wire es.
Proof.
  intros O. revert w. induction O as [|e l H _ IH]; intros w R.
  { exists w. unfold wire. cbn. rewrite app_nil_r. auto. }
  unfold wire in *. cbn [map concat] in *. destruct e as [m f]. cbn [write_all]. rewrite len_app in R.
  destruct (msg_write_ok w (m, f) H) as (w1 & E1 & S1 & O1); [unfold room in *; lia|]. cbn [fst snd] in E1. rewrite E1.
  destruct (IH w1) as (w2 & E2 & S2 & O2); [unfold room in *; rewrite S1, O1, len_app; lia|].
  exists w2. split; auto. split; [congruence|]. rewrite O2, O1. now rewrite <- app_assoc.
Qed.
Lemma msg_read_ok e r : msg_ok (fst e) -> msg_read (wenc e ++ r) = Some (fst e, snd e, r).
Proof.
  intros (T & _ & MS & X & K & V). change (xids_ok (m_xids (fst e))) in X. unfold wenc, msg_read. rewrite <- !app_assoc.
  cbn [app rbuf_char]. rewrite rbuf_ull_app by auto. rewrite from_buffer_ok by auto. rewrite !rbuf_bytes_app by auto.
  destruct e as [[] []]; reflexivity.
Qed.

(** ** Reading a buffer back *)
Definition cls (e : entry) : class := if once (fst e) then (if snd e then Fresh else Stale) else Bcast.
Definition class_eqb (a b : class) : bool :=
  match a, b with Fresh, Fresh | Stale, Stale | Bcast, Bcast => true | _, _ => false end.
(** The indices of the entries of a class. *)
Definition idx (c : class) (es : list entry) : list nat :=
  filter (fun i => match nth_error es i with Some e => class_eqb (cls e) c | None => false end) (seq 0 (length es)).
Definition offs (es : list entry) : offsets :=
  mkOffs (map (off es) (idx Fresh es)) (map (off es) (idx Stale es)) (map (off es) (idx Bcast es)).
Lemma classify_ok e : msg_ok (fst e) -> classify (m_type (fst e)) (snd e) = Some (cls e).
Proof.
  intros (_ & T & _). unfold classify, cls, once. destruct (applies_once (m_type (fst e))) as [[]|] eqn:A; [reflexivity| |contradiction].
  unfold applies_once in A. unfold applies_all, does_nothing.
  destruct (existsb (N.eqb (m_type (fst e))) [11; 1; 2; 4; 6; 14]) eqn:X; [discriminate|].
  destruct (existsb (N.eqb (m_type (fst e))) [8; 9; 10; 12; 13; 15; 0]) eqn:Y; [|discriminate].
  cbn [existsb] in *. destruct (N.eqb_spec (m_type (fst e)) 0) as [->|]; [reflexivity|].
  cbn [orb]. rewrite X. rewrite !orb_true_iff, orb_false_r in *.
  replace (_ || _) with true; [reflexivity|]. symmetry. rewrite !orb_true_iff. intuition.
Qed.
Lemma filter_ext_In' {A} (f g : A -> bool) l : (forall x, In x l -> f x = g x) -> filter f l = filter g l.
Proof. induction l; cbn; intros H; auto. rewrite H by auto. rewrite IHl; auto. Qed.
Lemma idx_app c es e : idx c (es ++ [e]) = idx c es ++ (if class_eqb (cls e) c then [length es] else []).
Proof.
  unfold idx. rewrite app_length. cbn [length]. rewrite seq_app, filter_app. f_equal.
  - apply filter_ext_In'. intros i I. apply in_seq in I. rewrite nth_error_app1 by lia. reflexivity.
  - cbn [seq filter]. rewrite Nat.add_0_l, nth_error_app2, Nat.sub_diag by lia. cbn [nth_error]. destruct (class_eqb (cls e) c); reflexivity.
Qed.
Lemma idx_lt c es i : In i (idx c es) -> (i < length es)%nat.
Proof. unfold idx. rewrite filter_In, in_seq. lia. Qed.
Lemma map_off_app es e l : (forall i, In i l -> (i < length es)%nat) -> map (off (es ++ [e])) l = map (off es) l.
Proof. intros H. apply map_ext_in. intros i I. apply off_app. specialize (H i I). lia. Qed.
Lemma offs_app es e : offs (es ++ [e]) =
  let o := offs es in let x := off (es ++ [e]) (length es) in
  match cls e with
  | Fresh => mkOffs (o_fresh o ++ [x]) (o_stale o) (o_bcast o)
  | Stale => mkOffs (o_fresh o) (o_stale o ++ [x]) (o_bcast o)
  | Bcast => mkOffs (o_fresh o) (o_stale o) (o_bcast o ++ [x])
  end.
Proof.
  unfold offs. cbv zeta. rewrite !idx_app, !map_app.
  rewrite (map_off_app es e (idx Fresh es)), (map_off_app es e (idx Stale es)), (map_off_app es e (idx Bcast es)) by (intros; eapply idx_lt; eauto).
  cbn [o_fresh o_stale o_bcast]. destruct (cls e); cbn [class_eqb map]; rewrite ?app_nil_r; reflexivity.
Qed.
Lemma read_all_ok a b z r : oks (a ++ b) -> len (memof (a ++ b)) <= 2 ^ 30 ->
  exists z', read_all (length b) (wire b ++ r) (mkBuf (N.of_nat (length a)) (memof a) z) (offs a) =
             Some (mkBuf (N.of_nat (length (a ++ b))) (memof (a ++ b)) z', offs (a ++ b), r).
Proof.
  revert a z. induction b as [|e b IH]; intros a z O L.
  { exists z. rewrite app_nil_r. reflexivity. }
  cbn [length read_all]. unfold wire in *. cbn [map concat]. rewrite <- app_assoc.
  assert (OE : msg_ok (fst e)) by (apply Forall_app in O; destruct O as (_ & O); inversion O; auto).
  assert (OA : oks a) by (apply Forall_app in O; apply O).
  rewrite msg_read_ok, classify_ok by auto.
  assert (LL : len (memof a) + memsize_in_buffer (fst e) <= 2 ^ 30).
  { rewrite memof_app, len_app, memof_cons, len_app in L. unfold enc in L. rewrite len_entry in L by auto. lia. }
  destruct (enqueue_ok (N.of_nat (length a)) a z (fst e) (snd e) OA OE LL) as (z1 & E). rewrite E.
  destruct (IH (a ++ [e]) z1) as (z2 & E2); [rewrite <- app_assoc; auto|rewrite <- app_assoc; auto|].
  exists z2. rewrite <- app_assoc in E2. cbn [app] in E2. rewrite <- E2.
  replace (fst e, snd e) with e by (destruct e; reflexivity).
  rewrite offs_app. cbv zeta. rewrite app_length. cbn [length]. rewrite Nat2N.inj_add. reflexivity.
Qed.
Lemma mbuf_read_ok es rsize r : oks es -> len (memof es) <= 2 ^ 30 ->
  exists z, mbuf_read (le_enc 4 (N.of_nat (length es)) ++ wire es ++ r) rsize =
            Some (mkBuf (N.of_nat (length es)) (memof es) z, offs es, r).
Proof.
  intros O L. unfold mbuf_read. pose proof (length_memof es O) as LM. unfold len in L.
  assert (P : 2 ^ 31 = 2 * 2 ^ 30) by reflexivity. assert (P2 : 2 ^ 32 = 4 * 2 ^ 30) by reflexivity.
  assert (P0 : 0 < 2 ^ 30) by reflexivity.
  rewrite rbuf_int_app by lia. destruct (N.ltb_spec (N.of_nat (length es)) (2 ^ 31)); [|lia].
  rewrite Nat2N.id. destruct (read_all_ok [] es (to_int (rsize + 64)) r O L) as (z & E).
  cbn [app length] in E. change (offs []) with (mkOffs [] [] []) in E. change (memof []) with (@nil N) in E.
  change (N.of_nat 0) with 0 in E. rewrite E. cbn [b_num]. rewrite N.eqb_refl. eauto.
Qed.
Lemma mbuf_write_ok es z w : oks es -> room w (4 + len (wire es)) ->
  exists w', mbuf_write w (mkBuf (N.of_nat (length es)) (memof es) z) = Some w' /\ w_size w' = w_size w /\
             w_out w' = w_out w ++ le_enc 4 (N.of_nat (length es)) ++ wire es.
Proof.
  intros O R. unfold mbuf_write, wbuf_nocrc_uint. cbn [b_num]. unfold room in R.
  destruct (wput_nocrc_ok w (le_enc 4 (N.of_nat (length es)))) as (w1 & E1 & S1 & O1); [unfold room; rewrite len_le_enc; lia|].
  rewrite E1, iterate_ok by auto.
  destruct (write_all_ok es w1 O) as (w2 & E2 & S2 & O2); [unfold room; rewrite S1, O1, len_app, len_le_enc; lia|].
  exists w2. split; auto. split; [congruence|]. now rewrite O2, O1, <- app_assoc.
Qed.
