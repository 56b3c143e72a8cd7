(** The invariant of a dictionary file: where the contents of each snapshot are on disk. *)
From Verif Require Import Base Bytes MhsModel MhsHoles BlkAllocModel BlkAllocProofs BlkTableModel BlkTableProofs
  LeCodecProofs X1764Spec TransCodecModel TransCodecProofs BlkTableInv BlkTableOpen FtDiskModel FtDiskSpec.
Open Scope N_scope.

(** * Bytes *)
Lemma in_range_iff off n x : in_range off n x = true <-> off <= x < off + n.
Proof. unfold in_range. rewrite andb_true_iff, N.leb_le, N.ltb_lt. tauto. Qed.
Lemma pread_len d off n : len (pread d off n) = n.
Proof. unfold pread, len. rewrite map_length, seq_length. lia. Qed.
Lemma pread_ext d d' off n : (forall x, off <= x < off + n -> d x = d' x) -> pread d off n = pread d' off n.
Proof.
  intros H. unfold pread. apply map_ext_in. intros k Hk. apply in_seq in Hk. apply H. lia.
Qed.
Lemma nth_map_seq (f : nat -> N) n : forall k, (k < n)%nat -> nth k (map f (seq 0 n)) 0 = f k.
Proof.
  intros k Hk. rewrite nth_indep with (d' := f 0%nat) by (rewrite map_length, seq_length; auto).
  rewrite map_nth, seq_nth; auto.
Qed.
Lemma pread_put d off bs n : n <= len bs -> pread (put_bytes d off bs) off n = firstn (N.to_nat n) bs.
Proof.
  unfold len. intros H. apply nth_ext with (d := 0) (d' := 0).
  - unfold pread. rewrite map_length, seq_length, firstn_length. lia.
  - intros k Hk. unfold pread in Hk. rewrite map_length, seq_length in Hk. unfold pread. rewrite nth_map_seq by auto.
    unfold put_bytes. assert (E : in_range off (len bs) (off + N.of_nat k) = true) by (apply in_range_iff; unfold len; lia).
    rewrite E. replace (N.to_nat (off + N.of_nat k - off)) with k by lia.
    rewrite <- (firstn_skipn (N.to_nat n) bs) at 1. rewrite app_nth1; auto. rewrite firstn_length. lia.
Qed.
Lemma put_other d off bs x : ~ (off <= x < off + len bs) -> put_bytes d off bs x = d x.
Proof.
  intros H. unfold put_bytes. destruct (in_range off (len bs) x) eqn:E; auto. apply in_range_iff in E. contradiction.
Qed.

Definition pread_e (d : N -> N) (e : ext) : bytes := pread d (fst e) (snd e).

(** A padded write stays clear of the other extents. *)
Lemma roundup_4096 e f x : fst e mod 4096 = 0 -> fst f mod 4096 = 0 -> 0 < snd e -> 0 < snd f -> disj e f ->
  fst e <= x < fst e + roundup 512 (snd e) -> ~ in_ext x f.
Proof.
  unfold disj, in_ext, ext_end, roundup. intros He Hf Pe Pf [D|D] Hx C; [|lia].
  pose proof (N.div_mod (fst e) 4096 ltac:(lia)) as Q1. pose proof (N.div_mod (fst f) 4096 ltac:(lia)) as Q2.
  rewrite He in Q1. rewrite Hf in Q2. pose proof (N.div_mod (snd e + 512 - 1) 512 ltac:(lia)) as Q3.
  pose proof (N.mod_lt (snd e + 512 - 1) 512 ltac:(lia)).
  set (a := fst e / 4096) in *. set (b := fst f / 4096) in *. set (c := (snd e + 512 - 1) / 512) in *. lia.
Qed.
Lemma pad_len d : len (pad d) = roundup 512 (len d).
Proof.
  unfold pad. rewrite len_app. unfold len at 2. rewrite repeat_length, N2Nat.id.
  pose proof (roundup_bound 512 (len d) ltac:(lia)). lia.
Qed.
Lemma pad_first d : firstn (length d) (pad d) = d.
Proof. unfold pad. rewrite firstn_app, firstn_all, Nat.sub_diag. cbn. apply app_nil_r. Qed.

(** * Images *)
Definition at_out (l : list out) (i : nat) (e : ext) (d : bytes) : Prop :=
  exists o, In o l /\ o_blk o = i /\ o_off o = fst e /\ o_data o = d.
Definition no_at (l : list out) (i : nat) (e : ext) : Prop :=
  forall o, In o l -> o_blk o = i -> o_off o <> fst e.
(** The blocks of [t] have the contents [m], on disk or in a write under way. *)
Definition img_ok (disk : N -> N) (l : list out) (t : trans) (m : nat -> option bytes) : Prop :=
  forall i, (2 <= i)%nat ->
  match refs t i with
  | None => m i = None
  | Some e => exists d, m i = Some d /\ (at_out l i e d \/ (no_at l i e /\ pread_e disk e = d))
  end.
Definition no_out (l : list out) (t : trans) : Prop :=
  forall o, In o l -> refs t (o_blk o) <> Some (o_off o, len (o_data o)).
Definition clean (touch : N -> bool) (t : trans) : Prop :=
  forall i e x, refs t i = Some e -> in_ext x e -> touch x = false.
Definition outs_ok (l : list out) (cur : trans) : Prop :=
  NoDup (map o_blk l) /\ forall o, In o l -> (2 <= o_blk o)%nat /\ refs cur (o_blk o) = Some (o_off o, len (o_data o)).

(** The translation named by header [h] is on disk and is [t]. *)
Record hdr_ok (disk : N -> N) (t : trans) (h : hdr) : Prop := {
  ho_ref : refs t 1 = Some (hd_toff h, hd_tsize h);
  ho_ser : ser_ok t (hd_toff h);
  ho_small : (t_snub t < 2 ^ 27 - 1)%Z;
  ho_size : hd_tsize h = 20 + 16 * Z.to_N (t_snub t);
  ho_disk : pread disk (hd_toff h) (hd_tsize h) = body t ++ le_enc 4 (checksum_spec (body t)) }.

Definition cp_count (f : fts) : N := match f_phase f with PDone => f_count f - 1 | _ => f_count f end.
(** The other slot: nothing, the previous checkpoint, or a checkpoint that was not accepted. *)
Definition other_ok (c : N) (x : option hdr) : Prop :=
  match x with None => True | Some h => hd_count h + 1 = c \/ hd_count h = c + 1 end.

Definition late (p : phase) : bool := match p with PTrans | PSynced | PHdr | PDone => true | _ => false end.
Definition synced (p : phase) : bool := match p with PSynced | PHdr | PDone => true | _ => false end.
Definition written (p : phase) : bool := match p with PHdr | PDone => true | _ => false end.

Definition dirty_of (f : fts) : bool :=
  match f_phase f with PIdle => h_dirty (f_bt f) | _ => ch_dirty (f_bt f) end.
Definition ihdr (f : fts) (ip : trans) (h : hdr) : Prop :=
  hd_count h = cp_count f + 1 /\ hd_lsn h = f_ilsn f /\ hd_user h = f_iuser f /\ hdr_ok (f_disk f) ip h.

Record finv (sm : Prop) (A : owned) (f : fts) (a : spec) : Prop := {
  fi_bt : bt_inv sm A (f_bt f);
  fi_dirty : dirty_inv (f_bt f);
  fi_idle : f_phase f = PIdle <-> b_ip (f_bt f) = None;
  fi_skip : f_phase f <> PIdle -> b_skip (f_bt f) = match f_phase f with PSkip => true | _ => false end;
  fi_out : outs_ok (f_out f) (b_cur (f_bt f));
  fi_cur : img_ok (f_disk f) (f_out f) (b_cur (f_bt f)) (fst (s_cur a));
  fi_user : snd (s_cur a) = f_user f;
  fi_noip : f_phase f = PIdle -> s_ip a = None;
  fi_ip : forall ip, b_ip (f_bt f) = Some ip -> exists m, s_ip a = Some (m, f_iuser f) /\
    img_ok (f_disk f) (f_out f) ip m /\ s_lsn a = f_ilsn f;
  fi_pend : forall ip b, f_phase f = PStarted -> b_ip (f_bt f) = Some ip -> f_pend f b = true ->
    (3 <= b < snub ip)%nat /\ ent ip b = ent (b_cur (f_bt f)) b /\ exists q, ent ip b = Some q /\ ~ is_free q;
  fi_late : forall ip, b_ip (f_bt f) = Some ip -> late (f_phase f) = true -> no_out (f_out f) ip /\
    exists off, ser_ok ip off /\ refs ip 1 = Some (off, 20 + 16 * Z.to_N (t_snub ip)) /\ (t_snub ip < 2 ^ 27 - 1)%Z /\
      pread (f_disk f) off (20 + 16 * Z.to_N (t_snub ip)) = body ip ++ le_enc 4 (checksum_spec (body ip));
  fi_early : forall ip, b_ip (f_bt f) = Some ip -> late (f_phase f) = false -> refs ip 1 = None;
  fi_sync : forall ip, b_ip (f_bt f) = Some ip -> synced (f_phase f) = true -> clean (f_touch f) ip;
  fi_cp : no_out (f_out f) (b_cp (f_bt f)) /\ clean (f_touch f) (b_cp (f_bt f));
  fi_cpimg : match s_cp a with
    | Some (m, u) => img_ok (f_disk f) [] (b_cp (f_bt f)) m /\
        exists h, f_slot f (slot_of (cp_count f)) = Some h /\ hd_count h = cp_count f /\ hd_user h = u /\
          hdr_ok (f_disk f) (b_cp (f_bt f)) h /\
          (dirty_of f = false -> f_phase f = PIdle -> f_user f = u) /\
          (f_phase f <> PIdle -> ch_dirty (f_bt f) = false -> f_iuser f = u) /\
          (f_phase f = PSkip -> f_iuser f = u)
    | None => cp_count f = 0 /\ f_slot f (slot_of (cp_count f)) = None /\ dirty_of f = true /\ f_phase f <> PSkip
    end;
  fi_userd : f_phase f <> PIdle -> h_dirty (f_bt f) = false -> f_user f = f_iuser f;
  fi_h : s_h a = match f_phase f with PHdr => HMaybe | PDone => HDurable | _ => HNone end;
  fi_new : forall ip, b_ip (f_bt f) = Some ip -> written (f_phase f) = true ->
    exists h, f_slot f (slot_of (cp_count f + 1)) = Some h /\ ihdr f ip h;
  fi_other : written (f_phase f) = false -> other_ok (f_count f) (f_slot f (slot_of (f_count f + 1)));
  fi_old : f_phase f = PHdr -> other_ok (f_count f) (f_old f);
  fi_none : s_cp a = None -> match f_phase f with
    | PDone => True | PHdr => f_old f = None | _ => f_slot f (slot_of (f_count f + 1)) = None end;
  fi_cnt : f_phase f = PDone -> 0 < f_count f }.

(** * Which operations are allowed when *)
Definition in_use (f : fts) (b : nat) : Prop :=
  (3 <= b < snub (b_cur (f_bt f)))%nat /\ exists p, ent (b_cur (f_bt f)) b = Some p /\ ~ is_free p.
Definition idle_blk (f : fts) (b : nat) : Prop := ~ In b (map o_blk (f_out f)).
Definition room_for (f : fts) (n : N) : Prop :=
  exists L, ba_limit (b_ba (f_bt f)) = Some L /\ L + 4096 + n <= 2 ^ 63.
Definition ghost (c : N) (x : option hdr) (max : N) : Prop :=
  forall h, x = Some h -> hd_count h = c + 1 -> max < hd_lsn h.

Definition legal (sm : Prop) (f : fts) (o : op) : Prop :=
  match o with
  | OAlloc => sm -> t_head (b_cur (f_bt f)) <> freelist_null \/ (t_snub (b_cur (f_bt f)) < 8192)%Z
  | OFree b ck => in_use f b /\ idle_blk f b /\ (ck = true -> f_phase f = PStarted /\ f_pend f b = true)
  | OWrite b d ck => in_use f b /\ idle_blk f b /\ 0 < len d /\ room_for f (len d) /\
      (ck = true -> f_phase f = PStarted /\ f_pend f b = true)
  | ODesc d => idle_blk f 2 /\ 0 < len d /\ room_for f (len d)
  | OTrans => forall ip, b_ip (f_bt f) = Some ip -> ch_dirty (f_bt f) = true ->
      no_out (f_out f) ip /\ (t_snub ip < 2 ^ 27 - 1)%Z /\ room_for f (Z.to_N (size_on_disk ip))
  | OCrash _ _ max =>
      (forall h, f_slot f (slot_of (cp_count f)) = Some h -> hd_lsn h <= max) /\
      match f_phase f with
      | PDone => True
      | PHdr => ghost (f_count f) (f_old f) max
      | _ => ghost (f_count f) (f_slot f (slot_of (f_count f + 1))) max
      end
  | _ => True
  end.
