(** Running the dictionary file model on concrete operations, and a run whose last
    checkpoint cannot be ended. *)
From Coq Require Import List ZArith NArith Lia.
From Verif Require Import Base Bytes X1764Spec MhsModel BlkAllocModel BlkAllocProofs BlkTableModel BlkTableProofs
  TransCodecModel TransCodecProofs BlkTableInv FtDiskModel FtDiskSpec FtDiskInv FtDiskProofs FtDiskRun.
Open Scope N_scope.

(** A decision procedure for [legal]. *)
Definition phase_eqb (a b : phase) : bool :=
  match a, b with
  | PIdle, PIdle | PStarted, PStarted | PTrans, PTrans | PSynced, PSynced | PHdr, PHdr | PDone, PDone | PSkip, PSkip => true
  | _, _ => false
  end.
Definition in_use_b (f : fts) (b : nat) : bool :=
  (3 <=? b)%nat && (b <? snub (b_cur (f_bt f)))%nat &&
  match nth_error (t_arr (b_cur (f_bt f))) b with Some p => negb (p_size p =? size_is_free)%Z | None => false end.
Definition idle_b (f : fts) (b : nat) : bool := negb (existsb (Nat.eqb b) (map o_blk (f_out f))).
Definition room_b (f : fts) (n : N) : bool :=
  match ba_limit (b_ba (f_bt f)) with Some l => l + 4096 + n <=? 2 ^ 63 | None => false end.
Definition ghost_b (c : N) (x : option hdr) (max : N) : bool :=
  match x with Some h => negb (hd_count h =? c + 1) || (max <? hd_lsn h) | None => true end.
Definition legal_b (f : fts) (o : op) : bool :=
  match o with
  | OAlloc => true
  | OFree b ck => in_use_b f b && idle_b f b && (negb ck || (phase_eqb (f_phase f) PStarted && f_pend f b))
  | OWrite b d ck => in_use_b f b && idle_b f b && (0 <? len d) && room_b f (len d) &&
      (negb ck || (phase_eqb (f_phase f) PStarted && f_pend f b))
  | ODesc d => idle_b f 2 && (0 <? len d) && room_b f (len d)
  | OTrans => match b_ip (f_bt f) with
      | Some ip => match f_out f with [] => true | _ => false end && (t_snub ip <? 2 ^ 27 - 1)%Z && room_b f (Z.to_N (size_on_disk ip))
      | None => true
      end
  | OCrash _ _ max =>
      match f_slot f (slot_of (cp_count f)) with Some h => hd_lsn h <=? max | None => true end &&
      match f_phase f with
      | PDone => true
      | PHdr => ghost_b (f_count f) (f_old f) max
      | _ => ghost_b (f_count f) (f_slot f (slot_of (f_count f + 1))) max
      end
  | _ => true
  end.
Lemma phase_eqb_eq a b : phase_eqb a b = true -> a = b.
Proof. destruct a, b; cbn; congruence. Qed.
Lemma in_use_b_ok f b : in_use_b f b = true -> in_use f b.
Proof.
  unfold in_use_b, in_use, ent. intros H. apply andb_true_iff in H. destruct H as (H & H3). apply andb_true_iff in H. destruct H as (H1 & H2).
  apply Nat.leb_le in H1. apply Nat.ltb_lt in H2. split; auto. destruct (nth_error _ b) as [p|]; [|discriminate]. exists p. split; auto.
  unfold is_free. intros C. rewrite C in H3. discriminate.
Qed.
Lemma idle_b_ok f b : idle_b f b = true -> idle_blk f b.
Proof.
  unfold idle_b, idle_blk. intros H C. apply negb_true_iff in H.
  assert (existsb (Nat.eqb b) (map o_blk (f_out f)) = true) by (apply existsb_exists; exists b; split; auto; apply Nat.eqb_refl). congruence.
Qed.
Lemma room_b_ok f n : room_b f n = true -> room_for f n.
Proof. unfold room_b, room_for. destruct (ba_limit _) as [l|]; [|discriminate]. intros H. apply N.leb_le in H. eauto. Qed.
Lemma ghost_b_ok c x max : ghost_b c x max = true -> ghost c x max.
Proof.
  unfold ghost_b, ghost. intros H h -> E. rewrite E, N.eqb_refl in H. cbn in H. now apply N.ltb_lt.
Qed.
Lemma legal_b_ok f o : legal_b f o = true -> legal False f o.
Proof.
  destruct o; cbn [legal_b legal]; auto; intros H; repeat rewrite andb_true_iff in H.
  - destruct H as ((H1 & H2) & H3). split; [now apply in_use_b_ok|]. split; [now apply idle_b_ok|].
    intros ->. cbn in H3. apply andb_true_iff in H3. destruct H3 as (H3 & H4). split; auto. now apply phase_eqb_eq.
  - destruct H as ((((H1 & H2) & H3) & H4) & H5). split; [now apply in_use_b_ok|]. split; [now apply idle_b_ok|].
    split; [now apply N.ltb_lt|]. split; [now apply room_b_ok|].
    intros ->. cbn in H5. apply andb_true_iff in H5. destruct H5 as (H5 & H6). split; auto. now apply phase_eqb_eq.
  - destruct H as ((H1 & H2) & H3). split; [now apply idle_b_ok|]. split; [now apply N.ltb_lt|now apply room_b_ok].
  - intros ip E _. rewrite E in H. rewrite !andb_true_iff in H. destruct H as ((H1 & H2) & H3).
    split; [|split; [now apply Z.ltb_lt|now apply room_b_ok]]. destruct (f_out f); [|discriminate]. intros o [].
  - destruct H as (H1 & H2). split.
    + intros h E. rewrite E in H1. now apply N.leb_le.
    + destruct (f_phase f); auto; now apply ghost_b_ok.
Qed.
Fixpoint run_b (f : fts) (l : list op) : option fts :=
  match l with
  | [] => Some f
  | o :: l' => guard legal_b f o; do f' <- step f o; run_b f' l'
  end.
Lemma run_b_ok u l0 f l f' : run False u l0 f -> run_b f l = Some f' -> run False u (l0 ++ l) f'.
Proof.
  revert l0 f. induction l as [|o l IH]; cbn [run_b]; intros l0 f R E.
  - rewrite app_nil_r. congruence.
  - destruct (legal_b f o) eqn:Lb; [|discriminate]. destruct (step f o) as [g|] eqn:Es; [|discriminate].
    replace (l0 ++ o :: l) with ((l0 ++ [o]) ++ l) by (rewrite <- app_assoc; reflexivity).
    apply (IH _ g); auto. econstructor; eauto. now apply legal_b_ok.
Qed.


(** ** A checkpoint that cannot be ended

    Block 3 is written at the first free disk address, 8192; a checkpoint; block 3 is written
    again elsewhere; block numbers up to 8192 are handed out; during the next checkpoint block
    number 8192 is freed and then block 3: the link from 3 to 8192 in the free list looks
    like the disk address 8192. *)
Definition nojunk : N -> N := fun _ => 0.
Definition ckpt (lsn : N) : list op := [OStart lsn; OTrans; OSync; OHdr; OHdrSync].
Definition bad_pre : list op :=
  [OWrite 3 [1; 2; 3] false; OPwrite 3] ++ ckpt 10 ++ [OEnd nojunk; OWrite 3 [4; 5; 6; 7] false; OPwrite 3].
Definition nf_b (t : trans) : bool :=
  forallb (fun p => negb (p_size p =? size_is_free)%Z) (firstn (snub t) (t_arr t)).
Definition bad_check : bool :=
  match f_init [] with
  | Some f0 => match run_b f0 bad_pre with
    | Some f =>
      let s := f_bt f in
      phase_eqb (f_phase f) PIdle && is_nil (f_out f) && nf_b (b_cur s) && (t_snub (b_cur s) =? 4)%Z &&
      match nth_error (t_arr (b_cp s)) 3 with Some p => (p_off p =? 8192)%Z && (0 <? p_size p)%Z | None => false end &&
      match nth_error (t_arr (b_cur s)) 3 with Some p => negb (p_off p =? 8192)%Z | None => false end &&
      match ba_limit (b_ba s) with Some L => L <? 2 ^ 40 | None => false end
    | None => false
    end
  | None => false
  end.
Lemma bad_check_ok : bad_check = true.
Proof. vm_compute. reflexivity. Qed.

Definition nf (t : trans) : Prop := forall i p, (i < snub t)%nat -> ent t i = Some p -> ~ is_free p.
Lemma nf_b_ok t : nf_b t = true -> nf t.
Proof.
  unfold nf_b, nf, ent, is_free. intros H i p Hi E C. rewrite forallb_forall in H.
  assert (In p (firstn (snub t) (t_arr t))).
  { apply (nth_error_In _ i). rewrite <- E. symmetry. rewrite <- (firstn_skipn (snub t) (t_arr t)) at 1.
    apply nth_error_app1. rewrite firstn_length. assert (i < length (t_arr t))%nat by (apply nth_error_Some; congruence). lia. }
  specialize (H p H0). rewrite C in H. discriminate.
Qed.

(** What is kept while block numbers are handed out. *)
Record bad_st (p3 : pair) (cp : trans) (L : N) (f : fts) : Prop := {
  bs_ph : f_phase f = PIdle;
  bs_out : f_out f = [];
  bs_cp : b_cp (f_bt f) = cp;
  bs_nf : nf (b_cur (f_bt f));
  bs_s : (3 < snub (b_cur (f_bt f)))%nat;
  bs_3 : ent (b_cur (f_bt f)) 3 = Some p3;
  bs_L : ba_limit (b_ba (f_bt f)) = Some L }.

Lemma go sm u l f A a o : run sm u l f -> finv sm A f a -> legal sm f o -> enabled f o ->
  match o with OEnd _ => sm | OCrash _ _ _ => s_cp a <> None | _ => True end ->
  exists f' A' a', step f o = Some f' /\ run sm u (l ++ [o]) f' /\ finv sm A' f' a'.
Proof.
  intros R I L E H. destruct (step_alive sm A f a o I L E H) as (f' & Es). destruct (step_post sm A f a o f' I L Es) as (A' & a' & I' & _).
  exists f', A', a'. split; auto. split; auto. econstructor; eauto.
Qed.

Lemma bad_alloc u l f A a p3 cp L : run False u l f -> finv False A f a -> bad_st p3 cp L f ->
  exists f' A' a', run False u (l ++ [OAlloc]) f' /\ finv False A' f' a' /\ bad_st p3 cp L f' /\
    snub (b_cur (f_bt f')) = S (snub (b_cur (f_bt f))) /\ h_dirty (f_bt f') = true.
Proof.
  intros R I B. destruct (go False u l f A a OAlloc R I) as (f' & A' & a' & E & R' & I'); try exact Logic.I.
  { cbn. tauto. }
  exists f', A', a'. split; auto. split; auto. destruct B.
  assert (W : swf (b_cur (f_bt f))) by (apply (bi_wf _ _ _ (fi_bt _ _ _ _ I)); cbn; auto).
  cbn [step] in E. unfold do_alloc in E.
  destruct (alloc_blocknum_ok (f_bt f) W) as (s' & n & Ea & W' & Hn & Fr & En & Eo & Sh & Sn & E1 & E2 & E3 & E4 & E5 & E6).
  rewrite Ea in E. injection E as <-. unfold with_pend, with_bt. cbn [f_bt f_phase f_out].
  pose proof (swf_len _ W) as Len. pose proof (snub_z _ W) as Sz. pose proof (snub_z _ W') as Sz'.
  assert (Hge : (snub (b_cur (f_bt f)) <= n)%nat).
  { destruct (Nat.lt_ge_cases n (snub (b_cur (f_bt f)))) as [C|]; auto. exfalso.
    destruct (ent_some (b_cur (f_bt f)) n) as (q & Eq); [lia|]. apply (bs_nf0 n q); auto. }
  split; [|split; auto; lia].
  constructor; cbn [f_bt f_phase f_out]; auto; try congruence.
  - intros i p Hi Ep. destruct (Nat.eq_dec i n) as [->|Hne].
    + assert (p = unalloc) by congruence. subst p. unfold is_free, unalloc. cbn [p_size]. discriminate.
    + assert (Hl : (i < snub (b_cur (f_bt f)))%nat) by lia.
      destruct (ent_some (b_cur (f_bt f)) i) as (q & Eq); [lia|].
      pose proof (bs_nf0 i q Hl Eq) as Nq. apply (Eo i q Hne Nq) in Eq. congruence.
  - lia.
  - apply Eo; auto; [lia|]. apply (bs_nf0 3%nat p3); auto.
Qed.

Lemma bad_allocs u p3 cp L : forall k l f A a, run False u l f -> finv False A f a -> bad_st p3 cp L f -> (0 < k)%nat ->
  exists f' A' a', run False u (l ++ repeat OAlloc k) f' /\ finv False A' f' a' /\ bad_st p3 cp L f' /\
    snub (b_cur (f_bt f')) = (k + snub (b_cur (f_bt f)))%nat /\ h_dirty (f_bt f') = true.
Proof.
  induction k as [|k IH]; intros l f A a R I B Hk; [lia|].
  destruct (bad_alloc u l f A a p3 cp L R I B) as (f1 & A1 & a1 & R1 & I1 & B1 & S1 & D1).
  destruct k as [|k].
  - exists f1, A1, a1. cbn [repeat]. repeat (split; auto).
  - destruct (IH _ f1 A1 a1 R1 I1 B1) as (f2 & A2 & a2 & R2 & I2 & B2 & S2 & D2); [lia|].
    exists f2, A2, a2. rewrite <- app_assoc in R2. split; [exact R2|]. repeat (split; auto). lia.
Qed.

Lemma free_head s b ck s' : free_blocknum s b ck = Some s' -> t_head (b_cur s') = b.
Proof.
  unfold free_blocknum. destruct (get (t_arr (b_cur s)) b) as [old|]; [|discriminate].
  destruct (free_in (b_cur s) b) as [cur|] eqn:F; [|discriminate]. unfold set_dirty.
  assert (t_head cur = b).
  { unfold free_in in F. destruct (freeable _ b) as [[|]|]; try discriminate. destruct (t_set _ b _); [|discriminate].
    injection F as <-. reflexivity. }
  repeat match goal with |- context [match ?x with _ => _ end] => destruct x; try discriminate end;
    intros E; injection E as <-; exact H.
Qed.

Lemma end_loop_none ip cur p : forall l i k ba, nth_error l k = Some p -> (0 < p_size p)%Z ->
  prevents (Some ip) (i + Z.of_nat k) p = Some false -> prevents (Some cur) (i + Z.of_nat k) p = Some true ->
  end_loop i l ip cur ba = None.
Proof.
  induction l as [|q l IH]; intros i k ba E Sp Hi Hc; [destruct k; discriminate|]. cbn [end_loop]. destruct k as [|k].
  - cbn [nth_error] in E. injection E as ->. rewrite Z.add_0_r in *. destruct (Z.ltb_spec 0 (p_size p)); [|lia].
    rewrite Hi, Hc. reflexivity.
  - cbn [nth_error] in E. replace (i + Z.of_nat (S k))%Z with (i + 1 + Z.of_nat k)%Z in * by lia.
    assert (G : forall ba, end_loop (i + 1) l ip cur ba = None) by (intros; eapply IH; eauto).
    destruct (0 <? p_size q)%Z; auto. destruct (prevents (Some ip) i q) as [[|]|]; auto.
    destruct (prevents (Some cur) i q) as [[|]|]; cbn [negb]; auto. destruct (ba_free _ _ _); auto.
Qed.

Theorem end_aborts : exists u l f junk, run False u l f /\ completed l /\
  legal False f (OEnd junk) /\ enabled f (OEnd junk) /\ step f (OEnd junk) = None.
Proof.
  pose proof bad_check_ok as H. unfold bad_check in H. destruct (f_init []) as [f0|] eqn:E0; [|discriminate].
  destruct (run_b f0 bad_pre) as [f1|] eqn:E1; [|discriminate]. repeat rewrite andb_true_iff in H.
  destruct H as ((((((H1 & H2) & H3) & H4) & H5) & H6) & H7).
  apply phase_eqb_eq in H1. apply nf_b_ok in H3. apply Z.eqb_eq in H4.
  destruct (nth_error (t_arr (b_cp (f_bt f1))) 3) as [q|] eqn:Eq; [|discriminate]. apply andb_true_iff in H5. destruct H5 as (H5 & H5').
  apply Z.eqb_eq in H5. apply Z.ltb_lt in H5'.
  destruct (nth_error (t_arr (b_cur (f_bt f1))) 3) as [p3|] eqn:Ep; [|discriminate]. apply negb_true_iff, Z.eqb_neq in H6.
  destruct (ba_limit (b_ba (f_bt f1))) as [L|] eqn:EL; [|discriminate]. apply N.ltb_lt in H7.
  assert (R1 : run False [] ([] ++ bad_pre) f1) by (apply (run_b_ok [] [] f0); auto; now constructor). cbn [app] in R1.
  destruct (run_ok _ _ _ _ R1) as (A1 & a1 & I1 & _).
  assert (B1 : bad_st p3 (b_cp (f_bt f1)) L f1).
  { constructor; auto; [destruct (f_out f1); [auto|discriminate]|]. unfold snub. rewrite H4. lia. }
  clear E0 E1 f0 H1 H2 H3.
  set (k := Z.to_nat 8189).
  destruct (bad_allocs [] p3 _ L k bad_pre f1 A1 a1 R1 I1 B1) as (f2 & A2 & a2 & R2 & I2 & B2 & S2 & D2); [unfold k; lia|].
  assert (N2 : snub (b_cur (f_bt f2)) = S (Z.to_nat 8192)) by (rewrite S2; unfold snub, k; lia).
  set (n := Z.to_nat 8192) in *. assert (Nz : Z.of_nat n = 8192%Z) by (unfold n; lia).
  assert (Hn : (3 < n)%nat) by lia. clearbody n. clearbody k. clear S2 R1 I1 B1 A1 a1.
  remember (b_cp (f_bt f1)) as cp eqn:Ecp. clear Ecp Ep H4 EL f1. destruct B2.
  (* begin the checkpoint *)
  destruct (go False [] _ f2 A2 a2 (OStart 20) R2 I2) as (f3 & A3 & a3 & E3 & R3 & I3); try exact Logic.I; auto.
  cbn [step] in E3. unfold do_start in E3. rewrite bs_ph0 in E3.
  destruct (start_ok False A2 (f_bt f2) (fi_bt _ _ _ _ I2)) as
    (s3 & ip & Es3 & J3 & _ & Eip & _ & _ & Ee & Sn3 & Eo & _ & Cp3 & Sk3 & Ba3 & _ & Ch3).
  { apply (fi_idle _ _ _ _ I2). auto. }
  rewrite Es3 in E3. injection E3 as <-.
  set (f3 := mkF s3 _ _ _ _ _ _ _ _ _ _ _ _) in *.
  assert (W3 : swf (b_cur s3)) by (apply (bi_wf _ _ _ J3); cbn; auto).
  assert (W2 : swf (b_cur (f_bt f2))) by (apply (bi_wf _ _ _ (fi_bt _ _ _ _ I2)); cbn; auto).
  assert (P3 : ~ is_free p3) by (apply (bs_nf0 3%nat p3); auto).
  assert (Ec3 : ent (b_cur s3) 3 = Some p3) by (apply Eo; auto).
  destruct (ent_some (b_cur (f_bt f2)) n) as (pn & En); [pose proof (swf_len _ W2); lia|].
  assert (Pn : ~ is_free pn) by (apply (bs_nf0 n pn); auto; lia).
  assert (Ecn : ent (b_cur s3) n = Some pn) by (apply Eo; auto).
  assert (Sn : (n < snub (b_cur s3))%nat).
  { destruct (Nat.lt_ge_cases n (snub (b_cur s3))); auto. exfalso. apply Pn. eapply (sw_high _ W3); eauto. }
  assert (Ei3 : ent ip 3 = Some p3) by (rewrite Ee; auto; lia).
  (* free block number 8192 *)
  destruct (go False [] _ f3 A3 a3 (OFree n false) R3 I3) as (f4 & A4 & a4 & E4 & R4 & I4); try exact Logic.I; auto.
  { cbn [legal]. split; [split; [cbn [f3 f_bt]; lia|exists pn; auto]|]. split; [|discriminate].
    unfold idle_blk. cbn [f3 f_out]. rewrite bs_out0. auto. }
  cbn [step] in E4. unfold do_free in E4.
  destruct (free_blocknum_ok False A3 s3 n false pn (fi_bt _ _ _ _ I3)) as (s4 & B4 & Es4 & P4); auto; try lia; try discriminate.
  cbn [f3 f_bt] in E4. rewrite Es4 in E4. injection E4 as <-. destruct P4.
  pose proof (free_head _ _ _ _ Es4) as Hd4. rewrite Nz in Hd4. destruct fp_cur as (W4 & Sn4 & _ & _ & Ent4).
  set (f4 := with_pend _ _) in *.
  (* free block 3 *)
  assert (Sz4 : snub (b_cur s4) = snub (b_cur s3)) by (unfold snub; now rewrite Sn4).
  assert (Ec4 : ent (b_cur s4) 3 = Some p3) by (rewrite Ent4; auto; lia).
  destruct (go False [] _ f4 A4 a4 (OFree 3 false) R4 I4) as (f5 & A5 & a5 & E5 & R5 & I5); try exact Logic.I; auto.
  { cbn [legal]. split; [split; [cbn [f4 with_pend with_bt f_bt]; lia|exists p3; auto]|]. split; [|discriminate].
    unfold idle_blk. cbn [f4 with_pend with_bt f3 f_out]. rewrite bs_out0. auto. }
  cbn [step] in E5. unfold do_free in E5.
  destruct (free_blocknum_ok False A4 s4 3 false p3 (fi_bt _ _ _ _ I4)) as (s5 & B5 & Es5 & P5); auto; try lia; try discriminate.
  cbn [f4 with_pend with_bt f_bt] in E5. rewrite Es5 in E5. injection E5 as <-.
  pose proof (limit_mono s3 A3 B4 (b_ba s4) L (bi_ba _ _ _ (fi_bt _ _ _ _ I3)) (bi_ba _ _ _ fp_inv) fp_incl ltac:(congruence)) as (L4 & EL4 & HL4).
  assert (X5 : b_ip s5 = Some ip /\ b_cp s5 = cp /\ b_skip s5 = false /\ ch_dirty s5 = true /\
    (exists L5, ba_limit (b_ba s5) = Some L5 /\ L5 <= L) /\
    (3 < snub (b_cur s5))%nat /\ ent (b_cur s5) 3 = Some (mkP 8192 size_is_free)).
  { destruct P5 as [inv5 _ incl5 cur5 ip5 cp5 sk5 h5 ch5].
    destruct (limit_mono s4 A4 B5 (b_ba s5) L4 (bi_ba _ _ _ (fi_bt _ _ _ _ I4)) (bi_ba _ _ _ inv5) incl5 EL4) as (L5 & EL5 & HL5).
    destruct cur5 as (W5 & Sn5 & _ & En5 & _). assert (Sz5 : snub (b_cur s5) = snub (b_cur s4)) by (unfold snub; now rewrite Sn5).
    repeat split; try congruence.
    - exists L5. split; auto. lia.
    - lia. }
  destruct X5 as (Ip5 & Cp5 & Sk5 & Ch5 & (L5 & EL5 & HL5) & Sn5 & Ent5).
  set (f5 := with_pend (with_bt f4 s5) _) in *.
  assert (Wip : swf ip) by (apply (bi_wf _ _ _ (fi_bt _ _ _ _ I5)); cbn [f5 with_pend with_bt f_bt]; unfold trs; rewrite Ip5; cbn; auto).
  assert (Sip : (snub ip <= S n)%nat).
  { rewrite Sn3. destruct (optimize_ok _ W2) as (_ & So & _).
    assert (b_cur s3 = optimize (b_cur (f_bt f2))).
    { unfold start_ckpt in Es3. destruct (negb (is_some (b_ip (f_bt f2)))); [|discriminate].
      destruct (copy_trans (optimize (b_cur (f_bt f2)))); [|discriminate]. injection Es3 as <-. reflexivity. }
    unfold snub in *. rewrite H. lia. }
  (* the translation *)
  destruct (go False [] _ f5 A5 a5 OTrans R5 I5) as (f6 & A6 & a6 & E6 & R6 & I6); try exact Logic.I; auto.
  { cbn [legal]. intros ip' Eip' _. cbn [f5 with_pend with_bt f_bt f4 f3 f_out] in *. assert (ip' = ip) by congruence. subst ip'.
    split; [rewrite bs_out0; intros o []|]. pose proof (snub_z _ Wip) as Sz. split; [lia|].
    exists L5. split; auto. unfold size_on_disk. lia. }
  { reflexivity. }
  cbn [step] in E6. unfold do_trans in E6. cbn [f5 with_pend with_bt f4 f3 f_phase f_bt] in E6. rewrite Ch5 in E6.
  destruct (alloc_trans_ok False A5 s5 ip L5 (fi_bt _ _ _ _ I5)) as (s6 & ip6 & off & Es6 & _ & _ & Ip6 & Put6 & Cu6 & Cp6 & Sk6 & _ & _); auto.
  { apply (fi_early _ _ _ _ I5); auto. }
  { pose proof (snub_z _ Wip). unfold size_on_disk, MhsHoles.LIM. lia. }
  rewrite Es6, Ip6 in E6. destruct (ser_trans ip6) as [((buf & addr) & sz)|]; [|discriminate]. injection E6 as <-.
  set (f6 := with_phase _ _) in *.
  destruct Put6 as (Pu1 & _ & _ & Pu2).
  destruct (go False [] _ f6 A6 a6 OSync R6 I6) as (f7 & A7 & a7 & E7 & R7 & I7); try exact Logic.I; auto; [reflexivity|].
  cbn [step] in E7. unfold do_sync in E7. cbn [f6 with_phase f_phase] in E7. injection E7 as <-. set (f7 := with_phase (fsync f6) _) in *.
  destruct (go False [] _ f7 A7 a7 OHdr R7 I7) as (f8 & A8 & a8 & E8 & R8 & I8); try exact Logic.I; auto; [reflexivity|].
  assert (B8 : f_bt f8 = s6 /\ f_phase f8 = PHdr).
  { cbn [step] in E8. unfold do_hdr in E8. cbn [f7 f_phase with_phase] in E8. destruct (b_ip (f_bt f7)) as [ip'|]; [|discriminate].
    destruct (get (t_arr ip') B_TRANS); [|discriminate]. injection E8 as <-. split; reflexivity. }
  destruct B8 as (B8 & Ph8).
  destruct (go False [] _ f8 A8 a8 OHdrSync R8 I8) as (f9 & A9 & a9 & E9 & R9 & I9); try exact Logic.I; auto.
  assert (B9 : f_bt f9 = s6 /\ f_phase f9 = PDone).
  { cbn [step] in E9. unfold do_hdr_sync in E9. rewrite Ph8 in E9. injection E9 as <-. cbn [f_bt f_phase fsync]. auto. }
  destruct B9 as (B9 & Ph9).
  eexists [], _, f9, nojunk. split; [exact R9|]. split.
  { exists nojunk. do 8 (apply in_or_app; left). unfold bad_pre. apply in_or_app. right. apply in_or_app. right. cbn; auto. }
  split; [exact Logic.I|]. split; [left; auto|].
  cbn [step]. unfold do_end. rewrite Ph9, B9.
  assert (Sk : b_skip s6 = false) by congruence.
  assert (K : end_ckpt s6 = None); [|now rewrite K].
  unfold end_ckpt. destruct (ba_limit (b_ba s6)); [|reflexivity]. rewrite Ip6, Sk.
  destruct (get (t_arr ip6) B_TRANS) as [pt|]; [|reflexivity]. destruct (0 <? p_size pt)%Z; [|reflexivity]. destruct (0 <? p_off pt)%Z; [|reflexivity].
  rewrite (end_loop_none ip6 (b_cur s6) q _ 0 3); auto.
  - congruence.
  - unfold prevents. change (0 + Z.of_nat 3)%Z with (Z.of_nat 3). rewrite get_nat. destruct (Z.ltb_spec (Z.of_nat 3) (t_snub ip6)); auto.
    fold (ent ip6 3). rewrite Pu2. cbn [Nat.eqb]. rewrite Ei3. rewrite H5. f_equal. apply Z.eqb_neq. congruence.
  - unfold prevents. change (0 + Z.of_nat 3)%Z with (Z.of_nat 3). rewrite get_nat, Cu6.
    destruct (Z.ltb_spec (Z.of_nat 3) (t_snub (b_cur s5))); [|unfold snub in Sn5; lia].
    fold (ent (b_cur s5) 3). rewrite Ent5. cbn [p_off]. rewrite H5. reflexivity.
Qed.
