(** The whole forward scan. *)
From Coq Require Import Sorted.
From Verif Require Import Base UleModel MgrModel MvccModel RecModel RecSpec RecIdeal RecFiles RecSim RecBlock.
Open Scope N_scope.

Definition set_ck (I : ist) (last : txnid) : ist :=
  mkIst (i_open I) (i_txns I) (i_cont I) (i_locks I) (i_used I) (i_clast I) last.

(** A checkpoint was begun in state [J] and the records [mid] followed. *)
Record Begun (J : ist) (last : txnid) (fs0 : files) (mid : list lrec) : Prop := {
  bg_fm : Fmatch fs0 (i_open J);
  bg_ck : i_ck J <= last;
  bg_used : Forall (fun r => r <= last) (i_used J);
  bg_mid : Forall (fun x => is_ck x = false /\ is_recovered x = false) mid
}.

Lemma noop_run l : forall I, Forall (fun x => istep I x = Some I) l -> irun I l = Some I.
Proof. induction l as [|x l IH]; intros I H; [reflexivity|]. inversion H as [|? ? H1 H2]; subst. cbn. rewrite H1. auto. Qed.

Lemma still_noop I t : In t (i_txns I) -> StronglySorted N.lt (map pt_root (i_txns I)) -> Forall (fun x => istep I x = Some I) (still_of t).
Proof.
  intros Ht S.
  assert (G : forall ls par, Forall (fun x => istep I x = Some I) (still_recs (pt_root t) par ls)).
  { induction ls as [|l ls IH]; intros par; cbn; constructor; auto. }
  unfold still_of. destruct (pt_levels t) as [|l [|l2 ls]]; [apply G| |apply G]. destruct (pt_prep t) eqn:P; [|apply G].
  constructor; [|constructor]. cbn. rewrite (sorted_find _ _ S Ht), P. reflexivity.
Qed.

Lemma ck_irun J last fs0 mid : IWf J -> Begun J last fs0 mid -> irun J (ck_recs last fs0 (i_txns J)) = Some (set_ck J last).
Proof.
  intros W [Fm Hc Hu _]. unfold ck_recs. cbn [irun istep]. destruct (N.leb_spec (i_ck J) last); [|lia].
  assert (F : forallb (fun r => r <=? last) (i_used J) = true).
  { apply forallb_forall. intros a Ha. rewrite Forall_forall in Hu. apply N.leb_le. auto. }
  rewrite F. fold (set_ck J last). apply noop_run. rewrite Forall_app. split.
  - apply Forall_map, Forall_forall. intros [fn f] Hp. cbn. destruct Fm as [Nd Fm]. rewrite Fm, (flook_intro _ _ _ Nd Hp). cbn. now rewrite N.eqb_refl.
  - apply Forall_flat_map, Forall_forall. intros t Ht. apply still_noop; [exact Ht|apply (iw_sorted _ W)].
Qed.
Lemma set_ck_wf J last : IWf J -> IWf (set_ck J last).
Proof. intros []. split; auto. Qed.

(** ** The backward scan *)

Lemma scan_none l : Forall (fun x => is_end x = false) l -> forall rl, scan_back (rev l ++ rl) None = scan_back rl None.
Proof.
  induction l as [|x l IH]; intros F rl; [reflexivity|]. inversion F as [|? ? F1 F2]; subst. cbn [rev]. rewrite <- app_assoc. rewrite IH by auto. cbn [app scan_back].
  destruct x; try reflexivity. discriminate.
Qed.
Definition is_begin_end (x : lrec) : bool := match x with LBeginCk _ | LEndCk _ _ _ => true | _ => false end.
Lemma scan_some l b e : Forall (fun x => is_begin_end x = false) l -> forall rl, scan_back (rev l ++ rl) (Some (b, e)) = scan_back rl (Some (b, e)).
Proof.
  induction l as [|x l IH]; intros F rl; [reflexivity|]. inversion F as [|? ? F1 F2]; subst. cbn [rev]. rewrite <- app_assoc. rewrite IH by auto. cbn [app scan_back].
  destruct x; try reflexivity; discriminate.
Qed.
Lemma still_recs_quiet r ls : forall par, Forall (fun x => is_begin_end x = false) (still_recs r par ls).
Proof. induction ls as [|l ls IH]; intros par; cbn; constructor; auto. Qed.
Lemma ck_recs_quiet last fs ts : exists l, ck_recs last fs ts = LBeginCk last :: l /\ Forall (fun x => is_begin_end x = false) l.
Proof.
  eexists. split; [reflexivity|]. constructor; [auto|]. rewrite Forall_app. split; [apply Forall_map, Forall_forall; auto|].
  apply Forall_flat_map, Forall_forall. intros t _. unfold still_of. destruct (pt_levels t) as [|l [|l2 ls]]; try apply still_recs_quiet.
  destruct (pt_prep t); [repeat constructor|apply still_recs_quiet].
Qed.

Lemma scan_ok pre last fs ts mid nf nx post :
  Forall (fun x => is_ck x = false /\ is_recovered x = false) mid ->
  Forall (fun x => is_end x = false) post ->
  scan_back (rev (pre ++ ck_recs last fs ts ++ mid ++ LEndCk (S (length pre)) nf nx :: post)) None
  = Some (S (length pre), (length pre + length (ck_recs last fs ts) + length mid + 1)%nat).
Proof.
  intros H1 H2. destruct (ck_recs_quiet last fs ts) as (l & -> & Hl).
  replace (pre ++ (LBeginCk last :: l) ++ mid ++ LEndCk (S (length pre)) nf nx :: post)
    with ((pre ++ LBeginCk last :: (l ++ mid) ++ [LEndCk (S (length pre)) nf nx]) ++ post) by (repeat (rewrite <- app_assoc; cbn [app]); reflexivity).
  rewrite rev_app_distr, scan_none by auto. rewrite rev_app_distr. cbn [rev]. rewrite rev_app_distr. cbn [rev app scan_back].
  rewrite <- !app_assoc, scan_some.
  - cbn [app scan_back length]. rewrite rev_length. rewrite Nat.eqb_refl. f_equal. f_equal. rewrite !app_length, !rev_length. cbn [length]. rewrite app_length, rev_length. lia.
  - rewrite Forall_app. split; [auto|]. eapply Forall_impl; [|exact H1]. intros x [Hx _]. destruct x; auto; discriminate.
Qed.

(** ** The forward scan *)

Section Replay.
Variables (J : ist) (pb : nat) (last : txnid) (fs0 : files) (mid post : list lrec).
Let blk := ck_recs last fs0 (i_txns J).
Let nf := S (length fs0).
Let nx := length (flat_map still_of (i_txns J)).
Let suf := blk ++ mid ++ LEndCk (S pb) nf nx :: post.
Variable Q : fname -> nat -> nat -> mlist -> Prop.
Hypothesis Q1 : forall nm lsn p m, (pb <= p)%nat -> (p < lsn)%nat -> Q nm lsn p m -> Q nm lsn (S p) m.
Hypothesis Q2 : forall nm lsn p m D, (pb <= p)%nat -> (lsn <= p)%nat -> (p < pb + length suf)%nat ->
  cat J suf pb (S p) nm = cat J suf pb p nm ++ D -> Q nm lsn p m -> Q nm lsn (S p) (m ++ D).
Hypothesis Q3 : forall nm lsn p m, Q nm lsn p m -> Q nm (Nat.max p lsn) p m.
Hypothesis WJ : IWf J.
Hypothesis B : Begun J last fs0 mid.
Hypothesis Hpost : Forall (fun x => is_end x = false /\ is_recovered x = false) post.
Variables (d : fname -> list ver) (rbs : list (nat * rbmap)).
Hypothesis Hd : forall nm, exists v m, newest d nm = Some (v, m) /\ (v <= pb + length suf)%nat /\ Q nm v (pb + length blk) m.
Hypothesis Hrb : exists v, find (fun v => (fst v <=? S pb)%nat) rbs = Some (v, rb_of (i_txns J)).

Lemma sim_block e : exists R, rec_run (S pb) e rbs pb blk (rst_init d) = Some R
  /\ RSim J suf pb Q (pb + length blk) (set_ck J last) R /\ r_newer R = false /\ r_nf R = nf /\ r_nx R = nx.
Proof.
  destruct B as [[Nd0 Fm0] Hc Hu _]. destruct Hrb as (v & Hv). unfold blk at 1, ck_recs. cbn [rec_run rec_step rst_init r_newer r_sslast].
  rewrite Nat.eqb_refl. cbn [r_files r_txns r_last r_disk r_rb r_newer r_sslast r_nf r_nx]. change (0 =? TXNID_NONE) with true. cbn [rst_init r_files r_txns r_last r_disk r_rb r_newer r_sslast r_nf r_nx].
  rewrite Hv. cbn [snd]. rewrite rec_run_app.
  set (R1 := mkR [] [] last d (Some (rb_of (i_txns J))) false last 1 0).
  destruct (assoc_run (S pb) e rbs d fs0 [] (S (S pb)) R1) as (fs & E & F1 & F2); auto.
  { intros nm. destruct (Hd nm) as (v' & m' & E & _). congruence. }
  rewrite E. set (R2 := mkR _ _ _ _ _ _ _ _ _).
  assert (Fm : Fmatch fs (i_open J)).
  { split; [apply F2; constructor|]. intros fn. rewrite Fm0, F1. destruct (flook fn fs0) as [f|]; [|reflexivity].
    destruct (Hd (of_name f)) as (v' & m' & E' & _). rewrite E'. reflexivity. }
  rewrite (stills_run (S pb) e rbs (rb_of (i_txns J)) (i_txns J) [] _ R2); auto.
  - eexists. split; [reflexivity|]. split; [|unfold withx, R2, R1, nf, nx; cbn; split; [auto|split; [lia|lia]]].
    assert (St : st J suf pb (pb + length blk) = Some (set_ck J last)).
    { unfold suf. rewrite st_app by lia. rewrite st_all by lia. apply (ck_irun J last fs0 mid); auto. }
    split; cbn [withx r_files r_txns r_last r_disk r_rb r_newer r_sslast r_nf r_nx R2 R1 set_ck i_txns i_open i_used i_ck app].
    + lia.
    + exact St.
    + reflexivity.
    + exact Fm.
    + intros fn f Lf. rewrite F1 in Lf. destruct (flook fn fs0) as [f0|]; [|discriminate]. destruct (Hd (of_name f0)) as (v' & m' & E' & H1 & H2).
      rewrite E' in Lf. injection Lf as <-. cbn. auto.
    + intros nm. destruct (Hd nm) as (v' & m' & E' & H1 & H2). exists v', m'. auto.
    + exact Hu.
    + intros m Hm _. exact Hm.
    + lia.
  - apply (iw_sorted _ WJ).
  - pose proof (rb_of_there J fs WJ Fm) as HT. pose proof (iw_txns _ WJ) as HW. pose proof (iw_used _ WJ) as HU. pose proof (iw_pos _ WJ) as HP.
    rewrite Forall_forall in *. intros t Ht. destruct (HW t Ht) as ((ls & l & El & Er & _) & Hp & _). split; [eauto|]. split; [auto|]. split; [apply HT; auto|].
    unfold R2, R1. cbn. split; [apply Hu; auto|]. apply HP. auto.
  - unfold R2, R1. cbn. lia.
Qed.

Lemma replay_sim pre K : length pre = pb -> irun J suf = Some K ->
  exists R, replay (mkImg (pre ++ suf) d rbs) = Some R /\ RSim J suf pb Q (pb + length suf) K R.
Proof.
  intros Hp HK. unfold replay. cbn [i_log i_disk i_rb]. unfold suf at 1. unfold nf, nx, blk. 
  assert (Hpost' : Forall (fun x => is_end x = false) post) by (eapply Forall_impl; [|exact Hpost]; cbv beta; tauto).
  pose proof (scan_ok pre last fs0 (i_txns J) mid (S (length fs0)) (length (flat_map still_of (i_txns J))) post (bg_mid _ _ _ _ B) Hpost') as SO.
  rewrite Hp in SO. rewrite SO. clear SO.
  set (e := (pb + length (ck_recs last fs0 (i_txns J)) + length mid + 1)%nat). cbn [Init.Nat.pred].
  assert (Esk : skipn pb (pre ++ suf) = suf) by (rewrite <- Hp, skipn_app, skipn_all, Nat.sub_diag; reflexivity).
  rewrite Esk.
  destruct (sim_block e) as (R1 & E1 & S1 & N1 & N2 & N3).
  unfold suf at 1. rewrite rec_run_app, E1.
  assert (HK' := HK). unfold suf in HK'. rewrite irun_app in HK'. unfold blk in HK' at 1. rewrite (ck_irun J last fs0 mid WJ B) in HK'.
  rewrite irun_app in HK'. destruct (irun (set_ck J last) mid) as [K2|] eqn:E2; [|discriminate].
  destruct (sim_mid J suf pb Q Q1 Q2 Q3 WJ (S pb) e rbs mid blk (LEndCk (S pb) nf nx :: post) (pb + length blk) (set_ck J last) K2 R1)
    as (R2 & E3 & S2 & M1 & M2 & M3 & M4); auto.
  { apply (bg_mid _ _ _ _ B). }
  rewrite rec_run_app, E3. cbn [rec_run rec_step]. rewrite M1, N1. cbn [negb]. rewrite Nat.eqb_refl.
  destruct (Nat.eqb_spec (S (pb + length blk + length mid)) e) as [_|X]; [|exfalso; apply X; unfold e, blk; lia].
  rewrite M2, N2, Nat.eqb_refl, M3, N3, Nat.eqb_refl.
  set (R3 := mkR _ _ _ _ _ _ _ _ _).
  cbn [irun istep] in HK'.
  assert (S3 : RSim J suf pb Q (S (pb + length blk + length mid)) K2 R3).
  { eapply (RSim_sent J suf pb Q Q1 Q2 Q3 WJ _ (LEndCk (S pb) nf nx) K2 K2 R2 (r_files R2)); eauto.
    - unfold suf. rewrite app_assoc. apply nth_skip. rewrite app_length. lia.
    - apply sent_nil.
    - apply (rs_txns _ _ _ _ _ _ _ S2).
    - lia.
    - apply (rs_last _ _ _ _ _ _ _ S2).
    - apply (rs_last2 _ _ _ _ _ _ _ S2). }
  destruct (sim_post J suf pb Q Q1 Q2 Q3 WJ (S pb) e rbs post (blk ++ mid ++ [LEndCk (S pb) nf nx]) [] (S (pb + length blk + length mid)) K2 K R3)
    as (R4 & E4 & S4 & P1 & _); auto.
  { unfold suf. rewrite app_nil_r. repeat (rewrite <- app_assoc; cbn [app]). reflexivity. }
  { rewrite !app_length. cbn. lia. }
  { unfold e, blk. lia. }
  rewrite E4, P1. change (r_newer R3) with true. cbv iota. exists R4. split; [reflexivity|].
  replace (pb + length suf)%nat with (S (pb + length blk + length mid) + length post)%nat; [exact S4|]. unfold suf. rewrite !app_length. cbn. lia.
Qed.
End Replay.
