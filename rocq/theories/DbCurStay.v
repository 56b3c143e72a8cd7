(** What stays for a reader while others work. *)
From Verif Require Import Base Bytes LtSpec KOrd PivotModel UleModel MgrModel MgrProofs MvccModel MvccSpec MvccSync MvccSys MvccRead PropsMvcc.
From Verif Require Import FtModel FtSpec FtSeg FtOps FtSys OrkModel OrkProofs DbModel DbSpec DbSpecProofs DbProj DbInv DbReplay PropsDb.
From Verif Require Import CurModel CurSpec DbCurModel DbCurProofs.
Open Scope nat_scope.

Section P.
Context {c : bytes -> bytes -> comparison} (ok : cmp_ok c) (last : txnid).
Local Notation db := (db c).
Implicit Types (k y : bytes) (d : db) (r : txnid).

(** ** A read *)
Lemma stored_read d y v r s : dgood last d -> ids_left (d_ms d) -> dactive c d r -> dholds_snap d r s -> stored_at d y v ->
  exists A, entry v = Some A /\ row_read C_READ_SNAPSHOT (through s r) A = Some (dsees (ds_levels (dspec_of c (d_trace d)) r) (ds_frozen (dspec_of c (d_trace d)) (s_id s)) y).
Proof.
  intros (I & T) LI AC HS (gs & CO). destruct (stored_copy last d y I LI v gs CO) as (x & A & R' & CC & EN & Y1 & Y2 & Y3 & Y4).
  exists A. split; [exact EN|]. rewrite (C01_snapshot_read last x r s A R' (proj_active _ _ _ _ Y2 AC)); [|unfold holds_snap; rewrite Y1; exact HS|exact CC].
  rewrite dsees_at. pose proof (spec_agrees ok (d_trace d) y) as (_ & G2 & G3). rewrite Y4, G2, G3. reflexivity.
Qed.
Lemma stored_value d y v r s : dgood last d -> ids_left (d_ms d) -> dactive c d r -> dholds_snap d r s -> stored_at d y v ->
  dsees (ds_levels (dspec_of c (d_trace d)) r) (ds_frozen (dspec_of c (d_trace d)) (s_id s)) y
  = match v with Some w => cvalue C_READ_SNAPSHOT (through s r) w | None => None end
  /\ (forall w, v = Some w -> cgone C_READ_SNAPSHOT (through s r) w = match cvalue C_READ_SNAPSHOT (through s r) w with None => true | Some _ => false end).
Proof.
  intros G LI AC HS SA. destruct (stored_read d y v r s G LI AC HS SA) as (A & EN & RD).
  destruct v as [[u|]|]; cbn [entry] in EN; try discriminate EN; injection EN as <-; cbn [row_read cvalue cgone] in *.
  - rewrite RD. split; [reflexivity|]. intros w Q. injection Q as <-. cbn [cgone cvalue]. rewrite RD. reflexivity.
  - injection RD as <-. split; [reflexivity|discriminate].
Qed.

(** Equal keys mean the same. *)
Lemma ptrace_keq k k' tr : keq c k k' -> ptrace c k tr = ptrace c k' tr.
Proof.
  intros K. assert (Q : keqb c k k' = true) by (apply keqb_true; exact K). induction tr as [|e tr IH]; [reflexivity|]. unfold ptrace in *. cbn [flat_map]. rewrite IH. f_equal.
  destruct e; cbn [pev]; try reflexivity. rewrite (keqb_same ok k k' Q). reflexivity.
Qed.
Lemma means_keq k k' tr r n : keq c k k' -> dsees (ds_levels (dspec_of c tr) r) (ds_frozen (dspec_of c tr) n) k = dsees (ds_levels (dspec_of c tr) r) (ds_frozen (dspec_of c tr) n) k'.
Proof.
  intros K. rewrite !dsees_at. pose proof (spec_agrees ok tr k) as (_ & A2 & A3). pose proof (spec_agrees ok tr k') as (_ & B2 & B3).
  rewrite <- A2, <- A3, <- B2, <- B3, (ptrace_keq k k' tr K). reflexivity.
Qed.

(** ** Steps of others *)
Lemma qstep_proj may d d' k : dgood last d -> qstep c may d d' -> rsteps (proj (c:=c) k d) (proj k d').
Proof.
  intros (I & T) [o v _ LG LI ST|z del q b bulk rst dir cbk v LG LI ST]; [eapply dstep_proj; eauto|].
  pose proof (dtry_ok ok last d z del q b bulk rst dir cbk I T LI LG) as K. rewrite ST in K. cbn [outc fst] in K. destruct K as (_ & _ & _ & t & ->).
  eapply rs_step with (o := OObserve); [exact Logic.I|exact LI| |apply rs_refl]. cbn [rstep]. unfold proj, looked.
  cbn [d_ms d_txns d_lock d_sent d_looks d_trace y_ms y_txns y_lock y_msgs y_copies y_obs y_trace]. rewrite map_app. cbn [map]. unfold plook at 3. cbn [lk_n now lk_mgr lk_hist]. rewrite firstn_all. reflexivity.
Qed.
Lemma qsteps_proj may d d' k : qsteps c may d d' -> dgood last d -> rsteps (proj (c:=c) k d) (proj k d').
Proof.
  induction 1 as [d|d d1 d' S _ IH]; intros G; [apply rs_refl|]. eapply rsteps_app; [eapply qstep_proj; eauto|]. apply IH. eapply qstep_ok; eauto.
Qed.
Lemma frozen_stays may d d' r s k : dgood last d -> dholds_snap d r s -> qsteps c may d d' ->
  ds_frozen (dspec_of c (d_trace d')) (s_id s) k = ds_frozen (dspec_of c (d_trace d)) (s_id s) k.
Proof.
  intros G HS ST. pose proof (qsteps_proj may d d' k ST G) as SP. pose proof (p_rows last d (proj1 G) k) as RR.
  destruct (rreach_inv _ _ RR) as (T & _). destruct (holds_fx (proj (c:=c) k d) T r s HS) as (Hin & _).
  destruct (rsteps_keeps last _ _ SP RR) as (_ & _ & _ & Hf).
  pose proof (spec_agrees ok (d_trace d) k) as (_ & _ & Q). pose proof (spec_agrees ok (d_trace d') k) as (_ & _ & Q'). rewrite <- Q, <- Q'.
  apply Hf. eapply snap_old; eauto. apply (i_c _ (t_m T)).
Qed.

Lemma dfind_dset_other t ts r : d_root t <> r -> dfind r (dset t ts) = dfind r ts.
Proof.
  intros N. unfold dfind, dset. induction ts as [|a ts IH]; [reflexivity|]. cbn [map find]. destruct (N.eqb_spec (d_root a) (d_root t)) as [Q|Q].
  - destruct (N.eqb_spec (d_root t) r); [contradiction|]. destruct (N.eqb_spec (d_root a) r); [congruence|exact IH].
  - rewrite IH. reflexivity.
Qed.
Lemma dfind_ddel_other x ts r : x <> r -> dfind r (ddel x ts) = dfind r ts.
Proof.
  intros N. unfold dfind, ddel. induction ts as [|a ts IH]; [reflexivity|]. cbn [filter find]. destruct (N.eqb_spec (d_root a) x) as [Q|Q]; cbn [negb find].
  - destruct (N.eqb_spec (d_root a) r); [congruence|exact IH].
  - rewrite IH. reflexivity.
Qed.
Lemma dfind_app ts l r t : dfind r ts = Some t -> dfind r (ts ++ l) = Some t.
Proof. unfold dfind. induction ts as [|a ts IH]; [discriminate|]. cbn [app find]. destruct (d_root a =? r)%N; auto. Qed.

(** What [r] has. *)
Definition has d r (s : snap) : Prop := dactive c d r /\ dholds_snap d r s.
Definition same_for r d d' : Prop := ds_levels (dspec_of c (d_trace d')) r = ds_levels (dspec_of c (d_trace d)) r.

Lemma cstep_stays d r s o x om : has d r s -> not_by r (s_id s) (DClient o (mkInj (mkZ true 0) 0 true [])) ->
  NoDup (map d_root (c_txns x)) -> cstep c d o = Some (x, om) ->
  (exists t, dfind r (c_txns x) = Some t /\ d_phase t = QActive)
  /\ ((exists rt, In rt (ms_roots (c_ms x)) /\ r_xid rt = r /\ r_snap rt = Some s) \/ In (r, s) (ms_child (c_ms x)))
  /\ ds_levels (dspec_of c (c_trace x)) r = ds_levels (dspec_of c (d_trace d)) r.
Proof.
  intros ((t & F & PH) & HS) NB ND CS. cbn [not_by] in NB.
  assert (FIN : forall q ms, q <> r -> mstep (d_ms d) (MFinish q) = Some ms -> (exists rt, In rt (ms_roots ms) /\ r_xid rt = r /\ r_snap rt = Some s) \/ In (r, s) (ms_child ms)).
  { intros q ms NQ M. cbn [mstep] in M. destruct (find_root q (ms_roots (d_ms d))) as [r0|]; [|discriminate M]. destruct (finish_txn _ _ _ _ _) as [m|]; [|discriminate M]. injection M as <-. cbn [ms_roots ms_child].
    destruct HS as [(rt & I1 & I2 & I3)|HS]; [|right; exact HS]. left. exists rt. split; [|auto]. apply filter_In. split; [exact I1|]. rewrite I2. destruct (N.eqb_spec r q); [congruence|reflexivity]. }
  assert (UP : forall (f : txnid -> list writes) q l, q <> r -> upd f q l r = f r) by (intros f q l NQ; unfold upd; destruct (N.eqb_spec r q); [congruence|reflexivity]).
  destruct o as [ro rec|q|n|q|q k|q k w|q|q|q|q|q|q|q|i]; cbn [cstep] in CS.
  - destruct (mstep (d_ms d) (MBegin ro rec)) as [ms|] eqn:M; [|discriminate CS]. destruct (rev (ms_roots ms)) as [|nr rs] eqn:RV; [discriminate CS|]. injection CS as <- _. cbn [c_txns c_ms c_trace] in *.
    split; [exists t; split; [apply dfind_app; exact F|exact PH]|]. split.
    + cbn [mstep] in M. destruct (start_txn _ _ _) as [[[a os] m]|]; [|discriminate M]. injection M as <-. cbn [ms_roots ms_child].
      destruct HS as [(rt & I1 & I2)|HS]; [|right; exact HS]. left. exists rt. split; [apply in_or_app; auto|exact I2].
    + assert (NQ : r_xid nr <> r).
      { intros Q. rewrite map_app in ND. cbn [map d_root] in ND. apply NoDup_remove_2 in ND. apply ND. rewrite app_nil_r, Q. destruct (dfind_in _ _ _ F) as (I & <-). apply in_map. exact I. }
      destruct (r_snap nr); cbn [app dspec_of dspec_step ds_levels]; apply UP; exact NQ.
  - destruct (mstep (d_ms d) (MChildSnap q)) as [ms|] eqn:M; [|discriminate CS]. destruct (rev (ms_child ms)) as [|p rs] eqn:RV; [discriminate CS|]. injection CS as <- _. cbn [c_txns c_ms c_trace] in *.
    split; [eauto|]. split; [|reflexivity]. cbn [mstep] in M. destruct (create_snapshot _) as [[a m]|]; [|discriminate M]. injection M as <-. cbn [ms_roots ms_child].
    destruct HS as [HS|HS]; [left; exact HS|]. right. apply in_or_app. auto.
  - destruct (mstep (d_ms d) (MChildSnapEnd n)) as [ms|] eqn:M; [|discriminate CS]. injection CS as <- _. cbn [c_txns c_ms c_trace] in *.
    split; [eauto|]. split; [|reflexivity]. cbn [mstep] in M. destruct (find _ _) as [p|]; [|discriminate M]. destruct (remove_snapshot _ _) as [m|]; [|discriminate M]. injection M as <-. cbn [ms_roots ms_child].
    destruct HS as [HS|HS]; [left; exact HS|]. right. apply filter_In. split; [exact HS|]. cbn [snd]. destruct (N.eqb_spec (s_id s) n); [congruence|reflexivity].
  - destruct (dfind q (d_txns d)) as [t0|]; [|discriminate CS]. injection CS as <- _. cbn [c_txns c_ms c_trace] in *. rewrite dfind_dset_other by exact NB.
    split; [eauto|]. split; [exact HS|]. cbn [app dspec_of dspec_step ds_levels]. apply UP. exact NB.
  - injection CS as <- _. cbn [c_txns c_ms c_trace] in *. split; [eauto|]. split; [exact HS|reflexivity].
  - destruct (mstep (d_ms d) (MWrite q)) as [ms|] eqn:M; [|discriminate CS]. destruct (dfind q (d_txns d)) as [t0|]; [|discriminate CS]. injection CS as <- _. cbn [c_txns c_ms c_trace] in *. rewrite dfind_dset_other by exact NB.
    split; [eauto|]. split.
    + cbn [mstep] in M. injection M as <-. cbn [ms_roots ms_child]. destruct HS as [(rt & I1 & I2 & I3)|HS]; [|right; exact HS]. left.
      exists rt. split; [|auto]. unfold set_wrote. apply in_map_iff. exists rt. split; [|exact I1]. rewrite I2. destruct (N.eqb_spec r q); [congruence|reflexivity].
    + cbn [dspec_of dspec_step]. destruct (ds_levels (dspec_of c (d_trace d)) q) as [|l ls] eqn:LQ; [reflexivity|]. destruct (wval w _); [|reflexivity]. cbn [ds_levels]. apply UP. exact NB.
  - destruct (dfind q (d_txns d)) as [t0|]; [|discriminate CS]. injection CS as <- _. cbn [c_txns c_ms c_trace] in *. rewrite dfind_dset_other by exact NB.
    split; [eauto|]. split; [exact HS|]. cbn [app dspec_of dspec_step]. destruct (ds_levels (dspec_of c (d_trace d)) q) as [|l [|l' ls]]; [reflexivity|reflexivity|]. cbn [ds_levels]. apply UP. exact NB.
  - destruct (dfind q (d_txns d)) as [t0|]; [|discriminate CS]. destruct (hd_error (d_levels t0)) as [l|]; [|discriminate CS]. injection CS as <- _. cbn [c_txns c_ms c_trace app] in *. rewrite dfind_dset_other by exact NB. eauto.
  - destruct (dfind q (d_txns d)) as [t0|]; [|discriminate CS]. destruct (d_phase t0) as [|[|[k b] todo]|[|[k b] todo]]; try discriminate CS. injection CS as <- _. cbn [c_txns c_ms c_trace app] in *. rewrite dfind_dset_other by exact NB. eauto.
  - destruct (dfind q (d_txns d)) as [t0|]; [|discriminate CS]. destruct (d_levels t0) as [|l [|l' ls]]; [discriminate CS| |].
    + unfold dretire in CS. destruct (mstep (d_ms d) (MFinish q)) as [ms|] eqn:M; [|discriminate CS]. injection CS as <- _. cbn [c_txns c_ms c_trace] in *. rewrite dfind_ddel_other by exact NB.
      split; [eauto|]. split; [apply (FIN q); auto|]. cbn [dspec_of dspec_step ds_levels]. apply UP. exact NB.
    + injection CS as <- _. cbn [c_txns c_ms c_trace app] in *. rewrite dfind_dset_other by exact NB. split; [eauto|]. split; [exact HS|]. cbn [dspec_of dspec_step ds_levels]. apply UP. exact NB.
  - destruct (dfind q (d_txns d)) as [t0|]; [|discriminate CS]. destruct (hd_error (d_levels t0)) as [l|]; [|discriminate CS]. injection CS as <- _. cbn [c_txns c_ms c_trace app] in *. rewrite dfind_dset_other by exact NB. eauto.
  - destruct (dfind q (d_txns d)) as [t0|]; [|discriminate CS]. destruct (d_phase t0) as [|[|[k b] todo]|[|[k b] todo]]; try discriminate CS. injection CS as <- _. cbn [c_txns c_ms c_trace app] in *. rewrite dfind_dset_other by exact NB. eauto.
  - unfold dretire in CS. destruct (mstep (d_ms d) (MFinish q)) as [ms|] eqn:M; [|discriminate CS]. injection CS as <- _. cbn [c_txns c_ms c_trace] in *. rewrite dfind_ddel_other by exact NB.
    split; [eauto|]. split; [apply (FIN q); auto|]. cbn [dspec_of dspec_step ds_levels]. apply UP. exact NB.
  - destruct (nth_error (d_looks d) i); [|discriminate CS]. injection CS as <- _. cbn [c_txns c_ms c_trace] in *. eauto.
Qed.

Lemma roots_ndd d : dgood last d -> NoDup (map d_root (d_txns d)).
Proof.
  intros (I & _). destruct (rreach_inv _ _ (p_rows last d I [])) as (T & _). pose proof (roots_nd _ T) as ND. cbn [proj y_txns] in ND. rewrite map_map in ND. exact ND.
Qed.
Lemma qstep_stays d d' r s : dgood last d -> has d r s -> qstep c (not_by r (s_id s)) d d' -> has d' r s /\ same_for r d d'.
Proof.
  intros G HS S. pose proof (qstep_ok ok last _ _ _ G S) as G'. destruct S as [o v NB LG LI ST|z del q b bulk rst dir cbk v LG LI ST].
  - destruct o as [|o j|o]; cbn [dstep] in ST.
    + injection ST as <- _. split; [exact HS|reflexivity].
    + destruct (cstep c d o) as [[x om]|] eqn:CS; cbn [must] in ST; [|discriminate ST]. pose proof (roots_ndd d' G') as ND.
      assert (Q : d_ms d' = c_ms x /\ d_txns d' = c_txns x /\ d_trace d' = c_trace x).
      { destruct om as [m|]; [|injection ST as <- _; auto]. destruct (nth_error (d_looks d) (z_simple (i_sel j))) as [a|]; [|discriminate ST]. destruct (nth_error (d_looks d) (i_promo j)) as [b|]; [|discriminate ST].
        destruct (onode (i_path j) (d_ork d)) as [u|]; [|discriminate ST]. match type of ST with match ?e with _ => _ end = _ => destruct e as [[t0 r0]| |]; try discriminate ST end. injection ST as <- _. auto. }
      destruct Q as (Q1 & Q2 & Q3). rewrite Q2 in ND. destruct (cstep_stays d r s o x om HS NB ND CS) as (A & B & C0).
      unfold has, same_for, dactive, dholds_snap. rewrite Q1, Q2, Q3. auto.
    + destruct (tree_op c d o) as [op| |]; try discriminate ST. destruct (step op (d_tree d)) as [[t0 r0]| |]; try discriminate ST. injection ST as <- _. split; [exact HS|reflexivity].
  - destruct G as (I & T). pose proof (dtry_ok ok last d z del q b bulk rst dir cbk I T LI LG) as K. rewrite ST in K. cbn [outc fst] in K. destruct K as (_ & _ & _ & t & ->). split; [exact HS|reflexivity].
Qed.
Lemma qsteps_stays d d' r s : qsteps c (not_by r (s_id s)) d d' -> dgood last d -> has d r s -> has d' r s /\ same_for r d d'.
Proof.
  induction 1 as [d|d d1 d' S _ IH]; intros G HS; [split; [exact HS|reflexivity]|]. destruct (qstep_stays _ _ _ _ G HS S) as (HS1 & Q1).
  destruct (IH (qstep_ok ok last _ _ _ G S) HS1) as (HS2 & Q2). split; [exact HS2|]. unfold same_for in *. congruence.
Qed.

(** The moments of a search and of a scan leave ids to give out. *)
Lemma dsearch_ids may del q bulk rst dir cbs b d ds o d' : dsearch c may del q bulk rst dir cbs b d ds o d' -> forall d1, In d1 ds -> ids_left (d_ms d1).
Proof.
  assert (TR : forall d z del q b bulk rst dir cbk d1 v, ids_left (d_ms d) -> dtry c d z del q b bulk rst dir cbk = Ok (d1, v) -> ids_left (d_ms d1)).
  { intros d0 z del0 q0 b0 bulk0 rst0 dir0 cbk d1 v LI ST. unfold dtry in ST. destruct (info c d0 z _) as [g| |]; try discriminate ST. destruct (attempt _ _ _ _ _ _ _ _ _) as [[t r0]| |]; try discriminate ST. injection ST as <- _. exact LI. }
  induction 1 as [b d d1 ds o d2 S _ IH|b d z cbk d1 b' ds o d2 CB LI ST _ IH|b d z cbk d1 v o CB LI ST FI]; intros d3 I3; [auto| |].
  - destruct I3 as [<-|I3]; [eapply TR; eauto|auto].
  - destruct I3 as [<-|[]]. eapply TR; eauto.
Qed.
Lemma dscan_ids may del P rst o key d ds rs d' : dscan c may del P rst o key d ds rs d' -> forall d1, In d1 ds -> ids_left (d_ms d1).
Proof.
  induction 1 as [key d d1 ds rs d2 S SC IH|key d ds1 d1 ds rs d2 (q & bulk & dir & _ & OP) SC IH|key d ds1 out cur d1 ds rs d2 (q & bulk & dir & _ & OP) SC IH|key d ds v d1 (q & bulk & dir & _ & OP) RR]; intros d3 I3; auto.
  - apply in_app_or in I3. destruct I3 as [I3|I3]; [eapply dsearch_ids; eauto|auto].
  - apply in_app_or in I3. destruct I3 as [I3|I3]; [eapply dsearch_ids; eauto|auto].
  - eapply dsearch_ids; eauto.
Qed.

(** The meaning of the snapshot, at all moments. *)
Lemma stays_view d d1 r s y v : dgood last d -> has d r s -> qsteps c (not_by r (s_id s)) d d1 -> ids_left (d_ms d1) -> stored_at d1 y v ->
  dsees (ds_levels (dspec_of c (d_trace d)) r) (ds_frozen (dspec_of c (d_trace d)) (s_id s)) y
  = match v with Some w => cvalue C_READ_SNAPSHOT (through s r) w | None => None end
  /\ (forall w, v = Some w -> cgone C_READ_SNAPSHOT (through s r) w = match cvalue C_READ_SNAPSHOT (through s r) w with None => true | Some _ => false end).
Proof.
  intros G HS ST LI SA. destruct (qsteps_stays _ _ _ _ ST G HS) as ((AC & HS1) & SF). pose proof (qsteps_ok ok last _ _ _ ST G) as G1.
  destruct (stored_value d1 y v r s G1 LI AC HS1 SA) as (A & B). split; [|exact B]. rewrite <- A, SF. rewrite !dsees_at. f_equal. symmetry. eapply frozen_stays; eauto. apply HS.
Qed.
End P.
