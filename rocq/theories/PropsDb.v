(** C47: a dictionary under transactions, from the clients down to the leaves of the
    tree: every read through the tree returns what the transactions mean. *)
From Verif Require Import Base Bytes LtSpec KOrd UleModel MgrModel MgrProofs MvccModel MvccSpec MvccSync MvccSys MvccRead MvccRun PropsMvcc.
From Verif Require Import FtModel FtSpec FtSeg FtOps FtSys OrkModel OrkProofs DbModel DbSpec DbSpecProofs DbProj DbInv DbReplay DbRun KeyCmp.
Open Scope nat_scope.

Section P.
Context {c : bytes -> bytes -> comparison} (ok : cmp_ok c).
Local Notation db := (db c).
Implicit Types (k : bytes) (d : db).

(** Transaction [r] has taken snapshot [s] (ft/txn/txn.cc:240-262). *)
Definition dholds_snap d (r : txnid) (s : snap) : Prop :=
  (exists rt, In rt (ms_roots (d_ms d)) /\ r_xid rt = r /\ r_snap rt = Some s) \/ In (r, s) (ms_child (d_ms d)).

(** No assertion fails, whatever clients and tree do. *)
Theorem C47_no_abort last d o : dreach c last d -> dop_legal c d o -> ids_left (d_ms d) -> dstep c d o <> Fail.
Proof.
  intros R LG LI. destruct (dreach_inv ok last d R) as (I & T). pose proof (dstep_ok ok last d o I T LG LI) as K.
  destruct (dstep c d o); [discriminate|discriminate|contradiction].
Qed.

Lemma query_copy last d d' z k v : dreach c last d -> ids_left (d_ms d) -> dstep c d (DTree (TQuery z k)) = Ok (d', v) ->
  exists w y A, v = Some w /\ rreach last y /\ current_copy y A /\ entry w = Some A /\ y_ms y = d_ms d /\ y_txns y = map (ptxn (c:=c) k) (d_txns d)
    /\ y_lock y = d_lock d k /\ y_trace y = ptrace c k (d_trace d).
Proof.
  intros R LI ST. destruct (dreach_inv ok last d R) as (I & T). pose proof (dstep_ok ok last d (DTree (TQuery z k)) I T Logic.I LI) as K. rewrite ST in K. cbn [outc fst snd dreply] in K.
  destruct K as (I' & T' & w & gs & -> & C). exists w.
  assert (SM : d_ms d' = d_ms d /\ d_txns d' = d_txns d /\ d_lock d' = d_lock d /\ d_trace d' = d_trace d).
  { cbn [dstep] in ST. destruct (tree_op c d (TQuery z k)) as [op| |]; try discriminate ST. destruct (step op (d_tree d)) as [[t r]| |]; try discriminate ST. injection ST as <- _. auto. }
  destruct SM as (S1 & S2 & S3 & S4).
  destruct (stored_copy last d' k I' ltac:(rewrite S1; exact LI) w gs C) as (y & A & K1 & K2 & K3 & K4 & K5 & K6 & K7).
  exists y, A. rewrite <- S1, <- S2, <- S3, <- S4. auto 10.
Qed.
Lemma proj_active d r k y : y_txns y = map (ptxn (c:=c) k) (d_txns d) -> dactive c d r -> active y r.
Proof. intros Q (t & F & P). exists (ptxn (c:=c) k t). rewrite Q, find_proj, F. cbn [option_map ptxn t_phase]. rewrite P. auto. Qed.

(** A transaction that reads from its snapshot gets, whatever the tree looks like,
    its own innermost write of the key, else what was committed when the snapshot
    was taken. *)
Theorem C47_snapshot_read last d d' z k v r s :
  dreach c last d -> ids_left (d_ms d) -> dactive c d r -> dholds_snap d r s ->
  dstep c d (DTree (TQuery z k)) = Ok (d', v) ->
  let sp := dspec_of c (d_trace d) in
  exists w A, v = Some w /\ entry w = Some A
    /\ row_read C_READ_SNAPSHOT (through s r) A = Some (dsees (ds_levels sp r) (ds_frozen sp (s_id s)) k).
Proof.
  intros R LI AC HS ST sp. destruct (query_copy _ _ _ _ _ _ R LI ST) as (w & y & A & Q & R' & CC & EN & Y1 & Y2 & Y3 & Y4).
  exists w, A. split; [exact Q|]. split; [exact EN|].
  rewrite (C01_snapshot_read last y r s A R' (proj_active _ _ _ _ Y2 AC)); [|unfold holds_snap; rewrite Y1; exact HS|exact CC].
  rewrite dsees_at. pose proof (spec_agrees ok (d_trace d) k) as (_ & G2 & G3). rewrite Y4, G2, G3. reflexivity.
Qed.

(** A transaction that holds the row lock of the key gets its own innermost write,
    else what is committed. *)
Theorem C47_locked_read last d d' z k v r rd :
  dreach c last d -> ids_left (d_ms d) -> dactive c d r -> d_lock d k = Some r ->
  dstep c d (DTree (TQuery z k)) = Ok (d', v) ->
  let sp := dspec_of c (d_trace d) in
  exists w A, v = Some w /\ entry w = Some A /\ row_read C_READ_ANY rd A = Some (dsees (ds_levels sp r) (ds_val sp) k).
Proof.
  intros R LI AC HL ST sp. destruct (query_copy _ _ _ _ _ _ R LI ST) as (w & y & A & Q & R' & CC & EN & Y1 & Y2 & Y3 & Y4).
  exists w, A. split; [exact Q|]. split; [exact EN|]. rewrite <- Y3 in HL.
  rewrite (C05_locked_read last y r A rd R' (proj_active _ _ _ _ Y2 AC) HL CC).
  rewrite dsees_at. pose proof (spec_agrees ok (d_trace d) k) as (G1 & G2 & G3). rewrite Y4, G1, G2. reflexivity.
Qed.

(** A key nobody has locked reads as committed. *)
Theorem C47_unlocked_read last d d' z k v rd :
  dreach c last d -> ids_left (d_ms d) -> d_lock d k = None ->
  dstep c d (DTree (TQuery z k)) = Ok (d', v) ->
  exists w A, v = Some w /\ entry w = Some A /\ row_read C_READ_ANY rd A = Some (ds_val (dspec_of c (d_trace d)) k).
Proof.
  intros R LI HL ST. destruct (query_copy _ _ _ _ _ _ R LI ST) as (w & y & A & Q & R' & CC & EN & Y1 & Y2 & Y3 & Y4).
  exists w, A. split; [exact Q|]. split; [exact EN|]. rewrite <- Y3 in HL.
  rewrite (C05_unlocked_read last y A rd R' HL CC). pose proof (spec_agrees ok (d_trace d) k) as (G1 & G2 & G3). rewrite Y4, G1. reflexivity.
Qed.

(** ** Snapshots *)

(** A snapshot is of the dictionary committed when the transaction begins. *)
Theorem C47_frozen_at_begin last d d' j v : dreach c last d -> dstep c d (DClient (CBegin false true) j) = Ok (d', v) ->
  exists r s, dholds_snap d' r s /\ dactive c d' r
    /\ (forall k, ds_frozen (dspec_of c (d_trace d')) (s_id s) k = ds_val (dspec_of c (d_trace d)) k).
Proof.
  intros R ST. destruct (dreach_inv ok last d R) as (I & _). cbn [dstep cstep] in ST.
  destruct (mstep (d_ms d) (MBegin false true)) as [ms|] eqn:M; [|discriminate ST]. destruct (rev (ms_roots ms)) as [|nr rs] eqn:RV; [discriminate ST|].
  cbn [must] in ST. injection ST as <- _.
  destruct (C01_frozen_at_begin last (proj (c:=c) [] d)
    (note (match r_snap nr with
      | Some s => note (mkRsys ms (y_txns (proj (c:=c) [] d) ++ [mkRtxn (r_xid nr) [mkLevel (r_xid nr) []] TXNID_NONE PActive]) (d_lock d []) (y_msgs (proj (c:=c) [] d)) [(0, None)] (y_obs (proj (c:=c) [] d)) (y_trace (proj (c:=c) [] d))) (VBegin (r_xid nr))
      | None => mkRsys ms (y_txns (proj (c:=c) [] d) ++ [mkRtxn (r_xid nr) [mkLevel (r_xid nr) []] TXNID_NONE PActive]) (d_lock d []) (y_msgs (proj (c:=c) [] d)) [(0, None)] (y_obs (proj (c:=c) [] d)) (y_trace (proj (c:=c) [] d)) end)
      (match r_snap nr with Some s => VSnap (s_id s) | None => VBegin (r_xid nr) end))) as (r & s & TR & HS & AC & _).
  - apply (p_rows last d I []).
  - cbn [rstep proj y_ms]. rewrite M, RV. destruct (r_snap nr); reflexivity.
  - exists r, s. destruct (r_snap nr) as [s0|] eqn:SN; cbn [note y_trace] in TR.
    2:{ exfalso. apply (f_equal (@length _)) in TR. cbn [length] in TR. lia. }
    injection TR as T1 T2. split; [exact HS|]. split.
    + destruct AC as (t & F & P). cbn [note y_txns proj] in F. subst r.
      assert (F' : find_txn (r_xid nr) (map (ptxn (c:=c) []) (d_txns d ++ [mkDtxn (r_xid nr) [mkDlevel (r_xid nr) []] TXNID_NONE QActive])) = Some t) by (rewrite map_app; exact F).
      rewrite find_proj in F'. unfold dactive. cbn [d_txns]. destruct (dfind _ _) as [t0|]; [|discriminate F']. injection F' as <-. exists t0. split; [reflexivity|]. cbn [ptxn t_phase] in P. destruct (d_phase t0); try discriminate P. reflexivity.
    + intros k. cbn [d_trace c_trace app dspec_of dspec_step ds_frozen ds_val]. rewrite T1, upd_same. reflexivity.
Qed.

Lemma rsteps_app y1 y2 : rsteps y1 y2 -> forall y3, rsteps y2 y3 -> rsteps y1 y3.
Proof. induction 1; intros y3 S3; [exact S3|]. eapply rs_step; eauto. Qed.
Lemma dstep_proj last d o d' v k : dinv (c:=c) last d -> tree_inv d -> dop_legal c d o -> ids_left (d_ms d) -> dstep c d o = Ok (d', v) ->
  rsteps (proj (c:=c) k d) (proj k d').
Proof.
  intros I T LG LI ST.
  assert (LO : forall dd t oo, dinv (c:=c) last dd -> ids_left (d_ms dd) -> rsteps (proj (c:=c) k dd) (proj k (looked dd t oo))).
  { intros dd t oo I' LI'. eapply rs_step with (o := OObserve); [exact Logic.I|exact LI'| |apply rs_refl]. cbn [rstep]. unfold proj, looked.
    cbn [d_ms d_txns d_lock d_sent d_looks d_trace y_ms y_txns y_lock y_msgs y_copies y_obs y_trace]. rewrite map_app. cbn [map]. unfold plook at 3. cbn [lk_n now lk_mgr lk_hist]. rewrite firstn_all. reflexivity. }
  destruct o as [|o j|o]; cbn [dstep dop_legal] in *.
  - injection ST as <- _. apply (LO d); auto.
  - destruct (cstep c d o) as [[x om]|] eqn:CS; cbn [must] in ST; [|discriminate ST].
    assert (M : rsteps (proj (c:=c) k d) (proj k (after d x om))).
    { destruct (client_moves last d o x om k I LG CS) as [->|(op & L & S1)]; [apply rs_refl|]. eapply rs_step; [exact L|exact LI|exact S1|apply rs_refl]. }
    destruct om as [m|].
    + destruct (nth_error (d_looks d) (z_simple (i_sel j))) as [a|]; [|discriminate ST]. destruct (nth_error (d_looks d) (i_promo j)) as [b|]; [|discriminate ST].
      destruct (onode (i_path j) (d_ork d)) as [u|]; [|discriminate ST].
      match type of ST with match ?e with _ => _ end = _ => destruct e as [[t r]| |]; try discriminate ST end. injection ST as <- _.
      eapply rsteps_app; [exact M|]. pose proof (after_inv ok last d o x (Some m) I LG LI CS) as I'.
      assert (LI' : ids_left (d_ms (after d x (Some m)))) by (unfold ids_left; cbn [after d_ms]; rewrite (sent_ids _ _ _ _ CS); exact LI).
      match goal with |- rsteps _ (proj _ (mkDb _ _ _ _ _ _ _ ?t ?oo)) => pose proof (LO (after d x (Some m)) t oo I' LI') as K end.
      unfold looked in K. cbn [after d_ms d_txns d_lock d_sent d_looks d_trace] in K. rewrite app_length in K. cbn [length] in K. rewrite Nat.add_1_r in K. exact K.
    + injection ST as <- _. unfold after in M. rewrite app_nil_r in M. exact M.
  - destruct (tree_op c d o) as [op| |]; try discriminate ST. destruct (step op (d_tree d)) as [[t r]| |]; try discriminate ST. injection ST as <- _. apply (LO d); auto.
Qed.
Lemma dsteps_proj last d d' k : dsteps c d d' -> dreach c last d -> rsteps (proj (c:=c) k d) (proj k d').
Proof.
  induction 1 as [d|d o d1 r d' LG LI ST S IH]; intros R; [apply rs_refl|]. destruct (dreach_inv ok last d R) as (I & T).
  eapply rsteps_app; [eapply dstep_proj; eauto|]. apply IH. eapply dreach_step; eauto.
Qed.

(** As long as a transaction holds its snapshot, nothing anybody does changes it. *)
Theorem C47_snapshot_stays last d d' r s k : dreach c last d -> dholds_snap d r s -> dsteps c d d' ->
  ds_frozen (dspec_of c (d_trace d')) (s_id s) k = ds_frozen (dspec_of c (d_trace d)) (s_id s) k.
Proof.
  intros R HS ST. pose proof (dsteps_proj last d d' k ST R) as SP. destruct (dreach_inv ok last d R) as (I & _). pose proof (p_rows last d I k) as RR.
  destruct (rreach_inv _ _ RR) as (T & _). destruct (holds_fx (proj (c:=c) k d) T r s HS) as (Hin & _).
  destruct (rsteps_keeps last _ _ SP RR) as (_ & _ & _ & Hf).
  pose proof (spec_agrees ok (d_trace d) k) as (_ & _ & G). pose proof (spec_agrees ok (d_trace d') k) as (_ & _ & G'). rewrite <- G, <- G'.
  apply Hf. eapply snap_old; eauto. apply (i_c _ (t_m T)).
Qed.

(** ** The bounds in the nodes *)

(** oldest_referenced_xid_known of every node was read from the transaction manager
    before any message was sent that is still in a buffer above the node. *)
Theorem C47_promotion_bound last d path pend t : dreach c last d -> node_at path [] (s_tree (d_tree d)) = Some (pend, t) ->
  exists o, onode path (d_ork d) = Some o /\ In (oval o) (d_looks d)
    /\ forall e, In e pend -> (MIN_MSN + N.of_nat (lk_n (oval o)) < e_msn e)%N.
Proof.
  intros R N1. destruct (dreach_inv ok last d R) as (I & T).
  destruct (okt_at n0 (s_top (d_tree d)) path [] [] (d_ork d) _ _ _ eq_refl (q_ork d T) N1) as (o & No & KO). exists o. split; [exact No|]. split.
  - apply (oall_val (fun v => In v (d_looks d))). eapply oall_onode; [apply (q_in d T)|exact No].
  - intros e Ie. apply okt_head in KO. destruct KO as (_ & H2). specialize (H2 (e_msn e) (in_map _ _ _ Ie)). unfold n0 in H2. lia.
Qed.
End P.
Print Assumptions C47_no_abort.
Print Assumptions C47_snapshot_read.
Print Assumptions C47_locked_read.
Print Assumptions C47_unlocked_read.
Print Assumptions C47_frozen_at_begin.
Print Assumptions C47_snapshot_stays.
Print Assumptions C47_promotion_bound.

(** ** Examples: the hypotheses are met *)
Definition qans (d : db key_cmp) (k : bytes) : option (option ule) :=
  match dstep key_cmp d (DTree (TQuery Z0 k)) with Ok (_, Some w) => entry w | _ => None end.
Definition snap12d : snap := mkSnap 13%N [12%N].

Lemma drun_get os d : drun key_cmp os d <> None -> drun key_cmp os d = Some (dget (drun key_cmp os d)).
Proof. destruct (drun key_cmp os d); [auto|congruence]. Qed.
Example dbx1_reach : dreach key_cmp 10%N dbx1.
Proof. apply (drun_reach key_cmp 10%N db_ops1 (db_init key_cmp 10%N)); [apply dreach_init; reflexivity|]. apply drun_get. vm_compute. discriminate. Qed.
Example dbx1_dbx2 : dsteps key_cmp dbx1 dbx2.
Proof. apply (drun_steps key_cmp db_ops2). apply drun_get. vm_compute. discriminate. Qed.
Example dbx2_reach : dreach key_cmp 10%N dbx2.
Proof. apply (drun_reach key_cmp 10%N db_ops2 dbx1); [apply dbx1_reach|]. apply drun_get. vm_compute. discriminate. Qed.

(** 12 still reads rows 1 and 3 as they were, while 14 has committed. *)
Example dbx2_reader : dactive key_cmp dbx2 12%N /\ dholds_snap dbx2 12%N snap12d
  /\ (exists d' v, dstep key_cmp dbx2 (DTree (TQuery Z0 (K 3))) = Ok (d', v))
  /\ (let sp := dspec_of key_cmp (d_trace dbx2) in
      dsees (ds_levels sp 12%N) (ds_frozen sp 13%N) (K 3) = Some [3%N] /\ ds_val sp (K 3) = None
      /\ dsees (ds_levels sp 12%N) (ds_frozen sp 13%N) (K 1) = Some [1%N] /\ ds_val sp (K 1) = Some [9%N])
  /\ d_lock dbx2 (K 3) = None
  /\ match qans dbx2 (K 3) with Some A => row_read C_READ_SNAPSHOT (through snap12d 12%N) A = Some (Some [3%N]) | None => False end
  /\ match qans dbx2 (K 1) with Some A => row_read C_READ_SNAPSHOT (through snap12d 12%N) A = Some (Some [1%N]) | None => False end.
Proof.
  split; [apply dactiveb_ok; vm_compute; reflexivity|]. split; [left; exists (mkRoot 12%N false (Some snap12d) false); vm_compute; auto|].
  split.
  { assert (Q : match dstep key_cmp dbx2 (DTree (TQuery Z0 (K 3))) with Ok _ => true | _ => false end = true) by (vm_compute; reflexivity).
    destruct (dstep key_cmp dbx2 (DTree (TQuery Z0 (K 3)))) as [[d' v]| |]; [eauto|discriminate Q|discriminate Q]. }
  split; [split; [vm_compute; reflexivity|]; split; [vm_compute; reflexivity|]; split; vm_compute; reflexivity|].
  split; [vm_compute; reflexivity|]. split; vm_compute; reflexivity.
Qed.
(** 14 sees its child's delete before it commits. *)
Example dbx1_writer : dactive key_cmp dbx1 14%N /\ d_lock dbx1 (K 3) = Some 14%N
  /\ dsees (ds_levels (dspec_of key_cmp (d_trace dbx1)) 14%N) (ds_val (dspec_of key_cmp (d_trace dbx1))) (K 3) = None
  /\ ds_val (dspec_of key_cmp (d_trace dbx1)) (K 3) = Some [3%N].
Proof. split; [apply dactiveb_ok; vm_compute; reflexivity|]. split; [vm_compute; reflexivity|]. split; vm_compute; reflexivity. Qed.
(** A message waits above the second leaf, whose bound is older; the root's is newer. *)
Example dbx2_bound : exists pend t, node_at [1] [] (s_tree (d_tree dbx2)) = Some (pend, t) /\ length pend = 2
  /\ match d_ork dbx2 with ON v ch => lk_n v = 3 /\ map (fun o => lk_n (oval o)) ch = [3; 0] end.
Proof.
  assert (Q : match node_at [1] [] (s_tree (d_tree dbx2)) with Some (pend, _) => Nat.eqb (length pend) 2 | None => false end = true) by (vm_compute; reflexivity).
  destruct (node_at [1] [] (s_tree (d_tree dbx2))) as [[pend t]|]; [|discriminate Q]. apply Nat.eqb_eq in Q. exists pend, t. split; [reflexivity|]. split; [exact Q|]. vm_compute. auto.
Qed.
