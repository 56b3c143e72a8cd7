(** C09: the transaction manager's lists are exactly what the history of begins,
    snapshots and finishes defines. *)
From Verif Require Import Base UleModel MgrModel MgrSpec MgrProofs.
From Coq Require Import Sorted.
Open Scope N_scope.

(** No call a client may make trips an assertion of the manager, as long as ids
    are left. *)
Theorem C09_never_aborts : forall last ms o,
  mreach last ms -> mop_legal ms o -> ids_left ms -> mstep ms o <> None.
Proof.
  intros last ms o H L I. destruct (minv_step ms o (mreach_inv _ _ H) L I) as (ms' & E & _). congruence.
Qed.
Print Assumptions C09_never_aborts.

(** The live root list, and the snapshots with the live list each one was given. *)
Theorem C09_live_list : forall last ms, mreach last ms ->
  m_live (ms_mgr ms) = live_of (ms_hist ms)
  /\ (forall x, In x (m_live (ms_mgr ms)) <->
        In (EBegin x false) (ms_hist ms) /\ ~ In (EFinish x) (ms_hist ms)).
Proof.
  intros last ms H. pose proof (i_c _ (mreach_inv _ _ H)) as C. split; [apply C|].
  intros x. rewrite (c_live _ _ C). apply C.
Qed.
Print Assumptions C09_live_list.

Theorem C09_snapshots : forall last ms, mreach last ms ->
  m_snaps (ms_mgr ms) = snaps_of (ms_hist ms).
Proof. intros last ms H. apply (i_c _ (mreach_inv _ _ H)). Qed.
Print Assumptions C09_snapshots.

(** Ids are never handed out twice and grow with time. *)
Theorem C09_ids_fresh : forall last ms, mreach last ms ->
  StronglySorted (fun a b => b < a) (ids_of (ms_hist ms)).
Proof. intros last ms H. apply (i_c _ (mreach_inv _ _ H)). Qed.
Print Assumptions C09_ids_fresh.

(** The referenced ids: one record per finished writer that some held snapshot
    cannot see, counting those snapshots. *)
Theorem C09_referenced : forall last ms, mreach last ms ->
  NoDup (map rx_begin (m_ref (ms_mgr ms)))
  /\ forall x n,
     (exists e, In (mkRxt x e n) (m_ref (ms_mgr ms))) <->
     (finished (ms_hist ms) x /\ wrote (ms_hist ms) x
      /\ n = N.of_nat (length (blocked_by (ms_hist ms) x)) /\ 0 < n).
Proof.
  intros last ms H. pose proof (i_c _ (mreach_inv _ _ H)) as C. split.
  - pose proof (c_ref_sorted _ _ C) as S. induction S as [|a l S IH F]; cbn; constructor; auto.
    rewrite Forall_forall in F. intros Hi. apply in_map_iff in Hi. destruct Hi as (t & E & Ht).
    apply F in Ht. unfold rxt_lt in Ht. lia.
  - intros x n. split.
    + intros [e He]. destruct (c_ref _ _ C _ He) as (A & B & _ & _ & D & G). cbn in *. auto.
    + intros (A & B & D & G).
      destruct (c_ref_complete _ _ C x A B) as (t & Ht & E).
      { intros Hb. rewrite Hb in D. cbn in D. lia. }
      destruct (c_ref _ _ C _ Ht) as (_ & _ & _ & _ & D' & _). exists (rx_end t).
      destruct t as [b e r]. cbn in *. subst. auto.
Qed.
Print Assumptions C09_referenced.

(** The lookup used by garbage collection returns the youngest held snapshot
    that cannot see the finished writer, or none. *)
Theorem C09_youngest_snapshot : forall last ms x, mreach last ms ->
  finished (ms_hist ms) x -> wrote (ms_hist ms) x ->
  youngest_live_list_for x (map s_id (m_snaps (ms_mgr ms))) (m_ref (ms_mgr ms))
  = List.last (map s_id (blocked_by (ms_hist ms) x)) TXNID_NONE.
Proof. intros last ms x H. apply youngest_live_list_ok. apply (mreach_inv _ _ H). Qed.
Print Assumptions C09_youngest_snapshot.

(** Everything below the published oldest referenced id is finished, and seen by
    every held snapshot if it wrote. *)
Theorem C09_oldest_referenced : forall last ms x, mreach last ms ->
  begun (ms_hist ms) x -> x < m_oldest (ms_mgr ms) ->
  finished (ms_hist ms) x
  /\ (wrote (ms_hist ms) x -> forall s, In s (snaps_of (ms_hist ms)) ->
        exists h1 h2, ms_hist ms = h1 ++ ESnap (s_id s) :: h2 /\ finished h2 x).
Proof.
  intros last ms x H Hb Hlt. pose proof (i_c _ (mreach_inv _ _ H)) as C.
  destruct (c_oldest _ _ C x Hb Hlt) as [A B]. split; auto.
  intros Hw s Hs. eapply sees_iff; eauto.
Qed.
Print Assumptions C09_oldest_referenced.

(** A transaction holding a snapshot reads exactly its own root's writes and
    those of the transactions that finished before the snapshot was taken. *)
Theorem C09_snapshot_reads : forall last ms r s x, mreach last ms ->
  In r (ms_roots ms) -> (r_snap r = Some s \/ In (r_xid r, s) (ms_child ms)) ->
  begun (ms_hist ms) x ->
  (txn_reads_txnid x (mkReader (s_id s) (s_live s) (r_xid r)) = true <->
   x = r_xid r \/
   exists h1 h2, ms_hist ms = h1 ++ ESnap (s_id s) :: h2 /\ finished h2 x).
Proof.
  intros last ms r s x H Hr Hs Hx. pose proof (mreach_inv _ _ H) as M.
  pose proof (i_c _ M) as C.
  assert (Hlt : r_xid r < s_id s).
  { destruct Hs as [Hs|Hs]; [eapply i_rsnap; eauto|apply (i_child _ M _ _ Hs)]. }
  assert (Hin : In s (snaps_of (ms_hist ms))).
  { apply (i_own _ M). unfold owned. apply in_or_app. destruct Hs as [Hs|Hs].
    - left. apply root_snaps_in. eauto.
    - right. apply in_map_iff. exists (r_xid r, s). auto. }
  destruct (N.eq_dec x (r_xid r)) as [E|Hne].
  - split; auto. intros _. apply reads_own; auto.
  - rewrite (reads_iff _ _ _ _ _ C Hin Hlt Hx Hne), (sees_iff _ _ _ _ C Hin Hx). tauto.
Qed.
Print Assumptions C09_snapshot_reads.

(** ** A run that exercises the theorems *)
Fixpoint mrun (ms : msys) (os : list mop) : option msys :=
  match os with [] => Some ms | o :: os' => do ms' <- mstep ms o; mrun ms' os' end.

(** Writer 1, snapshot reader 2 (snapshot 3), writer 4 with a child snapshot 5,
    reader 6 (snapshot 7); then 1 and 4 finish while 3 and 7 are held; 4's child
    is done; a third snapshot reader starts. *)
Definition c09_ops : list mop :=
  [MBegin false false; MWrite 1; MBegin true true; MBegin false false; MChildSnap 4;
   MWrite 4; MBegin true true; MFinish 1; MChildSnapEnd 5; MFinish 4; MBegin false true].

Definition c09_state : msys :=
  match mrun (msys_init 0) c09_ops with Some ms => ms | None => msys_init 0 end.

Ltac mlegal := cbn; first [exact I
  | discriminate
  | (eexists; split; [reflexivity|reflexivity])
  | (do 2 eexists; split; [left; reflexivity|reflexivity])
  | (split; [discriminate|intros n Hn; repeat (destruct Hn as [Hn|Hn]; [try discriminate Hn|]); auto])].

Lemma mrun_reach last ms os ms' :
  mreach last ms -> mrun ms os = Some ms' ->
  (forall k a b, mrun ms (firstn k os) = Some a -> nth_error os k = Some b ->
      mop_legal a b /\ ids_left a) -> mreach last ms'.
Proof.
  revert ms. induction os as [|o os IH]; intros ms H E L.
  - cbn in E. injection E as <-. exact H.
  - cbn [mrun] in E. destruct (mstep ms o) as [m1|] eqn:Em; [|discriminate].
    destruct (L 0%nat ms o) as [L1 L2]; [reflexivity|reflexivity|].
    apply (IH m1); auto. { eapply mreach_step; eauto. }
    intros k a b Ha Hb. apply (L (S k)); auto. cbn [firstn mrun]. rewrite Em. exact Ha.
Qed.

Example c09_reachable : mreach 0 c09_state.
Proof.
  apply (mrun_reach 0 (msys_init 0) c09_ops).
  - apply mreach_init. reflexivity.
  - vm_compute. reflexivity.
  - intros k a b Ha Hb.
    do 11 (destruct k as [|k];
      [vm_compute in Ha; injection Ha as <-; injection Hb as <-; split; [mlegal|vm_compute; reflexivity]|]).
    destruct k; discriminate.
Qed.

Example c09_values :
  m_live (ms_mgr c09_state) = [10]
  /\ map s_id (m_snaps (ms_mgr c09_state)) = [3; 7; 11]
  /\ m_ref (ms_mgr c09_state) = [mkRxt 1 8 2; mkRxt 4 9 1]
  /\ youngest_live_list_for 1 [3; 7; 11] (m_ref (ms_mgr c09_state)) = 7.
Proof. vm_compute. repeat split; reflexivity. Qed.
