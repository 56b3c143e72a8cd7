(** C01-C05, C35, C37, C38: what readers of a row see under nested transactions,
    snapshots, implicit promotion and garbage collection.

    [rreach last y]: [y] is a state of the row system (MvccModel.v) after any number
    of legal operations of any number of transactions.  The row is stored in copies
    of a leaf entry ([y_copies]), each of which has absorbed a prefix of the messages
    sent to the row ([y_msgs]); [spec_of (y_trace y)] is what the users did, according
    to MvccSpec.v. *)
From Verif Require Import Base Bytes UleModel UleSpec LeCodecProofs LeAccProofs UleWf
  MgrModel MgrSpec MgrProofs MvccModel MvccSpec StackProofs MvccGc MvccRow MvccApply MvccAsync MvccSys
  MvccSync MvccRead MvccErase MvccRun MvccRca.
Open Scope N_scope.

(** The reader of transaction family [r] through snapshot [s]. *)
Definition through (s : snap) (r : txnid) : reader := mkReader (s_id s) (s_live s) r.

(** A copy that has absorbed every message sent so far. *)
Definition current_copy (y : rsys) (A : option ule) : Prop := In (length (y_msgs y), A) (y_copies y).

(** * Nothing a client, the tree or the collector may do runs into an assertion *)

Theorem mvcc_no_abort last y o : rreach last y -> rop_legal y o -> ids_left (y_ms y) ->
  exists y', rstep y o = Some y' /\ rreach last y'.
Proof.
  intros R Hl Hi. destruct (rreach_inv _ _ R) as [T A]. destruct (sys_step y o T A Hl Hi) as (y' & E & _).
  exists y'. split; auto. eapply rreach_step; eauto.
Qed.
Print Assumptions mvcc_no_abort.

(** * C01: snapshot readers *)

Theorem C01_snapshot_read last y r s A :
  rreach last y -> active y r -> holds_snap y r s -> current_copy y A ->
  let sp := spec_of (y_trace y) in
  row_read C_READ_SNAPSHOT (through s r) A = Some (sees (sp_levels sp r) (sp_frozen sp (s_id s))).
Proof.
  intros R Ha Hs Hc sp. destruct (rreach_inv _ _ R) as [T AI]. pose proof (rreach_sync _ _ R) as S.
  rewrite row_read_snap.
  destruct (copy_iter y AI _ _ _ Hc (serves_reader y T r s Hs)) as (x & b & E1 & E2 & E3). unfold through. rewrite E1, E3.
  destruct (ideal_snapshot y T S r s Ha Hs) as (b' & E4 & E5). rewrite E4 in E2. apply Some_inj in E2. subst b'.
  f_equal. exact E5.
Qed.
Print Assumptions C01_snapshot_read.

(** [sp_frozen] of a snapshot is the committed value when it was taken, and stays:
    later commits by others do not change what the reader obtains. *)
Theorem C01_frozen_at_begin last y y' : rreach last y -> rstep y (OBegin false true) = Some y' ->
  exists r s, y_trace y' = VSnap (s_id s) :: VBegin r :: y_trace y /\ holds_snap y' r s /\ active y' r
    /\ sp_frozen (spec_of (y_trace y')) (s_id s) = sp_val (spec_of (y_trace y)).
Proof.
  intros R E. cbn [rstep] in E. destruct (rreach_inv _ _ R) as [T _].
  destruct (mstep (y_ms y) (MBegin false true)) as [ms'|] eqn:Em; [|discriminate].
  destruct (begin_fx _ _ _ _ Em) as (x & os & Er & _ & _ & Ex & Es). rewrite Er, rev_app_distr in E. cbn [rev app r_xid r_snap] in E.
  assert (Hos : os <> None).
  { cbn [mstep] in Em. unfold start_txn in Em. destruct (next_xid _) as [[x' m1]|]; [|discriminate].
    destruct (set_oldest _); [|discriminate]. destruct (create_snapshot _) as [[s0 m0]|]; [|discriminate].
    apply Some_inj in Em. subst ms'. cbn [ms_roots] in Er. apply app_inj_tail in Er. destruct Er as [_ Er]. congruence. }
  destruct os as [s|]; [|congruence]. apply Some_inj in E. subst y'. exists x, s. cbn [y_trace note]. split; auto.
  split; [left; exists (mkRoot x false (Some s) false); cbn [y_ms note]; rewrite Er; split; [apply in_app_iff; right; left; auto|auto]|].
  split.
  - exists (mkRtxn x [mkLevel x []] TXNID_NONE PActive). cbn [y_txns note]. split; auto.
    unfold find_txn. rewrite find_app_none; [cbn; rewrite N.eqb_refl; auto|].
    apply find_txn_none. intros t Ht. 
    assert (Hr : In (t_root t) (map r_xid (ms_roots (y_ms y)))) by (rewrite <- (t_roots T); apply in_map; auto).
    apply in_map_iff in Hr. destruct Hr as (rt & Et & Hrt). destruct (i_roots _ (t_m T) rt Hrt) as (Hb & _).
    apply begin_in_ids in Hb. rewrite Et in Hb. apply (c_last _ _ (i_c _ (t_m T))) in Hb. lia.
  - cbn [spec_of spec_step sp_frozen sp_val]. apply upd_same.
Qed.
Print Assumptions C01_frozen_at_begin.

Theorem C01_repeatable_read last y y' r s A A' :
  rreach last y -> active y r -> holds_snap y r s -> current_copy y A ->
  rsteps y y' -> active y' r -> holds_snap y' r s -> current_copy y' A' ->
  (* the reader itself has not changed the row in between *)
  own (sp_levels (spec_of (y_trace y')) r) = own (sp_levels (spec_of (y_trace y)) r) ->
  row_read C_READ_SNAPSHOT (through s r) A' = row_read C_READ_SNAPSHOT (through s r) A.
Proof.
  intros R Ha Hs Hc St Ha' Hs' Hc' Ho. pose proof (rsteps_reach _ _ _ St R) as R'.
  rewrite (C01_snapshot_read last y r s A), (C01_snapshot_read last y' r s A') by auto. f_equal. unfold sees. rewrite Ho.
  destruct (rreach_inv _ _ R) as [T _]. destruct (holds_fx y T r s Hs) as (Hin & _).
  destruct (rsteps_keeps last y y' St R) as (_ & _ & _ & Hf).
  rewrite Hf; auto. eapply snap_old; eauto. apply (i_c _ (t_m T)).
Qed.
Print Assumptions C01_repeatable_read.

(** * C02, C03: collection and promotion are invisible *)

(** Copies that have absorbed the same messages, whatever was collected or promoted
    in them and whenever, read alike: for every transaction with a snapshot, for a
    reader that looks at the newest value. *)
Theorem C02_copies_read_alike last y k A1 A2 :
  rreach last y -> In (k, A1) (y_copies y) -> In (k, A2) (y_copies y) ->
  (forall r s, holds_snap y r s ->
     row_read C_READ_SNAPSHOT (through s r) A1 = row_read C_READ_SNAPSHOT (through s r) A2
     /\ row_read C_READ_SNAPSHOT (through s r) A1 <> None)
  /\ (forall rd, row_read C_READ_ANY rd A1 = row_read C_READ_ANY rd A2 /\ row_read C_READ_ANY rd A1 <> None).
Proof.
  intros R H1 H2. destruct (rreach_inv _ _ R) as [T AI]. split.
  - intros r s Hs. rewrite !row_read_snap. pose proof (serves_reader y T r s Hs) as Sv.
    destruct (copy_iter y AI _ _ _ H1 Sv) as (x1 & b1 & E1 & F1 & G1).
    destruct (copy_iter y AI _ _ _ H2 Sv) as (x2 & b2 & E2 & F2 & G2). unfold through. rewrite E1, E2.
    rewrite F1 in F2. apply Some_inj in F2. subst b2. split; [congruence|discriminate].
  - intros rd. rewrite (copy_any y AI _ _ rd H1), (copy_any y AI _ _ rd H2). split; [auto|discriminate].
Qed.
Print Assumptions C02_copies_read_alike.

(** Running the full collector on a copy, with any look at the transaction manager
    the tree may use: no assertion fails, and now and at any later time every reader
    gets from the result what it would have got from the copy itself. *)
Theorem C02_collection_invisible last y y' j g k u :
  rreach last y -> nth_error (y_copies y) j = Some (k, Some u) -> rop_legal y (OGc j g) -> ids_left (y_ms y) ->
  exists gi, mk_gi (y_obs y) g = Some gi /\ exists A', le_garbage_collect u gi = Some A' /\ 
  forall y1, rstep y (OGc j g) = Some y1 -> rsteps y1 y' ->
    (forall r s, holds_snap y' r s ->
       row_read C_READ_SNAPSHOT (through s r) A' = row_read C_READ_SNAPSHOT (through s r) (Some u))
    /\ (forall rd, row_read C_READ_ANY rd A' = row_read C_READ_ANY rd (Some u)).
Proof.
  intros R Hj Hl Hi. destruct (mvcc_no_abort _ _ _ R Hl Hi) as (y0 & E0 & R0). pose proof E0 as E0'.
  cbn [rstep] in E0. rewrite Hj in E0. destruct (mk_gi (y_obs y) g) as [gi|] eqn:Eg; [|discriminate].
  exists gi. split; auto. destruct (le_garbage_collect u gi) as [A'|] eqn:Eu; [|discriminate].
  exists A'. split; auto. apply Some_inj in E0. intros y1 E1 St. rewrite E0' in E1. apply Some_inj in E1. subst y1.
  destruct (rsteps_keeps _ _ _ St R0) as (_ & (d & Ed) & _).
  assert (H1 : In (k, A') (y_copies y')).
  { rewrite Ed, <- E0. cbn [y_copies]. apply in_app_iff. left. apply in_app_iff. right. left. auto. }
  assert (H2 : In (k, Some u) (y_copies y')).
  { rewrite Ed, <- E0. cbn [y_copies]. apply in_app_iff. left. apply in_app_iff. left. eapply nth_error_In; eauto. }
  destruct (C02_copies_read_alike last y' k A' (Some u)) as [Ha Hb]; auto; [eapply rsteps_reach; eauto|].
  split; [intros r s Hs; apply Ha; auto|intros rd; apply Hb].
Qed.
Print Assumptions C02_collection_invisible.

(** Promotion happens while a message is applied, under a bound [gc_promo] read from
    the transaction manager, together with the simple collection under [gc_simple].
    Applying the same message to the same copy under two looks (one may promote, the
    other not) gives entries that read alike, now and later. *)
Theorem C03_promotion_invisible last y j g1 g2 y1 y2 y' A0 k A1 A2 :
  rreach last y -> nth_error (y_copies y) j = Some (k, A0) ->
  rop_legal y (OApply j g1) -> rstep y (OApply j g1) = Some y1 -> ids_left (y_ms y) ->
  rop_legal y1 (OApply j g2) -> rstep y1 (OApply j g2) = Some y2 ->
  y_copies y2 = y_copies y ++ [(S k, A1)] ++ [(S k, A2)] ->
  rsteps y2 y' ->
  (forall r s, holds_snap y' r s ->
     row_read C_READ_SNAPSHOT (through s r) A1 = row_read C_READ_SNAPSHOT (through s r) A2)
  /\ (forall rd, row_read C_READ_ANY rd A1 = row_read C_READ_ANY rd A2).
Proof.
  intros R Hj Hl1 E1 Hi Hl2 E2 Ec St. pose proof (rreach_step _ _ _ _ R Hl1 Hi E1) as R1.
  assert (Hi1 : ids_left (y_ms y1)).
  { cbn [rstep] in E1. rewrite Hj in E1. destruct (nth_error (y_msgs y) k) as [[m h]|]; [|discriminate].
    destruct (mk_gi _ _); [|discriminate]. destruct (row_apply _ _ _); [|discriminate]. apply Some_inj in E1. subst y1. exact Hi. }
  pose proof (rreach_step _ _ _ _ R1 Hl2 Hi1 E2) as R2.
  destruct (rsteps_keeps _ _ _ St R2) as (_ & (d & Ed) & _).
  destruct (C02_copies_read_alike last y' (S k) A1 A2) as [Ha Hb].
  - eapply rsteps_reach; eauto.
  - rewrite Ed, Ec. apply in_app_iff. left. apply in_app_iff. right. left. auto.
  - rewrite Ed, Ec. apply in_app_iff. left. apply in_app_iff. right. right. left. auto.
  - split; [intros r s Hs; apply Ha; auto|intros rd; apply Hb].
Qed.
Print Assumptions C03_promotion_invisible.

(** * C05: nested transactions are nested atomic blocks *)

(** A transaction that holds the row lock sees its innermost write, else the
    committed value. *)
Theorem C05_locked_read last y r A rd :
  rreach last y -> active y r -> y_lock y = Some r -> current_copy y A ->
  let sp := spec_of (y_trace y) in
  row_read C_READ_ANY rd A = Some (sees (sp_levels sp r) (sp_val sp)).
Proof.
  intros R Ha Hl Hc sp. destruct (rreach_inv _ _ R) as [T AI]. pose proof (rreach_sync _ _ R) as S.
  rewrite (copy_any y AI _ _ rd Hc). f_equal. apply locked_cur; auto.
Qed.
Print Assumptions C05_locked_read.

(** With nobody holding the lock the newest value is the committed one. *)
Theorem C05_unlocked_read last y A rd :
  rreach last y -> y_lock y = None -> current_copy y A ->
  row_read C_READ_ANY rd A = Some (sp_val (spec_of (y_trace y))).
Proof.
  intros R Hl Hc. destruct (rreach_inv _ _ R) as [T AI]. pose proof (rreach_sync _ _ R) as S.
  rewrite (copy_any y AI _ _ rd Hc). f_equal. apply free_cur; auto.
Qed.
Print Assumptions C05_unlocked_read.

(** The specification itself: what commits, child commits and aborts do. *)
Theorem C05_spec_child_commit sp r c p ls : sp_levels sp r = c :: p :: ls ->
  let sp' := spec_step sp (VChildCommit r) in
  sp_levels sp' r = (match c with Some w => Some w | None => p end) :: ls
  /\ (forall b, sees (sp_levels sp' r) b = sees (sp_levels sp r) b)
  /\ sp_val sp' = sp_val sp /\ (forall q, q <> r -> sp_levels sp' q = sp_levels sp q).
Proof.
  intros E sp'. unfold sp'. cbn [spec_step sp_levels sp_val]. rewrite upd_same, E. split; [destruct c; auto|].
  split; [intros b; destruct c as [w|]; reflexivity|]. split; auto. intros q Hq. apply upd_other. auto.
Qed.

Theorem C05_spec_commit sp r w : sp_levels sp r = [w] ->
  let sp' := spec_step sp (VCommit r) in
  sp_val sp' = (match w with Some v => v | None => sp_val sp end)
  /\ (forall s, sp_frozen sp' s = sp_frozen sp s) /\ (forall q, q <> r -> sp_levels sp' q = sp_levels sp q).
Proof.
  intros E sp'. unfold sp'. cbn [spec_step sp_levels sp_val sp_frozen]. rewrite E. unfold sees. cbn. destruct w as [v|]; cbn.
  - split; auto. split; auto. intros q Hq. apply upd_other. auto.
  - split; auto. split; auto. intros q Hq. apply upd_other. auto.
Qed.

(** * C04: aborts restore the row *)

(** Every reader, after a child (with everything nested in it) has aborted, and
    however the history goes on, obtains what it would obtain in the history
    without that child.  [others r mid] keeps what the other transactions did
    meanwhile. *)
Theorem C04_child_abort last y r mid pre post :
  rreach last y -> y_trace y = post ++ VChildAbort r :: mid ++ VChild r :: pre -> nest r 1 mid ->
  let sp := spec_of (post ++ others r mid ++ pre) in
  (forall q s A, active y q -> holds_snap y q s -> current_copy y A ->
     row_read C_READ_SNAPSHOT (through s q) A = Some (sees (sp_levels sp q) (sp_frozen sp (s_id s))))
  /\ (forall q A rd, active y q -> y_lock y = Some q -> current_copy y A ->
     row_read C_READ_ANY rd A = Some (sees (sp_levels sp q) (sp_val sp))).
Proof.
  intros R Et Hn sp. destruct (erase_child r mid pre post Hn) as (Hv & Hl & Hf). rewrite <- Et in Hv, Hl, Hf. fold sp in Hv, Hl, Hf.
  split.
  - intros q s A Ha Hs Hc. rewrite (C01_snapshot_read last y q s A) by auto. rewrite Hl, Hf. auto.
  - intros q A rd Ha Hk Hc. rewrite (C05_locked_read last y q A rd) by auto. rewrite Hl, Hv. auto.
Qed.
Print Assumptions C04_child_abort.

Theorem C04_root_abort last y r mid pre post :
  rreach last y -> y_trace y = post ++ VAbort r :: mid ++ VBegin r :: pre ->
  ~ In (VCommit r) mid -> (forall e, In e post -> of_root r e = false) ->
  let sp := spec_of (post ++ others r mid ++ pre) in
  (forall q s A, q <> r -> active y q -> holds_snap y q s -> current_copy y A ->
     row_read C_READ_SNAPSHOT (through s q) A = Some (sees (sp_levels sp q) (sp_frozen sp (s_id s))))
  /\ (forall q A rd, q <> r -> active y q -> y_lock y = Some q -> current_copy y A ->
     row_read C_READ_ANY rd A = Some (sees (sp_levels sp q) (sp_val sp)))
  /\ (forall A rd, y_lock y = None -> current_copy y A -> row_read C_READ_ANY rd A = Some (sp_val sp)).
Proof.
  intros R Et Hm Hp sp. destruct (erase_root r mid pre post) as (Hv & Hl & Hf); auto.
  { intros e He Ho q ->. cbn in Ho. apply N.eqb_eq in Ho. subst q. auto. }
  rewrite <- Et in Hv, Hl, Hf. fold sp in Hv, Hl, Hf.
  split; [|split].
  - intros q s A Hq Ha Hs Hc. rewrite (C01_snapshot_read last y q s A) by auto. rewrite Hl, Hf by auto. auto.
  - intros q A rd Hq Ha Hk Hc. rewrite (C05_locked_read last y q A rd) by auto. rewrite Hl, Hv by auto. auto.
  - intros A rd Hk Hc. rewrite (C05_unlocked_read last y A rd) by auto. rewrite Hv. auto.
Qed.
Print Assumptions C04_root_abort.

(** * C35: the update function gets the value its transaction sees *)

(** [y0] is the state in which transaction [r] asks for the update; the message is
    the next one.  Whatever copy the message is later applied to, at any later time,
    the function's argument ([latest_val], ft/node.cc:1292-1374) is what [r] saw then. *)
Theorem C35_update_sees_own_value last y0 r f y1 y A :
  rreach last y0 -> rop_legal y0 (OWrite r (WUpd f)) -> ids_left (y_ms y0) ->
  rstep y0 (OWrite r (WUpd f)) = Some y1 -> rsteps y1 y ->
  In (length (y_msgs y0), A) (y_copies y) ->
  let sp := spec_of (y_trace y0) in
  latest_val A = Some (sees (sp_levels sp r) (sp_val sp))
  /\ exists h Y, nth_error (y_msgs y) (length (y_msgs y0)) = Some (mkRmsg (KUpd f) Y, h).
Proof.
  intros R0 Hl Hi E1 St Hc sp. pose proof (rreach_step _ _ _ _ R0 Hl Hi E1) as R1.
  pose proof (rsteps_reach _ _ _ St R1) as R. destruct (rreach_inv _ _ R) as [T AI].
  destruct (rreach_inv _ _ R0) as [T0 A0]. pose proof (rreach_sync _ _ R0) as S0.
  destruct (rsteps_keeps _ _ _ St R1) as ((d & Ed) & _).
  destruct (step_keeps _ _ _ T0 E1) as ((d0 & Ed0) & _). 
  assert (Em : exists h Y, y_msgs y1 = y_msgs y0 ++ [(mkRmsg (KUpd f) Y, h)]).
  { cbn [rstep] in E1. destruct (mstep _ _); [|discriminate]. destruct (find_txn _ _); [|discriminate].
    apply Some_inj in E1. subst y1. cbn. eauto. }
  destruct Em as (h & Y & Em). split.
  - assert (Hx : latest_val A = Some (xval (cur (ideal (y_msgs y) (length (y_msgs y0)))))).
    { rewrite <- (copy_any y AI _ _ (mkReader 0 [] 0) Hc). unfold latest_val. destruct A as [u|]; [|reflexivity].
      cbn. unfold le_read. destruct (ule_innermost u); reflexivity. }
    rewrite Hx. f_equal. rewrite Ed, Em, <- app_assoc, ideal_prefix by auto.
    destruct Hl as (Ha & _ & Hk & _). destruct Hk as [Hk|Hk]; [|apply locked_cur; auto].
    rewrite free_cur by auto. destruct Ha as (t & Hf & Hp). destruct (find_ok _ T0 _ _ Hf) as (Ht & Er & _).
    unfold sees. unfold sp. rewrite <- Er. rewrite (others_none y0 S0 t Ht) by congruence. auto.
  - exists h, Y. rewrite Ed, Em, <- app_assoc. rewrite nth_error_app2, Nat.sub_diag by auto. reflexivity.
Qed.
Print Assumptions C35_update_sees_own_value.

(** * Examples: the hypotheses are met by ordinary histories *)

Definition sel (i : nat) := mkSel (Some (true, i)) i 0.

(** 11 stores [1] and commits; 12 takes snapshot 13; 14 stores [2], its child
    deletes the row and commits into it; the messages are applied and collected. *)
Definition ex_ops1 : list rop :=
  [OBegin false false; OWrite 11 (WPut [1]); OCommit 11; OCommitMsg 11; OCommitDone 11;
   OBegin false true; OBegin false false; OWrite 14 (WPut [2]); OChild 14; OWrite 14 WDel; OChildCommit 14; OObserve;
   OApply 0 (sel 1); OApply 1 (sel 1); OApply 2 (sel 1); OGc 3 (sel 1)].
(** then 14 commits (the delete sends a message), everything is applied and
    collected again; 15 takes snapshot 16. *)
Definition ex_ops2 : list rop :=
  [OCommit 14; OCommitMsg 14; OCommitMsg 14; OCommitDone 14; OObserve; OApply 3 (sel 2); OGc 5 (sel 2); OBegin false true].

Definition get (o : option rsys) : rsys := match o with Some y => y | None => rsys_init 0 end.
Definition ex1 : rsys := get (run (rsys_init 10) ex_ops1).
Definition ex2 : rsys := get (run ex1 ex_ops2).

Lemma run_get y ops : run y ops <> None -> run y ops = Some (get (run y ops)).
Proof. destruct (run y ops); [auto|congruence]. Qed.

Example ex1_reach : rreach 10 ex1.
Proof. apply (run_reach 10 ex_ops1); [reflexivity|]. apply run_get. vm_compute. discriminate. Qed.
Example ex1_ex2 : rsteps ex1 ex2.
Proof. apply (run_steps ex1 ex_ops2). apply run_get. vm_compute. discriminate. Qed.
Example ex2_reach : rreach 10 ex2.
Proof. eapply rsteps_reach; [apply ex1_ex2|apply ex1_reach]. Qed.

Definition snap12 := mkSnap 13 [12].
Definition copy1 : option ule := match nth_error (y_copies ex1) 3 with Some (_, A) => A | None => None end.
Definition copy2 : option ule := match nth_error (y_copies ex2) 6 with Some (_, A) => A | None => None end.

Example ex1_reader : active ex1 12 /\ holds_snap ex1 12 snap12 /\ current_copy ex1 copy1.
Proof.
  split; [apply activeb_ok; vm_compute; reflexivity|]. split.
  - left. exists (mkRoot 12 false (Some snap12) false). vm_compute. auto.
  - vm_compute. auto 10.
Qed.

Example ex2_reader : active ex2 12 /\ holds_snap ex2 12 snap12 /\ current_copy ex2 copy2.
Proof.
  split; [apply activeb_ok; vm_compute; reflexivity|]. split.
  - left. exists (mkRoot 12 false (Some snap12) false). vm_compute. auto.
  - vm_compute. auto 10.
Qed.

(** 12 reads [1] before and after 14's commit, 14 reads its own delete, 15 nothing. *)
Example ex_C01 : row_read C_READ_SNAPSHOT (through snap12 12) copy1 = Some (Some [1])
  /\ row_read C_READ_SNAPSHOT (through snap12 12) copy2 = Some (Some [1])
  /\ row_read C_READ_SNAPSHOT (through (mkSnap 16 [12; 15]) 15) copy2 = Some None
  /\ holds_snap ex2 15 (mkSnap 16 [12; 15]).
Proof.
  split; [vm_compute; reflexivity|]. split; [vm_compute; reflexivity|]. split; [vm_compute; reflexivity|].
  left. exists (mkRoot 15 false (Some (mkSnap 16 [12; 15])) false). vm_compute. auto.
Qed.

Example ex_C01_repeatable : row_read C_READ_SNAPSHOT (through snap12 12) copy2 = row_read C_READ_SNAPSHOT (through snap12 12) copy1.
Proof.
  destruct ex1_reader as (H1 & H2 & H3). destruct ex2_reader as (H4 & H5 & H6).
  apply (C01_repeatable_read 10 ex1 ex2 12 snap12 copy1 copy2 ex1_reach H1 H2 H3 ex1_ex2 H4 H5 H6).
  vm_compute. reflexivity.
Qed.

(** A collection that drops a committed version: after 12 has ended. *)
Definition ex_ops3 : list rop := [OCommit 12; OCommitDone 12; OCommit 15; OCommitDone 15; OObserve].
Definition ex3 : rsys := get (run ex2 ex_ops3).
Example ex3_reach : rreach 10 ex3.
Proof. eapply rsteps_reach; [|apply ex2_reach]. apply (run_steps ex2 ex_ops3). apply run_get. vm_compute. discriminate. Qed.
Example ex_C02 : exists u, nth_error (y_copies ex3) 6 = Some (4%nat, Some u) /\ length (cx u) = 2%nat
  /\ rop_legal ex3 (OGc 6 (sel 3)) /\ ids_left (y_ms ex3)
  /\ exists y', rstep ex3 (OGc 6 (sel 3)) = Some y' /\ nth_error (y_copies y') 7 = Some (4%nat, None).
Proof.
  eexists. split; [vm_compute; reflexivity|]. split; [reflexivity|].
  split; [apply legalb_ok; vm_compute; reflexivity|]. split; [vm_compute; reflexivity|].
  eexists. split; vm_compute; reflexivity.
Qed.

(** Promotion: 11 is finished and nobody needs the older version; the same message
    applied with a stale and with a fresh look. *)
Definition ex_ops4 : list rop :=
  [OBegin false false; OWrite 11 (WPut [1]); OCommit 11; OCommitMsg 11; OCommitDone 11; OObserve;
   OBegin false false; OWrite 12 (WPut [2]); OObserve; OApply 0 (sel 1);
   OApply 1 (mkSel None 0 0); OApply 1 (mkSel (Some (true, 2%nat)) 2 1)].
Definition ex4 : rsys := get (run (rsys_init 10) ex_ops4).
Example ex_C03 : exists A1 A2, nth_error (y_copies ex4) 2 = Some (2%nat, Some A1) /\ nth_error (y_copies ex4) 3 = Some (2%nat, Some A2)
  /\ rreach 10 ex4 /\ A1 <> A2.
Proof.
  eexists _, _. split; [vm_compute; reflexivity|]. split; [vm_compute; reflexivity|].
  split; [apply (run_reach 10 ex_ops4); [reflexivity|]; apply run_get; vm_compute; discriminate|]. discriminate.
Qed.

(** A child with a grandchild aborts; its parent then reads its own value again. *)
Definition ex_ops5 : list rop :=
  [OBegin false true; OWrite 11 (WPut [1]); OChild 11; OWrite 11 (WPut [2]); OChild 11; OWrite 11 WDel; OChildCommit 11;
   OAbort 11; OAbortMsg 11; OAbortMsg 11; OAbortDone 11; OObserve;
   OApply 0 (sel 1); OApply 1 (sel 1); OApply 2 (sel 1); OApply 3 (sel 1); OApply 4 (sel 1)].
Definition ex5 : rsys := get (run (rsys_init 10) ex_ops5).
Definition copy5 : option ule := match nth_error (y_copies ex5) 5 with Some (_, A) => A | None => None end.
Example ex_C04 : rreach 10 ex5
  /\ y_trace ex5 = [] ++ VChildAbort 11 :: [VChildCommit 11; VWrite 11 WDel; VChild 11; VWrite 11 (WPut [2])]
                      ++ VChild 11 :: [VWrite 11 (WPut [1]); VSnap 12; VBegin 11]
  /\ nest 11 1 [VChildCommit 11; VWrite 11 WDel; VChild 11; VWrite 11 (WPut [2])]
  /\ active ex5 11 /\ y_lock ex5 = Some 11 /\ current_copy ex5 copy5
  /\ row_read C_READ_ANY (mkReader 0 [] 0) copy5 = Some (Some [1]).
Proof.
  split; [apply (run_reach 10 ex_ops5); [reflexivity|]; apply run_get; vm_compute; discriminate|].
  split; [vm_compute; reflexivity|]. split; [apply ns_commit, ns_write, ns_child, ns_write, ns_nil|].
  split; [apply activeb_ok; vm_compute; reflexivity|]. split; [vm_compute; reflexivity|].
  split; [vm_compute; auto 10|vm_compute; reflexivity].
Qed.

(** An update on top of a child's write. *)
Definition upd_fun (o : option val) : option (option val) := match o with Some v => Some (Some (7 :: firstn 3 v)) | None => None end.
Definition ex_ops6 : list rop := [OBegin false true; OWrite 11 (WPut [1]); OChild 11; OWrite 11 (WPut [2])].
Definition ex6 : rsys := get (run (rsys_init 10) ex_ops6).
Example ex_C35 : rreach 10 ex6 /\ rop_legal ex6 (OWrite 11 (WUpd upd_fun)) /\ ids_left (y_ms ex6)
  /\ sees (sp_levels (spec_of (y_trace ex6)) 11) (sp_val (spec_of (y_trace ex6))) = Some [2].
Proof.
  split; [apply (run_reach 10 ex_ops6); [reflexivity|]; apply run_get; vm_compute; discriminate|].
  split; [|split; vm_compute; reflexivity].
  split; [apply activeb_ok; vm_compute; reflexivity|]. split; [apply writableb_ok; vm_compute; reflexivity|].
  split; [apply lockableb_ok; vm_compute; reflexivity|].
  intros [o|] v H; [|discriminate]. change (Some (Some (7 :: firstn 3 o)) = Some (Some v)) in H.
  apply Some_inj, Some_inj in H. subst v.
  assert (H : (length (7%N :: firstn 3 o) <= 4)%nat) by (cbn [length]; apply le_n_S, firstn_le_length).
  eapply N.le_lt_trans with (m := 4); [lia|reflexivity].
Qed.

(** * C38: DB->optimize against a transaction that begins meanwhile *)

(** The oldest living id is read (toku_ft_optimize, ft/ft-ops.cc:2318), then the
    message is sent; nothing keeps a transaction from beginning and writing in
    between.  Without the side condition of [rop_legal] on [OOptimize]: *)
Definition rop_legal_racy (y : rsys) (o : rop) : Prop :=
  match o with OOptimize i => exists ob, nth_error (y_obs y) i = Some ob | _ => rop_legal y o end.

Inductive rreach_racy (last : txnid) : rsys -> Prop :=
| rr_init : last < TXNID_MAX -> rreach_racy last (rsys_init last)
| rr_step y o y' : rreach_racy last y -> rop_legal_racy y o -> ids_left (y_ms y) ->
    rstep y o = Some y' -> rreach_racy last y'.

Definition legalb_racy (y : rsys) (o : rop) : bool :=
  match o with OOptimize i => match nth_error (y_obs y) i with Some _ => true | None => false end | _ => legalb y o end.

Fixpoint run_racy (y : rsys) (ops : list rop) : option rsys :=
  match ops with
  | [] => Some y
  | o :: ops' => if legalb_racy y o && idsb y then (do y1 <- rstep y o; run_racy y1 ops') else None
  end.

Lemma run_racy_reach last ops y y' : rreach_racy last y -> run_racy y ops = Some y' -> rreach_racy last y'.
Proof.
  revert y. induction ops as [|o ops IH]; intros y R H; cbn [run_racy] in H; [apply Some_inj in H; subst; auto|].
  destruct (legalb_racy y o && idsb y) eqn:E; [|discriminate]. apply andb_true_iff in E. destruct E as [E1 E2].
  destruct (rstep y o) as [y1|] eqn:Es; [|discriminate]. apply (IH y1); auto. apply N.ltb_lt in E2.
  eapply rr_step; [exact R| |exact E2|exact Es].
  destruct o; try (apply legalb_ok; exact E1). cbn in E1 |- *. destruct (nth_error (y_obs y) i); [eauto|discriminate].
Qed.

(** 11 begins and writes after the look at the transaction manager and before the
    message; it aborts, and yet a later snapshot reads its value. *)
Definition race_ops : list rop :=
  [OObserve; OBegin false false; OWrite 11 (WPut [1]); OOptimize 1; OAbort 11; OAbortMsg 11; OAbortDone 11;
   OObserve; OBegin false true; OApply 0 (sel 2); OApply 1 (sel 2); OApply 2 (sel 2)].

Theorem C38_optimize_race_refuted : exists last y r s A,
  rreach_racy last y /\ active y r /\ holds_snap y r s /\ current_copy y A
  /\ sp_val (spec_of (y_trace y)) = None /\ sees (sp_levels (spec_of (y_trace y)) r) (sp_frozen (spec_of (y_trace y)) (s_id s)) = None
  /\ row_read C_READ_SNAPSHOT (through s r) A = Some (Some [1]).
Proof.
  set (y := get (run_racy (rsys_init 10) race_ops)).
  exists 10, y, 12, snap12, (match nth_error (y_copies y) 3 with Some (_, A) => A | None => None end).
  split.
  { apply (run_racy_reach 10 race_ops (rsys_init 10)); [constructor; reflexivity|]. unfold y.
    destruct (run_racy (rsys_init 10) race_ops) eqn:E; [reflexivity|]. exfalso. revert E. vm_compute. discriminate. }
  split; [apply activeb_ok; vm_compute; reflexivity|].
  split; [left; exists (mkRoot 12 false (Some snap12) false); vm_compute; auto|].
  split; [vm_compute; auto 10|]. split; [vm_compute; reflexivity|]. split; vm_compute; reflexivity.
Qed.
Print Assumptions C38_optimize_race_refuted.

(** * C37: DB_READ_COMMITTED_ALWAYS *)

(** Such a transaction takes no snapshot: snapshot_txnid64 stays TXNID_NONE
    (ft/txn/txn.cc:233) and its list of living transactions is copied when it begins
    (TXN_COPIES_SNAPSHOT, ft/txn/txn_manager.cc:55-75, 637-690).  Its cursors read with
    C_READ_COMMITTED (src/ydb_cursor.cc:856).  An older transaction that is still
    running hides what a younger one has committed: the reader misses a row that was
    committed before it began. *)
Definition rca_reader (y : rsys) (r : txnid) : reader := mkReader TXNID_NONE (m_live (ms_mgr (y_ms y))) r.

Definition rca_ops : list rop :=
  [OBegin false false; OBegin false false; OWrite 12 (WPut [1]); OCommit 12; OCommitMsg 12; OCommitDone 12;
   OBegin false false; OObserve; OApply 0 (sel 1)].

Theorem C37_read_committed_always_refuted : exists last y r A,
  rreach last y /\ active y r /\ y_lock y = None /\ current_copy y A
  (* the reader has just begun: it is the newest transaction and nothing happened since *)
  /\ hd_error (y_trace y) = Some (VBegin r)
  /\ sp_val (spec_of (y_trace y)) = Some [1]
  /\ row_read C_READ_COMMITTED (rca_reader y r) A = Some None.
Proof.
  set (y := get (run (rsys_init 10) rca_ops)).
  exists 10, y, 13, (match nth_error (y_copies y) 1 with Some (_, A) => A | None => None end).
  split; [apply (run_reach 10 rca_ops); [reflexivity|]; apply run_get; vm_compute; discriminate|].
  split; [apply activeb_ok; vm_compute; reflexivity|]. split; [vm_compute; reflexivity|].
  split; [vm_compute; auto 10|]. split; [vm_compute; reflexivity|]. split; vm_compute; reflexivity.
Qed.
Print Assumptions C37_read_committed_always_refuted.

(** With DB_TXN_READ_ONLY the reader is not in the list of running transactions.  When
    nobody else is running the list is empty, and then nothing that is still stored as
    provisional is accepted, whoever wrote it: a row committed long ago is missed
    although no other transaction is running at all. *)
Definition rca_ro_ops : list rop :=
  [OBegin false false; OWrite 11 (WPut [1]); OCommit 11; OCommitMsg 11; OCommitDone 11;
   OBegin true false; OObserve; OApply 0 (mkSel None 0 0)].

Theorem C37_read_only_alone_refuted : exists last y r A,
  rreach last y /\ active y r /\ map t_root (y_txns y) = [r] /\ y_lock y = None /\ current_copy y A
  /\ hd_error (y_trace y) = Some (VBegin r)
  /\ sp_val (spec_of (y_trace y)) = Some [1]
  /\ row_read C_READ_COMMITTED (rca_reader y r) A = Some None.
Proof.
  set (y := get (run (rsys_init 10) rca_ro_ops)).
  exists 10, y, 12, (match nth_error (y_copies y) 1 with Some (_, A) => A | None => None end).
  split; [apply (run_reach 10 rca_ro_ops); [reflexivity|]; apply run_get; vm_compute; discriminate|].
  split; [apply activeb_ok; vm_compute; reflexivity|]. split; [vm_compute; reflexivity|].
  split; [vm_compute; reflexivity|]. split; [vm_compute; auto 10|].
  split; [vm_compute; reflexivity|]. split; vm_compute; reflexivity.
Qed.
Print Assumptions C37_read_only_alone_refuted.

(** What does hold.  The reader began in [y0] and reads in [y], any time later.
    It finds its own write if it has one.  Otherwise it finds a value that was
    committed: the present one, that of a transaction past its decision to commit, or
    the one before a single other transaction [x] changed the row, and that [x] is not
    older than everybody running when the reader began ([m_live] of [y0]).
    [only_by (eq x) d tr'] (MvccRca.v): after [tr'] nobody but [x] committed a change to
    the row. *)
Theorem C37_read_committed_always_partial last y0 y r A :
  rreach last y0 -> rsteps y0 y -> active y r -> current_copy y A ->
  let tr := y_trace y in
  exists v, row_read C_READ_COMMITTED (rca_reader y0 r) A = Some v
  /\ (own (sp_levels (spec_of tr) r) <> None -> Some v = own (sp_levels (spec_of tr) r))
  /\ (own (sp_levels (spec_of tr) r) = None ->
       v = sp_val (spec_of tr)
       \/ (exists t todo, In t (y_txns y) /\ t_phase t = PCommit todo /\ v = sp_val (spec_of (VCommit (t_root t) :: tr)))
       \/ (exists x d tr', tr = d ++ tr' /\ v = sp_val (spec_of tr') /\ only_by (eq x) d tr' /\ x <> r
            /\ (m_live (ms_mgr (y_ms y0)) = [] \/ exists l, In l (m_live (ms_mgr (y_ms y0))) /\ l <= x))).
Proof.
  intros R Hs Ha Hc tr. destruct (rca_read last y0 y r A R Hs Ha Hc) as (v & E & H1 & H2). exists v. split; [exact E|].
  split; [exact H1|]. intros Ho. destruct (H2 Ho) as [H|[(t & Ht & (todo & Hp) & Ev)|(x & d & tr' & E1 & E2 & E3 & E4 & _ & E5)]]; auto.
  - right. left. exists t, todo. auto.
  - right. right. exists x, d, tr'. auto.
Qed.
Print Assumptions C37_read_committed_always_partial.

(** When everybody else who ever wrote the row is older than all that were running
    when the reader began, the reader obtains the committed value (or its own). *)
Theorem C37_older_writers_partial last y0 y r A :
  rreach last y0 -> rsteps y0 y -> active y r -> current_copy y A ->
  m_live (ms_mgr (y_ms y0)) <> [] ->
  (forall q w l, In (VWrite q w) (y_trace y) -> q <> r -> In l (m_live (ms_mgr (y_ms y0))) -> q < l) ->
  row_read C_READ_COMMITTED (rca_reader y0 r) A
    = Some (sees (sp_levels (spec_of (y_trace y)) r) (sp_val (spec_of (y_trace y)))).
Proof.
  intros R Hs Ha Hc Hne Hold. destruct (rca_read last y0 y r A R Hs Ha Hc) as (v & E & H1 & H2).
  unfold rca_reader. rewrite E. f_equal. unfold sees. set (tr := y_trace y) in *.
  destruct (own (sp_levels (spec_of tr) r)) as [o|] eqn:Ho.
  { assert (Some v = Some o) by (apply H1; discriminate). congruence. }
  destruct (H2 eq_refl) as [->|[(t & Ht & Hcm & ->)|(x & d & tr' & Etr & -> & Hby & Hxr & Hb & Hl)]]; auto.
  - cbn [spec_of spec_step sp_val]. unfold sees. destruct (own (sp_levels (spec_of tr) (t_root t))) as [o|] eqn:Eo; auto. exfalso.
    destruct (own_write tr (t_root t)) as (w & Hw); [congruence|].
    pose proof (rsteps_reach _ _ _ Hs R) as R'. destruct (rreach_inv _ _ R') as [T _]. destruct Ha as (t' & Hf' & Hp').
    pose proof (find_txn_unique (t_root t) _ _ (roots_nd _ T) Ht eq_refl) as Hf.
    assert (Hn : t_root t <> r). { intros En. rewrite En in Hf. destruct Hcm as (todo & Hcm). congruence. }
    destruct (m_live (ms_mgr (y_ms y0))) as [|l L] eqn:El; [congruence|].
    assert (Hlt : t_root t < l) by (eapply Hold; [exact Hw|exact Hn|left; auto]).
    destruct (find_ok _ T _ _ Hf) as (_ & _ & K & _ & _ & _ & _ & Hnf). apply Hnf.
    assert (Hbg : begun (ms_hist (y_ms y)) (t_root t)).
    { pose proof (rreach_sync _ _ R') as S. assert (Hlk : y_lock y = Some (t_root t)).
      { eapply (own_free y S); eauto. fold tr. congruence. }
      destruct (q_hold S t Ht Hlk) as [He _ _]. fold tr in He. destruct (ents_own _ _ He) as (lv & Hi & Hlv); [congruence|].
      apply (c_wrote _ _ (i_c _ (t_m T))). apply (k_ents _ _ _ K lv); auto. }
    eapply (older_finished last y0 y); eauto. eapply rsteps_later; eauto.
  - rewrite Etr. symmetry. apply only_by_none. intros d1 q d2 Ed Hw. pose proof (Hby d1 q d2 Ed Hw) as <-.
    destruct (own_write _ _ Hw) as (w & Hi). destruct Hl as [|(l & Hl & Hle)]; [congruence|].
    assert (x < l); [|lia]. apply (Hold x w l); auto. rewrite Etr, Ed, <- app_assoc.
    apply in_app_iff. right. right. exact Hi.
Qed.
Print Assumptions C37_older_writers_partial.

(** 11 has committed when 12 begins; 13 begins later.  The row is still stored as 11's
    provisional value. *)
Definition rca_ops0 : list rop :=
  [OBegin false false; OWrite 11 (WPut [1]); OCommit 11; OCommitMsg 11; OCommitDone 11; OBegin false false].
Definition rca_y0 : rsys := get (run (rsys_init 10) rca_ops0).
Definition rca_ops1 : list rop := [OBegin false false; OObserve; OApply 0 (mkSel None 0 0)].
Definition rca_y1 : rsys := get (run rca_y0 rca_ops1).
Definition rca_copy : option ule := match nth_error (y_copies rca_y1) 1 with Some (_, A) => A | None => None end.
Example ex_C37_older : rreach 10 rca_y0 /\ rsteps rca_y0 rca_y1 /\ active rca_y1 12 /\ current_copy rca_y1 rca_copy
  /\ m_live (ms_mgr (y_ms rca_y0)) = [12]
  /\ (forall q w l, In (VWrite q w) (y_trace rca_y1) -> q <> 12 -> In l (m_live (ms_mgr (y_ms rca_y0))) -> q < l)
  /\ (exists u, rca_copy = Some u /\ px u <> [])
  /\ sp_val (spec_of (y_trace rca_y1)) = Some [1].
Proof.
  split; [apply (run_reach 10 rca_ops0); [reflexivity|]; apply run_get; vm_compute; discriminate|].
  split; [apply (run_steps rca_y0 rca_ops1); apply run_get; vm_compute; discriminate|].
  split; [apply activeb_ok; vm_compute; reflexivity|]. split; [vm_compute; auto 10|]. split; [vm_compute; reflexivity|].
  split.
  { assert (E : y_trace rca_y1 = [VBegin 13; VBegin 12; VCommit 11; VWrite 11 (WPut [1]); VBegin 11]) by (vm_compute; reflexivity).
    assert (E' : m_live (ms_mgr (y_ms rca_y0)) = [12]) by (vm_compute; reflexivity).
    intros q w l Hi _ Hl. rewrite E in Hi. rewrite E' in Hl. destruct Hl as [<-|[]]. destruct Hi as [H|[H|[H|[H|[H|[]]]]]]; try discriminate H. injection H as <- _. reflexivity. }
  split; [|vm_compute; reflexivity]. eexists. split; [vm_compute; reflexivity|discriminate].
Qed.
