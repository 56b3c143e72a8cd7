(** C35: updates through the user's function, one row and broadcast. *)
From Verif Require Import Base Bytes UleModel UleSpec LeCodecModel LeCodecProofs LeAccProofs UleWf
  MvccModel RowCountModel RowCountProofs UpdBcastModel.
Open Scope N_scope.

(** ** Specification *)

(** The latest version of a row, as a C_READ_ANY reader sees it. *)
Definition latest (o : option ule) : option (option val) := row_read C_READ_ANY (mkReader 0 [] 0) o.

(** What the user's function [f] makes of a latest version. *)
Definition updated (f : option val -> option (option val)) (v : option val) : option val :=
  match f v with
  | None => v
  | Some w => w
  end.

(** ** Proofs *)

Lemma latest_eq o : latest o = latest_val o.
Proof.
  unfold latest, row_read, le_read, latest_val. destruct o as [u|]; auto.
  destruct (ule_innermost u) as [i|]; auto.
Qed.

Lemma latest_top u : ule_wf u -> latest_val (Some u) = Some (val_of (top u)).
Proof.
  intros W. destruct (wf_innermost u W) as (r & Hr & _). unfold latest_val. rewrite Hr, (top_inner _ _ Hr).
  destruct (ux_xr r); auto.
Qed.

Lemma latest_total o : row_wf o -> exists v, latest o = Some v.
Proof. rewrite latest_eq. destruct o as [u|]; intros W; [rewrite latest_top by auto|cbn]; eauto. Qed.

Lemma pack_latest u r : ule_wf u -> le_pack_check u = Some r -> latest_val r = Some (val_of (top u)).
Proof.
  intros W H. pose proof H as H'. apply le_pack_check_ok in H as [->|[-> _]]; [|apply latest_top; auto].
  unfold le_pack_check in H'. destruct (cx u) eqn:E; [discriminate|]. rewrite <- E in *.
  destruct (_ =? TXNID_NONE); [|discriminate]. destruct (has_insert u) eqn:Hi.
  - destruct (_ <? _)%nat; [|discriminate]. discriminate.
  - destruct (top u) as [[v| |]|] eqn:Et; auto. apply has_insert_top in Et. congruence.
Qed.

(** An insert or delete message sets the latest version. *)
Lemma apply_latest t xs o gi o' z x : row_wf o -> xids_ok xs ->
  (t = FT_DELETE_ANY /\ x = None \/ exists w, t = FT_INSERT w /\ x = Some w) ->
  le_apply_msg (mkUmsg t xs) o gi = Some (o', z) -> latest_val o' = Some x.
Proof.
  intros W Hx Ht H. unfold le_apply_msg in H.
  set (u := match o with None => ule_init_empty | Some u => ule_reload u end) in *.
  assert (Wu : ule_wf u) by (unfold u; destruct o; [apply reload_wf; auto|apply init_wf]).
  inv_do H. injection H as <- <-.
  pose proof (msg_modify_wf u (mkUmsg t xs) _ _ Wu Hx E) as W1.
  pose proof (post_process_wf _ _ _ W1 E0) as W2. apply post_top in E0.
  apply pack_latest in E1; auto. rewrite E1, E0. f_equal. clear E1 E0 W2.
  unfold msg_modify_ule in E. cbn [um_xids um_type] in E. destruct (_ <? _)%nat; [|discriminate].
  replace (is_optimize t) with false in E by (destruct Ht as [[-> _]|(w & -> & _)]; auto).
  destruct (ule_do_implicit_promotions u xs) as [u3|] eqn:Ei; [|discriminate].
  apply implicit_wf in Ei as [W3 Hpx]; auto.
  destruct Ht as [[-> ->]|(w & -> & ->)].
  - unfold ule_apply_delete in E. inv_do E. injection E as <- _. rewrite (put_top _ _ _ _ _ W3 Hx Hpx E1 E2). auto.
  - unfold ule_apply_insert in E. destruct (_ <? _); [|discriminate]. inv_do E. injection E as <- _.
    rewrite (put_top _ _ _ _ _ W3 Hx Hpx E1 E2). auto.
Qed.

(** An update of one key: the function gets the latest version of the row (or absence),
    and afterwards the latest version is what the function said.  For every row, stack
    of transactions, garbage collection and function. *)
Theorem C35_update_latest f xs o gi o' : row_wf o -> xids_ok xs ->
  row_apply (mkRmsg (KUpd f) xs) o gi = Some o' ->
  exists v, latest o = Some v /\ latest o' = Some (updated f v).
Proof.
  intros W Hx H. unfold row_apply in H. cbn [rm_kind rm_xids] in H. cbv zeta in H. rewrite !latest_eq.
  destruct (latest_val o) as [v|] eqn:Ev; [|discriminate]. exists v. split; auto. unfold updated.
  destruct (f v) as [[w|]|].
  - destruct (le_apply_msg _ o gi) as [[q z]|] eqn:E; [|discriminate]. apply Some_inj in H. subst q.
    apply (apply_latest _ _ _ _ _ _ (Some w) W Hx) in E; eauto.
  - destruct (le_apply_msg _ o gi) as [[q z]|] eqn:E; [|discriminate]. apply Some_inj in H. subst q.
    apply (apply_latest _ _ _ _ _ _ None W Hx) in E; eauto.
  - apply Some_inj in H. subst. auto.
Qed.
Print Assumptions C35_update_latest.

(** A broadcast update: every row whose latest version is a value is updated by the
    function, called with that value.  It may also call it for deleted rows: see the
    refutation below. *)
Theorem C35_broadcast_rows f xs rows gi rows' : Forall row_wf rows -> xids_ok xs ->
  bcast f xs rows gi = Some rows' ->
  length rows' = length rows /\
  forall i r v, nth_error rows i = Some r -> latest r = Some (Some v) ->
    exists r', nth_error rows' i = Some r' /\ latest r' = Some (updated f (Some v)).
Proof.
  intros W Hx. revert rows'. induction rows as [|r rows IH]; intros rows' H; cbn [bcast] in H.
  - apply Some_inj in H. subst. split; auto. intros [|i]; discriminate.
  - inversion W as [|? ? Wr Ws]; subst.
    destruct (bcast_row f xs r gi) as [r'|] eqn:Er; [|discriminate].
    destruct (bcast f xs rows gi) as [l|] eqn:El; [|discriminate]. apply Some_inj in H. subst rows'.
    destruct (IH Ws l eq_refl) as [IL IH']. split; [cbn; congruence|].
    intros [|i] q v Hq Hv; cbn [nth_error] in *; [|eauto].
    apply Some_inj in Hq. subst q. exists r'. split; auto. destruct r as [u|]; [|discriminate].
    cbn [bcast_row] in Er. apply C35_update_latest in Er as (w & E1 & E2); auto. congruence.
Qed.
Print Assumptions C35_broadcast_rows.

(** ... and a function that leaves absent rows alone changes no row without a value. *)
Theorem C35_broadcast_absent f xs rows gi rows' : Forall row_wf rows -> xids_ok xs ->
  f None = None \/ f None = Some None ->
  bcast f xs rows gi = Some rows' ->
  forall i r, nth_error rows i = Some r -> latest r = Some None ->
    exists r', nth_error rows' i = Some r' /\ latest r' = Some None.
Proof.
  intros W Hx Hf. revert rows'. induction rows as [|r rows IH]; intros rows' H; cbn [bcast] in H.
  - apply Some_inj in H. subst. intros [|i]; discriminate.
  - inversion W as [|? ? Wr Ws]; subst.
    destruct (bcast_row f xs r gi) as [r'|] eqn:Er; [|discriminate].
    destruct (bcast f xs rows gi) as [l|] eqn:El; [|discriminate]. apply Some_inj in H. subst rows'.
    intros [|i] q Hq Hv; cbn [nth_error] in *; [|eauto].
    apply Some_inj in Hq. subst q. exists r'. split; auto. destruct r as [u|].
    + cbn [bcast_row] in Er. apply C35_update_latest in Er as (w & E1 & E2); auto.
      rewrite E2. assert (w = None) by congruence. subst w. unfold updated. destruct Hf as [->| ->]; auto.
    + cbn in Er. apply Some_inj in Er. subst. auto.
Qed.
Print Assumptions C35_broadcast_absent.

(** ** Concrete cases *)

(** A committed row under an uncommitted overwrite. *)
Definition urow : ule := mkUle [mkUxr 0 (XIns [1])] [mkUxr 7 (XIns [2])] 10.
Definition ugi : gc_info := mkGcInfo None 0 0 true.
Definition add9 (o : option val) : option (option val) :=
  match o with Some v => Some (Some (9 :: v)) | None => None end.

Lemma urow_wf : ule_wf urow.
Proof.
  constructor; cbn [cx px urow].
  - repeat constructor; cbn; try discriminate; try reflexivity.
  - repeat constructor; cbn; try discriminate; try reflexivity.
  - exists [], (XIns [1]). reflexivity.
  - cbn. discriminate.
  - cbn. unfold MAX_TRANSACTION_RECORDS. lia.
Qed.

Lemma xids78 : xids_ok [7; 8].
Proof. repeat constructor; try (vm_compute; discriminate); vm_compute; reflexivity. Qed.

(** A child of transaction 7 sees 7's value. *)
Example C35_update_case : exists o', row_apply (mkRmsg (KUpd add9) [7; 8]) (Some urow) ugi = Some o'
  /\ latest o' = Some (Some [9; 2]).
Proof. eexists. split; vm_compute; reflexivity. Qed.

Example C35_broadcast_case : exists rows', Forall row_wf [Some urow; None; Some urow]
  /\ bcast add9 [7; 8] [Some urow; None; Some urow] ugi = Some rows'
  /\ map latest rows' = [Some (Some [9; 2]); Some None; Some (Some [9; 2])].
Proof.
  eexists. split.
  { repeat (apply Forall_cons; [first [exact urow_wf|exact I]|]). apply Forall_nil. }
  split; vm_compute; reflexivity.
Qed.

(** ** The broadcast depends on garbage collection *)

(** The same dictionary, the same messages, the same broadcast; only the moment when
    the garbage of a deleted row is collected differs.  The function is called for the
    deleted row, with no old value, when the row is still stored, and stores a value
    for it. *)
Definition fill (o : option val) : option (option val) := Some (Some [4]).

Theorem C35_broadcast_ghost_refuted : exists ins_msg del_msg gi1 gi2 r1 r2 d1 d2 o1 o2,
  rm_xids ins_msg = [5] /\ rm_xids del_msg = [6] /\
  row_apply ins_msg None gi1 = Some r1 /\ row_apply ins_msg None gi1 = Some r2 /\
  row_apply del_msg r1 gi1 = Some d1 /\ row_apply del_msg r2 gi2 = Some d2 /\
  latest d1 = Some None /\ latest d2 = Some None /\
  bcast_row fill [8] d1 gi1 = Some o1 /\ bcast_row fill [8] d2 gi1 = Some o2 /\
  latest o1 = Some (Some [4]) /\ latest o2 = Some None.
Proof.
  exists (mkRmsg (KIns [1]) [5]), (mkRmsg KDel [6]), ugi, (mkGcInfo None 100 100 true).
  do 6 eexists. repeat (split; [vm_compute; reflexivity|]). vm_compute. reflexivity.
Qed.
Print Assumptions C35_broadcast_ghost_refuted.
