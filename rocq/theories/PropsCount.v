(** C08: the logical row count. *)
From Verif Require Import Base Bytes UleModel UleSpec LeCodecModel LeCodecProofs LeAccProofs UleWf
  MvccModel RowCountModel RowCountProofs.
Open Scope N_scope.

(** ** Specification *)

(** A row has a value when a reader of the latest version (C_READ_ANY) finds one. *)
Definition has_value (o : option ule) : bool :=
  match row_read C_READ_ANY (mkReader 0 [] 0) o with Some (Some _) => true | _ => false end.

(** The number of rows whose latest version is a value. *)
Definition rows_with_value (d : dict) : Z := Z.of_nat (length (filter has_value (d_rows d))).

(** The steps for which the counting is right.  A delete must find the key stored; an
    update function must store a value; an abort must change whether the row has a
    value, or find just one committed version and at most one uncommitted one. *)
Definition counted (d : dict) (o : dop) : Prop :=
  match o with
  | DGc _ _ => True
  | DMsg i m gi =>
      xids_ok (rm_xids m) /\
      match rm_kind m with
      | KDel => exists u, nth_error (d_rows d) i = Some (Some u)
      | KUpd f => forall r v, nth_error (d_rows d) i = Some r -> latest_val r = Some v ->
                              exists w, f v = Some (Some w)
      | KAbort => forall u, nth_error (d_rows d) i = Some (Some u) ->
                    (length (cx u) = 1%nat /\ length (px u) <= 1)%nat
                    \/ (forall d' r, dstep d o = Some d' -> nth_error (d_rows d') i = Some r ->
                                     has_value r <> has_value (Some u))
      | _ => True
      end
  end.

Inductive counted_run : dict -> list dop -> dict -> Prop :=
| cr_nil d : counted_run d [] d
| cr_cons d o d' ops d'' : counted d o -> dstep d o = Some d' -> counted_run d' ops d'' ->
    counted_run d (o :: ops) d''.

(** ** Proofs *)

Lemma present_value o : present o = if has_value o then 1%Z else 0%Z.
Proof.
  unfold present, latest_val, has_value, row_read, le_read. destruct o as [u|]; auto.
  destruct (ule_innermost u) as [i|]; auto. destruct (ux_xr i); auto.
Qed.

Lemma present_differ a b : has_value a <> has_value b -> present a <> present b.
Proof. rewrite !present_value. destruct (has_value a), (has_value b); congruence. Qed.

Definition sum (l : list (option ule)) : Z := Z.of_nat (length (filter has_value l)).

Lemma sum_cons o l : sum (o :: l) = (present o + sum l)%Z.
Proof. unfold sum. rewrite present_value. cbn [filter]. destruct (has_value o); cbn [length]; lia. Qed.

Lemma sum_app l1 l2 : sum (l1 ++ l2) = (sum l1 + sum l2)%Z.
Proof. unfold sum. rewrite filter_app, app_length. lia. Qed.

Lemma split_nth {A} (l : list A) i r : nth_error l i = Some r -> l = firstn i l ++ r :: skipn (S i) l.
Proof.
  revert l. induction i; intros [|a l] H; try discriminate; cbn in *.
  - congruence.
  - f_equal. apply IHi. auto.
Qed.

Lemma set_row_sum i r r' l : nth_error l i = Some r -> sum (set_row i r' l) = (sum l - present r + present r')%Z.
Proof.
  intros H. pose proof (split_nth _ _ _ H) as E. unfold set_row. rewrite E at 3.
  rewrite !sum_app, !sum_cons. lia.
Qed.

Lemma set_row_wf i r l : Forall row_wf l -> row_wf r -> Forall row_wf (set_row i r l).
Proof.
  intros H1 H2. unfold set_row. apply Forall_app. rewrite Forall_forall in *. split.
  - intros x Hx. apply H1. rewrite <- (firstn_skipn i l). apply in_or_app. auto.
  - constructor; auto. apply Forall_forall. intros x Hx. apply H1. rewrite <- (firstn_skipn (S i) l). apply in_or_app. auto.
Qed.

Lemma set_row_nth i r r' l : nth_error l i = Some r -> nth_error (set_row i r' l) i = Some r'.
Proof.
  intros H. assert (i < length l)%nat by (apply nth_error_Some; congruence).
  unfold set_row. rewrite nth_error_app2; rewrite firstn_length_le by lia; [|lia].
  rewrite Nat.sub_diag. auto.
Qed.

Lemma unsingle u xs u1 : (length (cx u) = 1 /\ length (px u) <= 1)%nat ->
  ule_do_implicit_promotions (ule_reload u) xs = Some u1 -> px u1 = [] \/ single u1 = true.
Proof.
  intros [H1 H2] H. unfold ule_do_implicit_promotions in H. cbn [ule_reload px] in H.
  destruct (px u) as [|p [|? ?]] eqn:Ep; [|cbn [is_nil] in H|cbn in H2; lia].
  - cbn [is_nil] in H. apply Some_inj in H. subst. left. auto.
  - destruct (negb (is_nil xs)); [|discriminate].
    destruct (common_prefix [p] xs) as [|n].
    + left. unfold ule_promote_to_committed in H. cbn [ule_reload px] in H. rewrite Ep in H.
      destruct (ule_innermost _); [|discriminate]. destruct (negb _); [|discriminate].
      unfold ule_push in H. destruct (first_empty_ok _); [|discriminate]. cbn [px is_nil] in H.
      apply Some_inj in H. subst. auto.
    + cbn [length Nat.sub] in H. destruct (n <? 0)%nat eqn:En; [apply Nat.ltb_lt in En; lia|].
      apply Some_inj in H. subst. right. unfold single. cbn [ule_reload px cx]. rewrite Ep, H1. auto.
Qed.

Lemma step_counted d o d' : counted d o -> dstep d o = Some d' -> Forall row_wf (d_rows d) ->
  Forall row_wf (d_rows d') /\ (d_count d' - rows_with_value d' = d_count d - rows_with_value d)%Z.
Proof.
  intros Hc H W. pose proof H as Hs. destruct o as [i m gi|i gi]; cbn [dstep] in H.
  - destruct (nth_error (d_rows d) i) as [r|] eqn:Er; [|discriminate].
    destruct (row_apply_count m r gi) as [[r' c]|] eqn:Ea; [|discriminate].
    apply Some_inj in H. subst d'. cbn [d_rows d_count]. unfold rows_with_value. cbn [d_rows].
    fold (sum (set_row i r' (d_rows d))) (sum (d_rows d)). rewrite (set_row_sum _ _ _ _ Er).
    assert (Wr : row_wf r) by (rewrite Forall_forall in W; eapply W, nth_error_In; eauto).
    destruct Hc as [Hx Hc].
    assert (row_wf r' /\ (sent (rm_kind m) + c = present r' - present r)%Z).
    2:{ split; [apply set_row_wf; tauto|lia]. }
    unfold row_apply_count in Ea. destruct (rm_kind m) as [v|v| | | | |f] eqn:Ek; cbn [sent].
    + split; [eapply le_apply_msg_wf; [exact Wr| |exact Ea]; exact Hx|]. eapply apply_count in Ea; [exact Ea|exact Wr|exact Hx|reflexivity].
    + split; [eapply le_apply_msg_wf; [exact Wr| |exact Ea]; exact Hx|]. eapply apply_count in Ea; [exact Ea|exact Wr|exact Hx|reflexivity].
    + destruct Hc as (u & Hu). rewrite Hu in Er. apply Some_inj in Er. subst r. cbn [is_some] in Ea.
      split; [eapply le_apply_msg_wf; [exact Wr| |exact Ea]; exact Hx|]. eapply apply_count in Ea; [exact Ea|exact Wr|exact Hx|reflexivity].
    + destruct r as [u|]; cbn [is_some] in Ea; [|injection Ea as <- <-; split; [auto|lia]].
      split; [eapply le_apply_msg_wf; [exact Wr| |exact Ea]; exact Hx|]. cbn [sent] in *.
      apply apply_abort_count in Ea; auto. destruct Ea as [->|(E1 & E2 & u1 & E3 & E4 & E5 & E6)]; [lia|].
      exfalso. destruct (Hc u Er) as [Hs1|Hs1].
      * destruct (unsingle _ _ _ Hs1 E3); congruence.
      * specialize (Hs1 _ r' Hs). cbn [d_rows] in Hs1.
        apply (present_differ r' (Some u)); [|auto]. apply Hs1. eapply set_row_nth; eauto.
    + destruct r as [u|]; cbn [is_some] in Ea; [|injection Ea as <- <-; split; [auto|lia]].
      split; [eapply le_apply_msg_wf; [exact Wr| |exact Ea]; exact Hx|]. eapply apply_count in Ea; [exact Ea|exact Wr|exact Hx|reflexivity].
    + destruct r as [u|]; [|injection Ea as <- <-; split; [auto|lia]].
      destruct (is_clean u); [injection Ea as <- <-; split; [auto|lia]|].
      split; [eapply le_apply_msg_wf; [exact Wr| |exact Ea]; exact Hx|]. eapply apply_count in Ea; [exact Ea|exact Wr|exact Hx|reflexivity].
    + destruct (latest_val r) as [v|] eqn:Ev; [|discriminate].
      destruct (Hc r v Er Ev) as (w & Hw). rewrite Hw in Ea.
      split; [eapply le_apply_msg_wf; [exact Wr| |exact Ea]; exact Hx|]. eapply apply_count in Ea; [exact Ea|exact Wr|exact Hx|reflexivity].
  - destruct (nth_error (d_rows d) i) as [[u|]|] eqn:Er; try discriminate.
    destruct (le_garbage_collect u gi) as [r'|] eqn:Eg; [|discriminate].
    apply Some_inj in H. subst d'. cbn [d_rows d_count]. unfold rows_with_value. cbn [d_rows].
    fold (sum (set_row i r' (d_rows d))) (sum (d_rows d)). rewrite (set_row_sum _ _ _ _ Er).
    assert (Wr : row_wf (Some u)) by (rewrite Forall_forall in W; eapply W, nth_error_In; eauto).
    split; [apply set_row_wf; auto; eapply le_gc_wf; eauto|].
    apply gc_count in Eg; auto. lia.
Qed.

(** C08, except deletes of keys that are not stored, updates that do not store a value,
    and aborts that leave a row with the same kind of latest version on a stack that is
    not the simplest one: over any history of inserts, deletes, updates, commits,
    aborts, optimizations and garbage collections, on any number of keys, the logical
    row count is the number of rows whose latest version is a value. *)
Theorem C08_row_count_partial n ops d :
  counted_run (dict_new n) ops d -> d_count d = rows_with_value d.
Proof.
  intros H.
  assert (G : forall d1 ops d2, counted_run d1 ops d2 -> Forall row_wf (d_rows d1) ->
            d_count d1 = rows_with_value d1 -> d_count d2 = rows_with_value d2).
  { induction 1 as [|d1 o d2 ops' d3 Hc Hs _ IH]; auto. intros W E.
    destruct (step_counted _ _ _ Hc Hs W) as [W' E']. apply IH; auto. lia. }
  eapply G; eauto.
  - cbn [dict_new d_rows]. clear. induction n; constructor; cbn; auto.
  - cbn [dict_new d_count]. unfold rows_with_value. cbn [d_rows dict_new]. clear.
    induction n; auto.
Qed.
Print Assumptions C08_row_count_partial.

(** ** A history that meets the hypotheses *)

Definition gi0 : gc_info := mkGcInfo None 0 0 true.
Definition msg (k : kind) (xs : xids) : rmsg := mkRmsg k xs.
Definition run_get (o : option dict) : dict := match o with Some d => d | None => dict_new 0 end.

(** Two keys; an insert over an insert; an aborted insert; an aborted delete; a delete. *)
Definition good_ops : list dop :=
  [ DMsg 0 (msg (KIns [1]) [5]) gi0; DMsg 0 (msg KCommit [5]) gi0;
    DMsg 0 (msg (KIns [2]) [6]) gi0; DMsg 1 (msg (KIns [3]) [6; 7]) gi0;
    DMsg 1 (msg KAbort [6; 7]) gi0; DMsg 0 (msg KCommit [6]) gi0;
    DMsg 0 (msg KDel [8]) gi0; DMsg 0 (msg KAbort [8]) gi0;
    DMsg 1 (msg (KUpd (fun _ => Some (Some [9]))) [9]) gi0 ].


Ltac xok := repeat constructor; try (vm_compute; discriminate); vm_compute; reflexivity.

Example C08_history : counted_run (dict_new 2) good_ops (run_get (drun (dict_new 2) good_ops))
  /\ rows_with_value (run_get (drun (dict_new 2) good_ops)) = 2%Z.
Proof.
  split; [|vm_compute; reflexivity]. unfold good_ops.
  eapply cr_cons; [split; [xok|exact I]|vm_compute; reflexivity|].
  eapply cr_cons; [split; [xok|exact I]|vm_compute; reflexivity|].
  eapply cr_cons; [split; [xok|exact I]|vm_compute; reflexivity|].
  eapply cr_cons; [split; [xok|exact I]|vm_compute; reflexivity|].
  eapply cr_cons; [split; [xok|]|vm_compute; reflexivity|].
  { intros u H. vm_compute in H. injection H as <-. right. intros d' r H1 H2.
    vm_compute in H1. injection H1 as <-. vm_compute in H2. injection H2 as <-. vm_compute. discriminate. }
  eapply cr_cons; [split; [xok|exact I]|vm_compute; reflexivity|].
  eapply cr_cons; [split; [xok|]|vm_compute; reflexivity|].
  { eexists. vm_compute. reflexivity. }
  eapply cr_cons; [split; [xok|]|vm_compute; reflexivity|].
  { intros u H. vm_compute in H. injection H as <-. right. intros d' r H1 H2.
    vm_compute in H1. injection H1 as <-. vm_compute in H2. injection H2 as <-. vm_compute. discriminate. }
  eapply cr_cons; [split; [xok|]|vm_compute; reflexivity|].
  { intros r v _ _. eexists. reflexivity. }
  apply cr_nil.
Qed.

(** ** Where the count goes wrong *)

(** Deleting a key that is not stored: the sender subtracts one, and the message finds
    no entry (node.cc:1465) so nothing is corrected. *)
Theorem C08_delete_absent_refuted : exists n ops d, drun (dict_new n) ops = Some d
  /\ rows_with_value d = 0%Z /\ d_count d = (-1)%Z.
Proof. exists 1%nat, [DMsg 0 (msg KDel [5]) gi0]. eexists. split; [reflexivity|]. split; vm_compute; reflexivity. Qed.

(** A nested transaction overwrites a committed row its parent had overwritten and
    aborts: the count drops although the row keeps a value (ule.cc:1828-1832 looks
    for the simplest stack only). *)
Theorem C08_nested_abort_refuted : exists n ops d, drun (dict_new n) ops = Some d
  /\ rows_with_value d = 1%Z /\ d_count d = 0%Z.
Proof.
  exists 1%nat, [ DMsg 0 (msg (KIns [1]) [5]) gi0; DMsg 0 (msg (KIns [2]) [5; 6]) gi0;
                  DMsg 0 (msg KAbort [5; 6]) gi0 ].
  eexists. split; [vm_compute; reflexivity|]. split; vm_compute; reflexivity.
Qed.

(** The same without nesting: an overwrite of a row with two committed versions is
    aborted. *)
Theorem C08_abort_refuted : exists n ops d, drun (dict_new n) ops = Some d
  /\ (forall i m gi, In (DMsg i m gi) ops -> length (rm_xids m) = 1%nat)
  /\ rows_with_value d = 1%Z /\ d_count d = 0%Z.
Proof.
  exists 1%nat, [ DMsg 0 (msg (KIns [1]) [5]) gi0; DMsg 0 (msg KCommit [5]) gi0;
                  DMsg 0 (msg (KIns [2]) [6]) gi0; DMsg 0 (msg KAbort [6]) gi0 ].
  eexists. split; [vm_compute; reflexivity|]. split.
  - intros i m gi H. repeat (destruct H as [H|H]; [injection H as <- <- <-; reflexivity|]). destruct H.
  - split; vm_compute; reflexivity.
Qed.

(** An update function that deletes the row: the count grows. *)
Theorem C08_update_delete_refuted : exists n ops d, drun (dict_new n) ops = Some d
  /\ rows_with_value d = 0%Z /\ d_count d = 2%Z.
Proof.
  exists 1%nat, [ DMsg 0 (msg (KIns [1]) [5]) gi0; DMsg 0 (msg KCommit [5]) gi0;
                  DMsg 0 (msg (KUpd (fun _ => Some None)) [6]) gi0 ].
  eexists. split; [vm_compute; reflexivity|]. split; vm_compute; reflexivity.
Qed.

(** An update function that changes nothing: the count grows. *)
Theorem C08_update_nothing_refuted : exists n ops d, drun (dict_new n) ops = Some d
  /\ rows_with_value d = 1%Z /\ d_count d = 2%Z.
Proof.
  exists 1%nat, [ DMsg 0 (msg (KIns [1]) [5]) gi0; DMsg 0 (msg KCommit [5]) gi0;
                  DMsg 0 (msg (KUpd (fun _ => None)) [6]) gi0 ].
  eexists. split; [vm_compute; reflexivity|]. split; vm_compute; reflexivity.
Qed.
Print Assumptions C08_nested_abort_refuted.
