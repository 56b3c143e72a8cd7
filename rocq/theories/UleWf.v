(** Every operation on leaf entries keeps them well formed. *)
From Verif Require Import Base Bytes UleModel UleSpec LeCodecModel LeCodecProofs LeAccProofs.
Open Scope N_scope.

Notation dummy := (mkUxr 0 XDel).

(** Well-formed except for the innermost provisional record. *)
Record ule_pre (u : ule) : Prop := {
  pre_c : Forall (fun r => uxr_ok r /\ ux_xr r <> XPlace) (cx u);
  pre_p : Forall uxr_ok (px u);
  pre_bottom : exists l c, cx u = l ++ [mkUxr TXNID_NONE c];
  pre_np : (length (px u) < MAX_TRANSACTION_RECORDS)%nat
}.

Definition xids_ok (xs : xids) : Prop := Forall (fun x => x <> TXNID_NONE /\ x < 2 ^ 64) xs.

Lemma wf_pre u : ule_wf u -> ule_pre u.
Proof. intros []; constructor; auto. Qed.

Lemma innermost_px u : px u <> [] -> cx u <> [] -> ule_innermost u = Some (last (px u) dummy).
Proof.
  intros Hp Hc. unfold ule_innermost. destruct (cx u); [congruence|].
  f_equal. apply last_default. auto.
Qed.

Lemma pre_cx u : ule_pre u -> cx u <> [].
Proof. intros [_ _ (l & c & ->) _]. destruct l; discriminate. Qed.

Lemma wf_innermost u : ule_wf u -> exists r, ule_innermost u = Some r
  /\ ux_xr r <> XPlace /\ uxr_ok r.
Proof.
  intros W. pose proof (pre_cx _ (wf_pre _ W)) as Hc. destruct W as [Wc Wp _ Wi _].
  destruct (px u) as [|o p] eqn:Ep.
  - unfold ule_innermost. destruct (cx u) as [|c cs] eqn:Ec; [congruence|]. rewrite Ep.
    exists c. inversion Wc as [|? ? [? ?]]; subst. auto.
  - rewrite <- Ep in *. assert (Hp : px u <> []) by (rewrite Ep; discriminate).
    exists (last (px u) dummy). rewrite innermost_px by auto. repeat split; auto;
    rewrite Forall_forall in Wp; apply Wp; destruct (exists_last Hp) as (l & a & ->);
      rewrite last_last; apply in_or_app; right; left; auto.
Qed.

Lemma first_empty_np u : first_empty_ok u = true -> (length (px u) < MAX_TRANSACTION_RECORDS - 1)%nat.
Proof. unfold first_empty_ok. lia. Qed.

Lemma push_prov_wf u x r u' : ule_pre u -> ule_push u false x r = Some u' ->
  r <> XPlace -> uxr_ok (mkUxr x r) -> ule_wf u'.
Proof.
  intros [Pc Pp Pb Pn] H Hr Hok. unfold ule_push in H.
  destruct (first_empty_ok u) eqn:Hf; [|discriminate]. injection H as <-.
  apply first_empty_np in Hf. constructor; cbn [cx px]; auto.
  - apply Forall_app. split; auto.
  - rewrite last_last. auto.
  - rewrite app_length. cbn. unfold MAX_TRANSACTION_RECORDS in *. lia.
Qed.

Lemma push_comm_wf u x r u' :
  Forall (fun r => uxr_ok r /\ ux_xr r <> XPlace) (cx u) ->
  ((exists l c, cx u = l ++ [mkUxr TXNID_NONE c]) \/ (cx u = [] /\ x = TXNID_NONE)) ->
  ule_push u true x r = Some u' ->
  r <> XPlace -> uxr_ok (mkUxr x r) -> ule_wf u' /\ px u' = [].
Proof.
  intros Pc Pb H Hr Hok. unfold ule_push in H.
  destruct (first_empty_ok u) eqn:Hf; [|discriminate].
  destruct (px u) eqn:Ep; [|discriminate]. cbn [is_nil] in H. injection H as <-.
  split; [|reflexivity].
  constructor; cbn [cx px]; auto; try discriminate.
  - destruct Pb as [(l & c & ->)|[-> ->]].
    + exists (mkUxr x r :: l), c. reflexivity.
    + exists [], r. reflexivity.
  - cbn. unfold MAX_TRANSACTION_RECORDS. lia.
Qed.

Lemma promote_committed_wf u u' : ule_wf u -> ule_promote_to_committed u = Some u' -> ule_wf u'.
Proof.
  intros W H. unfold ule_promote_to_committed in H.
  destruct (px u) as [|o p] eqn:Ep; [discriminate|].
  destruct (wf_innermost u W) as (i & Hi & Hnp & Hok). rewrite Hi in H.
  destruct (is_place (ux_xr i)) eqn:E; [discriminate|]. cbn [negb] in H.
  destruct W as [Wc Wp Wb Wi Wn]. rewrite Ep in *.
  eapply push_comm_wf in H; cbn [cx]; auto; [tauto|].
  inversion Wp as [|? ? [Ho _] _]; subst. destruct Hok. split; auto.
Qed.

Lemma Forall_firstn' {A} (P : A -> Prop) n l : Forall P l -> Forall P (firstn n l).
Proof. intros H. rewrite <- (firstn_skipn n l) in H. apply Forall_app in H. tauto. Qed.

Lemma promote_index_wf u i u' : ule_wf u -> ule_promote_to_index u i = Some u' -> ule_wf u'.
Proof.
  intros W H. unfold ule_promote_to_index in H.
  destruct (i <? length (px u) - 1)%nat eqn:Hi; [|discriminate].
  destruct (wf_innermost u W) as (r & Hr & Hnp & Hok). rewrite Hr in H.
  destruct (is_place (ux_xr r)) eqn:E; [discriminate|]. cbn [negb] in H.
  destruct (nth_error (px u) i) as [q|] eqn:Hq; [|discriminate].
  destruct W as [Wc Wp Wb Wi Wn].
  eapply push_prov_wf in H; auto.
  - constructor; cbn [cx px]; auto.
    + apply Forall_firstn'. auto.
    + rewrite firstn_length. unfold MAX_TRANSACTION_RECORDS in *. lia.
  - apply nth_error_In in Hq. rewrite Forall_forall in Wp. destruct (Wp _ Hq).
    destruct Hok. split; auto.
Qed.

Lemma implicit_wf u xs u' : ule_wf u -> ule_do_implicit_promotions u xs = Some u' ->
  ule_wf u' /\ (xs = [] -> px u' = []).
Proof.
  intros W H. unfold ule_do_implicit_promotions in H.
  destruct (px u) as [|o p] eqn:Ep; cbn [is_nil] in H.
  { injection H as <-. auto. }
  rewrite <- Ep in *.
  destruct xs as [|x xs]; [discriminate|]. cbn [is_nil negb] in H. split; [|discriminate].
  destruct (common_prefix (px u) (x :: xs)) as [|ica].
  - eapply promote_committed_wf; eauto.
  - destruct (ica <? length (px u) - 1)%nat; [|injection H as <-; auto].
    eapply promote_index_wf; eauto.
Qed.

Lemma Forall_last {A} (P : A -> Prop) l d : Forall P l -> P d -> P (last l d).
Proof.
  intros H Hd. destruct l as [|a l]; [auto|].
  destruct (exists_last (l := a :: l)) as (l' & b & E); [discriminate|]. rewrite E in *.
  rewrite last_last. apply Forall_app in H as [_ H]. inversion H; auto.
Qed.

Lemma xids_ok_inner xs : xids_ok xs -> xids_innermost xs < 2 ^ 64
  /\ (xids_innermost xs = TXNID_NONE <-> xs = []).
Proof.
  intros H. unfold xids_innermost. destruct xs as [|x xs].
  - split; [reflexivity|]. cbn. tauto.
  - assert (Q : last (x :: xs) TXNID_NONE <> TXNID_NONE /\ last (x :: xs) TXNID_NONE < 2 ^ 64).
    { destruct (exists_last (l := x :: xs)) as (l' & b & E); [discriminate|]. rewrite E in *.
      rewrite last_last. apply Forall_app in H as [_ H]. inversion H; auto. }
    destruct Q. split; auto. split; [congruence|discriminate].
Qed.

Lemma push_placeholders_pre xs : forall u u', xids_ok xs -> ule_pre u ->
  push_placeholders u xs = Some u' -> ule_pre u' /\ (cx u' = cx u).
Proof.
  induction xs as [|x xs IH]; intros u u' Hx P H; cbn [push_placeholders] in H.
  { injection H as <-. auto. }
  inversion Hx as [|? ? [_ Hx1] Hx2]; subst.
  destruct (ule_push_placeholder u x) as [u1|] eqn:E; [|discriminate].
  unfold ule_push_placeholder in E. destruct (is_nil (cx u)); [discriminate|].
  destruct (first_empty_ok u) eqn:Hf; [|discriminate]. cbn [negb] in E. injection E as <-.
  apply first_empty_np in Hf. destruct P as [Pc Pp Pb Pn].
  eapply IH in H as [H1 H2]; auto.
  constructor; cbn [cx px]; auto.
  - apply Forall_app. split; auto. repeat constructor. auto.
  - rewrite app_length. cbn. unfold MAX_TRANSACTION_RECORDS in *. lia.
Qed.

Lemma removelast_pre u : ule_pre u -> ule_pre (mkUle (cx u) (removelast (px u)) (ucap u)).
Proof.
  intros [Pc Pp Pb Pn]. constructor; cbn [cx px]; auto.
  - apply Forall_removelast. auto.
  - rewrite removelast_length. lia.
Qed.

(** After preparing, either ordinary pre-state, or an emptied committed stack
    when the message is not transactional. *)
Lemma prepare_pre u xs u' : ule_wf u -> xids_ok xs -> (xs = [] -> px u = []) ->
  ule_prepare_for_new_uxr u xs = Some u' ->
  (xs <> [] /\ ule_pre u') \/ (xs = [] /\ cx u' = [] /\ px u' = []).
Proof.
  intros W Hx Hpx H. unfold ule_prepare_for_new_uxr in H.
  destruct (wf_innermost u W) as (i & Hi & _). unfold ule_innermost_xid in H. rewrite Hi in H.
  destruct (xids_ok_inner xs Hx) as [_ Hn].
  assert (Dec : xs = [] \/ xs <> []) by (destruct xs; [auto|right; discriminate]).
  destruct Dec as [->|Hxs].
  - right. specialize (Hpx eq_refl). split; auto.
    change (xids_innermost []) with TXNID_NONE in H. rewrite N.eqb_refl in H. cbn [andb] in H.
    rewrite Hpx in H. cbn [is_nil negb andb] in H.
    destruct (ux_xid i =? TXNID_NONE).
    + unfold ule_remove_innermost in H. rewrite Hpx in H.
      destruct (cx u) as [|c cs]; [discriminate|]. cbn [is_nil negb] in H.
      destruct (is_nil cs); [|discriminate]. destruct (ux_xid c =? TXNID_NONE); [|discriminate].
      injection H as <-. auto.
    + unfold ule_add_placeholders in H. rewrite Hpx in H.
      destruct (is_nil (cx u)); cbn in H; discriminate.
  - left. split; auto.
    assert (Hne : xids_innermost xs <> TXNID_NONE) by tauto.
    replace (xids_innermost xs =? TXNID_NONE) with false in H by lia. cbn [andb] in H.
    destruct (negb (is_nil (px u)) && (ux_xid i =? xids_innermost xs)) eqn:E.
    + unfold ule_remove_innermost in H. pose proof (pre_cx _ (wf_pre _ W)) as Hc.
      destruct (cx u) as [|c cs] eqn:Ec; [congruence|].
      destruct (is_nil (px u)); [discriminate|]. cbn [negb] in H. injection H as <-.
      rewrite <- Ec. apply removelast_pre, wf_pre, W.
    + unfold ule_add_placeholders in H.
      destruct (is_nil (cx u)); [discriminate|]. cbn [negb] in H.
      destruct (xids_match_prefix (px u) xs); [|discriminate].
      destruct (is_nil xs); [discriminate|]. cbn [negb] in H.
      apply push_placeholders_pre in H as [H _]; auto using wf_pre.
      apply Forall_removelast in Hx. rewrite <- (firstn_skipn (length (px u)) (removelast xs)) in Hx.
      apply Forall_app in Hx. tauto.
Qed.

Lemma put_wf u xs r u1 u2 : ule_wf u -> xids_ok xs -> (xs = [] -> px u = []) ->
  r <> XPlace -> xr_ok r ->
  ule_prepare_for_new_uxr u xs = Some u1 ->
  ule_push u1 (xids_innermost xs =? TXNID_NONE) (xids_innermost xs) r = Some u2 -> ule_wf u2.
Proof.
  intros W Hx Hpx Hr Hok H1 H2.
  destruct (xids_ok_inner xs Hx) as [Hlt Hn].
  destruct (prepare_pre _ _ _ W Hx Hpx H1) as [[Hne P]|(-> & Hc & Hp)].
  - replace (xids_innermost xs =? TXNID_NONE) with false in H2.
    + eapply push_prov_wf; eauto. split; auto.
    + symmetry. apply N.eqb_neq. tauto.
  - change (xids_innermost [] =? TXNID_NONE) with true in H2.
    eapply push_comm_wf in H2; eauto.
    + tauto.
    + rewrite Hc. constructor.
    + split; [reflexivity|auto].
Qed.

Lemma remove_placeholders_wf fuel : forall u u', ule_pre u ->
  ule_remove_innermost_placeholders fuel u = Some u' -> ule_wf u'.
Proof.
  induction fuel as [|fuel IH]; intros u u' P H; cbn [ule_remove_innermost_placeholders] in H;
    [discriminate|].
  destruct (ule_innermost u) as [r|] eqn:Hi; [|discriminate].
  destruct (is_place (ux_xr r)) eqn:Hp.
  - destruct (is_nil (px u)) eqn:En; [discriminate|]. cbn [negb] in H.
    unfold ule_remove_innermost in H.
    destruct (cx u) eqn:Ec; [discriminate|]. rewrite En in H. cbn [negb] in H.
    eapply IH; [|exact H]. rewrite <- Ec. apply removelast_pre. auto.
  - injection H as <-. destruct P as [Pc Pp Pb Pn]. constructor; auto.
    destruct (px u) as [|o p] eqn:Ep; [discriminate|]. rewrite <- Ep in *.
    rewrite innermost_px in Hi.
    + injection Hi as Hi. rewrite Hi. intros E. rewrite E in Hp. discriminate.
    + rewrite Ep; discriminate.
    + destruct Pb as (l & c & ->). destruct l; discriminate.
Qed.

Lemma abort_wf u xs u' z : ule_wf u -> ule_apply_abort u xs = Some (u', z) -> ule_wf u'.
Proof.
  intros W H. unfold ule_apply_abort in H. cbv zeta in H.
  destruct (negb (xids_innermost xs =? TXNID_NONE)); [|discriminate].
  destruct (ule_innermost u) as [r|] eqn:Hi; [|discriminate].
  destruct (negb (is_nil (px u)) && (ux_xid r =? xids_innermost xs)) eqn:E.
  - inv_do H. injection H as <- _.
    eapply remove_placeholders_wf; [|eauto].
    unfold ule_remove_innermost in E0. destruct (cx u) as [|c cs] eqn:Ec; [discriminate|].
    destruct (is_nil (px u)); [discriminate|]. cbn [negb] in E0. injection E0 as <-.
    rewrite <- Ec. apply removelast_pre, wf_pre, W.
  - inv_do H. injection H as <- _. auto.
Qed.

Lemma commit_wf u xs u' : ule_wf u -> ule_apply_commit u xs = Some u' -> ule_wf u'.
Proof.
  intros W H. unfold ule_apply_commit in H. cbv zeta in H.
  destruct (negb (xids_innermost xs =? TXNID_NONE)); [|discriminate].
  destruct (is_nil (px u)); [injection H as <-; auto|].
  destruct (ule_innermost_xid u); [|discriminate].
  destruct (t =? xids_innermost xs); [|injection H as <-; auto].
  destruct (length (px u) =? 1)%nat;
    [eapply promote_committed_wf|eapply promote_index_wf]; eauto.
Qed.

Definition msg_ok (m : umsg) : Prop :=
  xids_ok (um_xids m).

Lemma msg_modify_wf u m u' z : ule_wf u -> msg_ok m ->
  msg_modify_ule u m = Some (u', z) -> ule_wf u'.
Proof.
  intros W Hm H. unfold msg_modify_ule in H.
  destruct (length (um_xids m) <? MAX_TRANSACTION_RECORDS)%nat; [|discriminate].
  destruct (if is_optimize (um_type m) then Some u
            else ule_do_implicit_promotions u (um_xids m)) as [u1|] eqn:E1; [|discriminate].
  assert (W1 : ule_wf u1 /\ (is_optimize (um_type m) = false -> um_xids m = [] -> px u1 = [])).
  { destruct (is_optimize (um_type m)).
    - injection E1 as <-. split; auto. discriminate.
    - apply implicit_wf in E1; auto. tauto. }
  destruct W1 as [W1 Hpx]. set (xs := um_xids m) in *.
  destruct (um_type m) eqn:Et; cbn [is_optimize] in Hpx; try discriminate.
  - unfold ule_apply_insert in H.
    destruct (N.of_nat (length v) <? 2 ^ 31) eqn:Hv; [|discriminate].
    inv_do H. injection H as <- _. eapply put_wf; eauto; [discriminate|]. cbn. unfold len. lia.
  - unfold ule_apply_insert_no_overwrite in H.
    destruct (N.of_nat (length v) <? 2 ^ 31) eqn:Hv; [|discriminate].
    destruct (ule_innermost u1) as [r|]; [|discriminate].
    destruct (is_ins (ux_xr r)); [injection H as <- _; auto|].
    inv_do H. injection H as <- _. eapply put_wf; eauto; [discriminate|]. cbn. unfold len. lia.
  - unfold ule_apply_delete in H. inv_do H. injection H as <- _.
    eapply put_wf; eauto; [discriminate|cbn; auto].
  - eapply abort_wf; eauto.
  - eapply abort_wf; eauto.
  - inv_do H. injection H as <- _. unfold ule_apply_broadcast_commit_all in E.
    destruct (wf_innermost u1 W1) as (r & Hr & Hnp & Hok). rewrite Hr in E.
    injection E as <-. constructor; cbn [cx px]; try discriminate.
    + constructor; [|constructor]. cbn [ux_xr]. destruct Hok. repeat split; auto.
    + constructor.
    + exists [], (ux_xr r). reflexivity.
    + cbn. unfold MAX_TRANSACTION_RECORDS. lia.
  - inv_do H. injection H as <- _. eapply commit_wf; eauto.
  - inv_do H. injection H as <- _. eapply commit_wf; eauto.
  - inv_do H. injection H as <- _. unfold ule_optimize in E.
    destruct (px u1); [injection E as <-; auto|].
    destruct xs as [|o [|? ?]]; [eapply promote_committed_wf; eauto| |discriminate].
    destruct ((o =? TXNID_NONE) || (ux_xid _ <? o)); [eapply promote_committed_wf; eauto|].
    injection E as <-; auto.
  - inv_do H. injection H as <- _. unfold ule_optimize in E.
    destruct (px u1); [injection E as <-; auto|].
    destruct xs as [|o [|? ?]]; [eapply promote_committed_wf; eauto| |discriminate].
    destruct ((o =? TXNID_NONE) || (ux_xid _ <? o)); [eapply promote_committed_wf; eauto|].
    injection E as <-; auto.
Qed.

(** ** Garbage collection *)

Lemma zero_bottom_snoc l r : zero_bottom (l ++ [r]) = l ++ [mkUxr TXNID_NONE (ux_xr r)].
Proof.
  induction l as [|a l IH]; [reflexivity|]. cbn [app zero_bottom].
  destruct (l ++ [r]) eqn:E; [destruct l; discriminate|]. rewrite IH. reflexivity.
Qed.

Lemma zero_bottom_wf k (P : uxr -> Prop) : (forall r, P r -> P (mkUxr TXNID_NONE (ux_xr r))) ->
  Forall P k -> Forall P (zero_bottom k).
Proof.
  intros HP. induction k as [|r k IH]; intros H; [constructor|].
  inversion H; subst. cbn [zero_bottom]. destruct k as [|r2 k].
  - repeat constructor. auto.
  - constructor; auto.
Qed.

Lemma gc_walk_sub g c : forall s k, gc_walk g s c = Some k -> forall r, In r k -> In r c.
Proof.
  induction c as [|r c IH]; intros s k H q Hq; cbn [gc_walk] in H.
  - injection H as <-. auto.
  - destruct (match s with None => true | Some tl1 => _ end).
    + destruct (is_nil c) eqn:En.
      { injection H as <-. destruct Hq as [<-|[]]. left; auto. }
      destruct (in_live_list (g_live g) (ux_xid r)).
      { inv_do H. injection H as <-. destruct Hq as [<-|Hq]; [left; auto|right; eauto]. }
      inv_do H.
      match type of H with (if ?b then _ else _) = _ => destruct b end.
      { injection H as <-. destruct Hq as [<-|[]]. left; auto. }
      inv_do H. injection H as <-. destruct Hq as [<-|Hq]; [left; auto|right; eauto].
    + right. eauto.
Qed.

Lemma keep_until_sub o c r : In r (keep_until_older o c) -> In r c.
Proof.
  induction c as [|a c IH]; cbn [keep_until_older]; [auto|].
  destruct (ux_xid a <? o); intros H; [destruct H as [<-|[]]; left; auto|].
  destruct H as [<-|H]; [left; auto|right; auto].
Qed.

Lemma collected_wf u k : ule_wf u -> k <> [] -> (forall r, In r k -> In r (cx u)) ->
  ule_wf (mkUle (zero_bottom k) (px u) (ucap u)).
Proof.
  intros [Wc Wp Wb Wi Wn] Hk Hs. constructor; cbn [cx px]; auto.
  - apply zero_bottom_wf.
    + intros r [[_ H1] H2]. cbn [ux_xr]. repeat split; auto.
    + rewrite Forall_forall in *. auto.
  - destruct (exists_last Hk) as (l & a & ->). rewrite zero_bottom_snoc. eauto.
Qed.

Lemma gc_wf u g u' : ule_wf u -> ule_garbage_collect u g = Some u' -> ule_wf u'.
Proof.
  intros W H. unfold ule_garbage_collect in H.
  destruct (cx u) as [|c [|c2 cs]] eqn:Ec; [discriminate|injection H as <-; auto|].
  rewrite <- Ec in *.
  destruct (gc_walk g None (cx u)) as [k|] eqn:Ek; [|discriminate].
  destruct k as [|a k]; [discriminate|]. cbn [is_nil negb] in H.
  apply Some_inj in H. subst u'.
  apply collected_wf; auto; [discriminate|]. eapply gc_walk_sub; eauto.
Qed.

Lemma keep_until_nil o c : c <> [] -> keep_until_older o c <> [].
Proof. destruct c as [|a c]; [congruence|]. cbn. destruct (ux_xid a <? o); discriminate. Qed.

Lemma simple_gc_wf u b o : ule_wf u -> ule_wf (ule_simple_gc u b o).
Proof.
  intros W. unfold ule_simple_gc.
  destruct (cx u) as [|c [|c2 cs]] eqn:Ec; auto. cbv zeta. rewrite <- Ec.
  match goal with |- context [if ?e then u else _] => destruct e end; auto.
  apply collected_wf; auto.
  - destruct b; [|discriminate]. apply keep_until_nil. rewrite Ec; discriminate.
  - intros r. destruct b; [apply keep_until_sub|].
    rewrite Ec. intros [<-|[]]. left; auto.
Qed.

Lemma try_promote_wf u o u' : ule_wf u -> ule_try_promote_outermost u o = Some u' -> ule_wf u'.
Proof.
  intros W H. unfold ule_try_promote_outermost in H.
  destruct (px u) as [|x p]; [injection H as <-; auto|].
  destruct (ux_xid x <? o); [eapply promote_committed_wf; eauto|injection H as <-; auto].
Qed.

Lemma post_process_wf u gi u' : ule_wf u -> ule_post_process u gi = Some u' -> ule_wf u'.
Proof.
  intros W H. unfold ule_post_process in H.
  destruct (ule_try_promote_outermost u (gi_oldest_promo gi)) as [u1|] eqn:E1; [|discriminate].
  apply try_promote_wf in E1; auto.
  pose proof (simple_gc_wf u1 (gi_mvcc gi) (gi_oldest_simple gi) E1) as W2.
  set (u2 := ule_simple_gc u1 (gi_mvcc gi) (gi_oldest_simple gi)) in *.
  destruct (gi_state gi) as [[ini g]|]; [|injection H as <-; auto].
  destruct (1 <? length (cx u2))%nat; [|injection H as <-; auto].
  destruct (ini || (ULE_MIN_STACK_SIZE_TO_FORCE_GC <=? length (cx u2))%nat).
  - eapply gc_wf; eauto.
  - destruct (ule_packed_memsize u2); [|discriminate].
    destruct (ULE_MIN_MEMSIZE_TO_FORCE_GC <=? n); [eapply gc_wf; eauto|injection H as <-; auto].
Qed.

Lemma init_wf : ule_wf ule_init_empty.
Proof.
  constructor; cbn [cx px ule_init_empty]; try discriminate.
  - constructor; [|constructor]. repeat split; cbn; try lia; discriminate.
  - constructor.
  - exists [], XDel. reflexivity.
  - cbn. unfold MAX_TRANSACTION_RECORDS. lia.
Qed.

Lemma reload_wf u : ule_wf u -> ule_wf (ule_reload u).
Proof. intros []; constructor; auto. Qed.

Lemma le_pack_check_ok u r : le_pack_check u = Some r ->
  r = None \/ (r = Some u /\ has_insert u = true).
Proof.
  unfold le_pack_check. intros H. destruct (cx u); [discriminate|].
  destruct (_ =? TXNID_NONE); [|discriminate]. destruct (has_insert u) eqn:Hi.
  - inv_do H. injection H as <-. auto.
  - injection H as <-. auto.
Qed.

Definition row_wf (o : option ule) : Prop := match o with None => True | Some u => ule_wf u end.

Lemma le_apply_msg_wf m old gi new z : row_wf old -> msg_ok m ->
  le_apply_msg m old gi = Some (new, z) -> row_wf new.
Proof.
  intros W Hm H. unfold le_apply_msg in H.
  set (u := match old with None => ule_init_empty | Some u => ule_reload u end) in *.
  assert (Wu : ule_wf u).
  { unfold u. destruct old; [apply reload_wf; auto|apply init_wf]. }
  inv_do H. injection H as <- _.
  apply msg_modify_wf in E; auto. apply post_process_wf in E0; auto.
  apply le_pack_check_ok in E1 as [->|[-> _]]; cbn; auto.
Qed.

Lemma le_gc_wf old gi new : ule_wf old -> le_garbage_collect old gi = Some new -> row_wf new.
Proof.
  intros W H. unfold le_garbage_collect in H.
  destruct (gi_state gi) as [[ini g]|]; [|discriminate].
  inv_do H. apply try_promote_wf in E; auto using reload_wf.
  apply le_pack_check_ok in H as [->|[-> _]]; cbn; auto.
  destruct (1 <? length (cx u))%nat; [eapply gc_wf; eauto|injection E0 as <-; auto].
Qed.

(** ** Bytes *)

(** The packed row [ob] stores the unpacked row [o]. *)
Definition stores (ob : option bytes) (o : option ule) : Prop :=
  match ob, o with
  | None, None => True
  | Some bs, Some u => le_unpack bs = Some (ule_reload u, [])
  | _, _ => False
  end.

(** A row has fewer than 2^32 committed versions. *)
Definition row_small (o : option ule) : Prop :=
  match o with None => True | Some u => N.of_nat (length (cx u)) < 2 ^ 32 end.

Lemma pack_check_pack u r : ule_wf u -> le_pack_check u = Some r -> row_small r ->
  exists b, le_pack u = Some b /\ stores b r.
Proof.
  intros W H Hs. pose proof H as H0. apply le_pack_check_ok in H as [->|[-> Hi]].
  - exists None. split; [|exact I]. unfold le_pack_check in H0. unfold le_pack.
    destruct (cx u); [discriminate|]. destruct (_ =? TXNID_NONE); [|discriminate].
    destruct (has_insert u); [|reflexivity].
    destruct (_ <? _)%nat; discriminate.
  - destruct (le_pack_ok u W Hs Hi) as (bs & H1 & _ & H2).
    exists (Some bs). split; auto. cbn. specialize (H2 []). rewrite app_nil_r in H2. auto.
Qed.

Lemma le_apply_bytes m ob o gi new z : stores ob o -> row_wf o -> msg_ok m ->
  le_apply_msg m o gi = Some (new, z) -> row_small new ->
  exists nb, le_apply_msg_bytes m ob gi = Some (nb, z) /\ stores nb new.
Proof.
  intros S W Hm H Hs. unfold le_apply_msg in H. unfold le_apply_msg_bytes.
  assert (E : (match ob with
           | None => Some ule_init_empty
           | Some bs => do (u, _) <- le_unpack bs; Some u
           end) = Some (match o with None => ule_init_empty | Some u => ule_reload u end)).
  { destruct ob, o; cbn in S; try tauto. rewrite S. reflexivity. }
  rewrite E. clear E.
  set (u := match o with None => ule_init_empty | Some u => ule_reload u end) in *.
  assert (Wu : ule_wf u).
  { unfold u. destruct o; [apply reload_wf; auto|apply init_wf]. }
  destruct (msg_modify_ule u m) as [[u1 d]|] eqn:E1; [|discriminate].
  destruct (ule_post_process u1 gi) as [u2|] eqn:E2; [|discriminate].
  destruct (le_pack_check u2) as [le|] eqn:E3; [|discriminate]. injection H as -> ->.
  apply msg_modify_wf in E1; auto. apply post_process_wf in E2; auto.
  destruct (pack_check_pack _ _ E2 E3 Hs) as (b & -> & Sb). eauto.
Qed.

(** The readers of packed rows agree with the readers of unpacked rows. *)
Lemma stores_read bs u : stores (Some bs) (Some u) ->
  forall f, exists r, le_iterate (fun x => f x true) (fun x => f x false) u = Some r /\
    le_iterate_val f bs = Some (val_of r) /\ le_iterate_is_del f bs = Some (is_del r).
Proof.
  intros S f. cbn in S.
  destruct (le_iterate_val_ok _ _ _ S f) as (r & H1 & H2).
  destruct (le_iterate_is_del_ok _ _ _ S f) as (r' & H3 & H4).
  exists r. change (le_iterate (fun x => f x true) (fun x => f x false) (ule_reload u))
    with (le_iterate (fun x => f x true) (fun x => f x false) u) in *.
  rewrite H1 in H3. injection H3 as <-. auto.
Qed.

Lemma le_gc_bytes bs u gi new : stores (Some bs) (Some u) -> ule_wf u ->
  le_garbage_collect u gi = Some new -> row_small new ->
  exists nb, le_garbage_collect_bytes bs gi = Some nb /\ stores nb new.
Proof.
  intros S W H Hs. unfold le_garbage_collect in H. unfold le_garbage_collect_bytes.
  destruct (gi_state gi) as [[ini g]|]; [|discriminate].
  cbn in S. rewrite S.
  destruct (ule_try_promote_outermost (ule_reload u) (gi_oldest_promo gi)) as [u1|] eqn:E; [|discriminate].
  apply try_promote_wf in E; auto using reload_wf.
  destruct (if (1 <? length (cx u1))%nat then ule_garbage_collect u1 g else Some u1)
    as [u2|] eqn:E2; [|discriminate].
  assert (W2 : ule_wf u2).
  { destruct (1 <? length (cx u1))%nat; [eapply gc_wf; eauto|injection E2 as <-; auto]. }
  apply pack_check_pack; auto.
Qed.

(** What happens to one row over time: messages applied and garbage collections. *)
Inductive row_op := RMsg (m : umsg) (gi : gc_info) | RGc (gi : gc_info).

Definition row_op_ok (o : row_op) : Prop := match o with RMsg m _ => msg_ok m | RGc _ => True end.

Definition row_step (r : option ule) (o : row_op) : option (option ule) :=
  match o, r with
  | RMsg m gi, _ => do (r', _) <- le_apply_msg m r gi; Some r'
  | RGc gi, Some u => le_garbage_collect u gi
  | RGc _, None => Some None
  end.

Definition row_step_bytes (r : option bytes) (o : row_op) : option (option bytes) :=
  match o, r with
  | RMsg m gi, _ => do (r', _) <- le_apply_msg_bytes m r gi; Some r'
  | RGc gi, Some u => le_garbage_collect_bytes u gi
  | RGc _, None => Some None
  end.

Fixpoint row_run {R} (step : R -> row_op -> option R) (r : R) (ops : list row_op) : option R :=
  match ops with
  | [] => Some r
  | o :: ops' => do r' <- step r o; row_run step r' ops'
  end.

Lemma row_step_wf r o r' : row_wf r -> row_op_ok o -> row_step r o = Some r' -> row_wf r'.
Proof.
  intros W Ho H. destruct o as [m gi|gi]; cbn [row_step] in H.
  - inv_do H. injection H as <-. eapply le_apply_msg_wf; eauto.
  - destruct r as [u|]; [eapply le_gc_wf; eauto|injection H as <-; exact I].
Qed.

Lemma row_run_wf ops : forall r r', row_wf r -> Forall row_op_ok ops ->
  row_run row_step r ops = Some r' -> row_wf r'.
Proof.
  induction ops as [|o ops IH]; intros r r' W Ho H; cbn [row_run] in H.
  - injection H as <-. auto.
  - inversion Ho; subst. inv_do H. eapply IH; [| |exact H]; auto. eapply row_step_wf; eauto.
Qed.

(** Every row met along the way has fewer than 2^32 versions. *)
Fixpoint small_run (r : option ule) (ops : list row_op) : Prop :=
  row_small r /\
  match ops with
  | [] => True
  | o :: ops' => match row_step r o with Some r' => small_run r' ops' | None => True end
  end.

Lemma row_run_bytes ops : forall ob r r', stores ob r -> row_wf r -> Forall row_op_ok ops ->
  small_run r ops -> row_run row_step r ops = Some r' ->
  exists ob', row_run row_step_bytes ob ops = Some ob' /\ stores ob' r'.
Proof.
  induction ops as [|o ops IH]; intros ob r r' S W Ho Hs H; cbn [row_run] in *.
  - injection H as <-. eauto.
  - inversion Ho as [|? ? Ho1 Ho2]; subst. cbn [small_run] in Hs. destruct Hs as [Hs0 Hs].
    destruct (row_step r o) as [r1|] eqn:E; [|discriminate].
    assert (Hs1 : row_small r1) by (destruct ops; cbn [small_run] in Hs; tauto).
    pose proof (row_step_wf _ _ _ W Ho1 E) as W1.
    assert (exists ob1, row_step_bytes ob o = Some ob1 /\ stores ob1 r1) as (ob1 & E1 & S1).
    { destruct o as [m gi|gi]; cbn [row_step row_step_bytes] in *.
      - destruct (le_apply_msg m r gi) as [[r2 z]|] eqn:E2; [|discriminate]. injection E as ->.
        destruct (le_apply_bytes m ob r gi r1 z) as (nb & -> & Sn); eauto.
      - destruct r as [u|].
        + destruct ob as [bs|]; [|cbn in S; tauto]. eapply le_gc_bytes; eauto.
        + injection E as <-. destruct ob; [cbn in S; tauto|]. eauto. }
    rewrite E1. eapply IH; eauto.
Qed.
