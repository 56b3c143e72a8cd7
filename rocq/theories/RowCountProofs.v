(** The latest value of a row through every operation, and the row count. *)
From Verif Require Import Base Bytes UleModel UleSpec LeCodecModel LeCodecProofs LeAccProofs UleWf StackProofs
  MvccModel RowCountModel.
Open Scope N_scope.

(** 1 when the latest version of the row is a value. *)
Definition present (o : option ule) : Z :=
  match latest_val o with Some (Some _) => 1 | _ => 0 end%Z.

(** The latest version of an entry. *)
Definition top (u : ule) : option xr := inner_xr u.
Definition val_of (r : option xr) : option val := match r with Some (XIns v) => Some v | _ => None end.
Definition one (r : option xr) : Z := match r with Some (XIns _) => 1 | _ => 0 end%Z.

Lemma top_inner u i : ule_innermost u = Some i -> top u = Some (ux_xr i).
Proof. unfold top, inner_xr. intros ->. auto. Qed.

Lemma present_top u : cx u <> [] -> present (Some u) = one (top u).
Proof.
  intros H. unfold present, latest_val, top, inner_xr, one.
  destruct (ule_innermost u) as [i|]; auto. destruct (ux_xr i); auto.
Qed.

Lemma top_same u c' cap : cx u <> [] -> c' <> [] -> (px u = [] -> ux_xr (hd dummy c') = ux_xr (hd dummy (cx u))) ->
  top (mkUle c' (px u) cap) = top u.
Proof.
  intros H1 H2 H. unfold top, inner_xr, ule_innermost. cbn [cx px].
  destruct (cx u) as [|c cs]; [congruence|]. destruct c' as [|d ds]; [congruence|].
  destruct (px u) as [|p ps]; cbn [hd] in *.
  - cbn [last]. rewrite H; auto.
  - assert (Hn : p :: ps <> []) by discriminate.
    rewrite (last_default (p :: ps) d c Hn). auto.
Qed.

Lemma promote_top u u' : ule_promote_to_committed u = Some u' -> top u' = top u.
Proof.
  intros H. unfold ule_promote_to_committed in H. destruct (px u) as [|o p] eqn:Ep; [discriminate|].
  destruct (ule_innermost u) as [i|] eqn:Hi; [|discriminate].
  destruct (negb (is_place (ux_xr i))); [|discriminate].
  unfold ule_push in H. destruct (first_empty_ok _); [|discriminate]. cbn [px is_nil] in H.
  apply Some_inj in H. subst u'. rewrite (top_inner _ _ Hi). reflexivity.
Qed.

Lemma push_top u x r u' : ule_push u false x r = Some u' -> cx u <> [] -> top u' = Some r.
Proof.
  unfold ule_push. destruct (first_empty_ok u); [|discriminate]. intros H Hc. apply Some_inj in H. subst u'.
  unfold top, inner_xr. rewrite innermost_px; cbn [cx px]; auto.
  - rewrite last_last. auto.
  - destruct (px u); discriminate.
Qed.

Lemma push_top_c u x r u' : ule_push u true x r = Some u' -> top u' = Some r.
Proof.
  unfold ule_push. destruct (first_empty_ok u); [|discriminate].
  destruct (px u) eqn:E; cbn [is_nil]; [|discriminate]. intros H. apply Some_inj in H. subst u'.
  unfold top, inner_xr, ule_innermost. cbn [cx px]. rewrite ?E. reflexivity.
Qed.

Lemma promote_index_top u i u' : ule_promote_to_index u i = Some u' -> cx u <> [] -> top u' = top u.
Proof.
  intros H Hc. unfold ule_promote_to_index in H. destruct (i <? _)%nat; [|discriminate].
  destruct (ule_innermost u) as [r|] eqn:Hi; [|discriminate].
  destruct (negb (is_place (ux_xr r))); [|discriminate].
  destruct (nth_error (px u) i); [|discriminate].
  apply push_top in H; auto. rewrite (top_inner _ _ Hi). auto.
Qed.

Lemma implicit_top u xs u' : ule_do_implicit_promotions u xs = Some u' -> cx u <> [] -> top u' = top u.
Proof.
  intros H Hc. unfold ule_do_implicit_promotions in H.
  destruct (is_nil (px u)); [apply Some_inj in H; subst; auto|].
  destruct (negb (is_nil xs)); [|discriminate].
  destruct (common_prefix (px u) xs); [apply promote_top; auto|].
  destruct (n <? _)%nat; [eapply promote_index_top; eauto|apply Some_inj in H; subst; auto].
Qed.

Lemma gc_walk_hd g c k : gc_walk g None c = Some k -> c <> [] -> hd dummy k = hd dummy c /\ k <> [].
Proof.
  destruct c as [|r rest]; [congruence|]. intros H _. cbn [gc_walk] in H.
  destruct (is_nil rest); [apply Some_inj in H; subst; split; [auto|discriminate]|].
  destruct (in_live_list (g_live g) (ux_xid r)).
  - destruct (gc_walk g None rest); [|discriminate]. apply Some_inj in H; subst; split; [auto|discriminate].
  - cbv zeta in H. destruct (negb _); [|discriminate].
    match type of H with (if ?e then _ else _) = _ => destruct e end;
      [apply Some_inj in H; subst; split; [auto|discriminate]|].
    match type of H with (do _ <- ?e; _) = _ => destruct e end; [|discriminate].
    apply Some_inj in H; subst; split; [auto|discriminate].
Qed.

Lemma zero_bottom_hd c : ux_xr (hd dummy (zero_bottom c)) = ux_xr (hd dummy c).
Proof. destruct c as [|a [|b c]]; reflexivity. Qed.
Lemma zero_bottom_nil c : c <> [] -> zero_bottom c <> [].
Proof. destruct c as [|a [|b c]]; [congruence|discriminate|discriminate]. Qed.

Lemma gc_top u g u' : ule_garbage_collect u g = Some u' -> top u' = top u.
Proof.
  intros H. unfold ule_garbage_collect in H.
  destruct (cx u) as [|c [|c2 cs]] eqn:Ec; [discriminate|apply Some_inj in H; subst; auto|].
  rewrite <- Ec in *. assert (Hc : cx u <> []) by (rewrite Ec; discriminate).
  destruct (gc_walk g None (cx u)) as [k|] eqn:Ek; [|discriminate].
  apply gc_walk_hd in Ek as [Eh Ek]; auto. destruct (negb _); [|discriminate].
  apply Some_inj in H. subst u'. apply top_same; auto using zero_bottom_nil.
  intros _. rewrite zero_bottom_hd, Eh. auto.
Qed.

Lemma keep_hd o c : hd dummy (keep_until_older o c) = hd dummy c.
Proof. destruct c as [|a c]; auto. cbn. destruct (ux_xid a <? o); auto. Qed.

Lemma simple_gc_top u b o : top (ule_simple_gc u b o) = top u.
Proof.
  unfold ule_simple_gc. destruct (cx u) as [|c [|c2 cs]] eqn:Ec; auto. cbv zeta. rewrite <- Ec.
  assert (Hc : cx u <> []) by (rewrite Ec; discriminate).
  match goal with |- context [if ?e then u else _] => destruct e end; auto.
  apply top_same; auto.
  - apply zero_bottom_nil. destruct b; [apply keep_until_nil; auto|discriminate].
  - intros _. rewrite zero_bottom_hd. destruct b; [rewrite keep_hd; auto|]. rewrite Ec. auto.
Qed.

Lemma try_promote_top u e u' : ule_try_promote_outermost u e = Some u' -> top u' = top u.
Proof.
  unfold ule_try_promote_outermost. destruct (px u) as [|o p]; [intros H; apply Some_inj in H; subst; auto|].
  destruct (ux_xid o <? e); [apply promote_top|intros H; apply Some_inj in H; subst; auto].
Qed.

Lemma post_top u gi u' : ule_post_process u gi = Some u' -> top u' = top u.
Proof.
  unfold ule_post_process. destruct (ule_try_promote_outermost u (gi_oldest_promo gi)) as [u1|] eqn:E; [|discriminate].
  apply try_promote_top in E. cbv zeta. rewrite <- E, <- (simple_gc_top u1 (gi_mvcc gi) (gi_oldest_simple gi)).
  set (u2 := ule_simple_gc _ _ _).
  destruct (gi_state gi) as [[ini g]|]; [|intros H; apply Some_inj in H; subst; auto].
  destruct (1 <? length (cx u2))%nat; [|intros H; apply Some_inj in H; subst; auto].
  destruct (ini || _); [apply gc_top|].
  destruct (ule_packed_memsize u2); [|discriminate].
  destruct (_ <=? n); [apply gc_top|intros H; apply Some_inj in H; subst; auto].
Qed.

Lemma has_insert_top u v : top u = Some (XIns v) -> has_insert u = true.
Proof.
  unfold top, inner_xr, ule_innermost, has_insert. destruct (cx u) as [|c cs]; [discriminate|].
  destruct (px u) as [|p ps]; intros H; apply Some_inj in H.
  - cbn [last] in H. cbn [existsb]. rewrite H. auto.
  - apply orb_true_iff. right. apply existsb_exists. exists (last (p :: ps) c). split.
    + destruct (exists_last (l := p :: ps)) as (l & a & E); [discriminate|]. rewrite E, last_last.
      apply in_or_app. right. left. auto.
    + rewrite H. auto.
Qed.

Lemma pack_present u r : cx u <> [] -> le_pack_check u = Some r -> present r = one (top u).
Proof.
  intros Hc H. unfold le_pack_check in H. destruct (cx u) eqn:E; [congruence|]. rewrite <- E in *.
  destruct (_ =? TXNID_NONE); [|discriminate].
  destruct (has_insert u) eqn:Hi.
  - destruct (_ <? _)%nat; [|discriminate]. apply Some_inj in H. subst r. apply present_top; auto.
  - apply Some_inj in H. subst r. unfold present. cbn [latest_val]. unfold one.
    destruct (top u) as [[v| |]|] eqn:Et; auto. apply has_insert_top in Et. congruence.
Qed.

(** What remains after [prepare]: everything a push needs. *)
Lemma push_any u b x r u' : ule_push u b x r = Some u' -> cx u <> [] \/ b = true -> top u' = Some r.
Proof. destruct b; [intros; eapply push_top_c; eauto|]. intros H [Hc|E]; [eapply push_top; eauto|discriminate]. Qed.

Lemma put_top u xs r u1 u2 : ule_wf u -> xids_ok xs -> (xs = [] -> px u = []) ->
  ule_prepare_for_new_uxr u xs = Some u1 ->
  ule_push u1 (xids_innermost xs =? TXNID_NONE) (xids_innermost xs) r = Some u2 -> top u2 = Some r.
Proof.
  intros W Hx Hpx H1 H2. eapply push_any; eauto.
  destruct (prepare_pre _ _ _ W Hx Hpx H1) as [[Hne P]|(-> & Hc & Hp)]; [left; apply pre_cx; auto|right; auto].
Qed.

Lemma unrow_present o : row_wf o -> one (top (match o with None => ule_init_empty | Some u => ule_reload u end)) = present o.
Proof.
  destruct o as [u|]; intros W; [|reflexivity]. rewrite present_top; [|apply pre_cx, wf_pre; auto]. reflexivity.
Qed.

Definition is_abort (t : msg_type) : bool :=
  match t with FT_ABORT_ANY | FT_ABORT_BROADCAST_TXN => true | _ => false end.
Definition sent_type (t : msg_type) : Z :=
  match t with FT_INSERT _ | FT_INSERT_NO_OVERWRITE _ => 1 | FT_DELETE_ANY => -1 | _ => 0 end%Z.

Lemma modify_count u m u' z : ule_wf u -> msg_ok m -> is_abort (um_type m) = false ->
  msg_modify_ule u m = Some (u', z) -> (sent_type (um_type m) + z = one (top u') - one (top u))%Z.
Proof.
  intros W Hm Ha H. unfold msg_modify_ule in H.
  destruct (length (um_xids m) <? MAX_TRANSACTION_RECORDS)%nat; [|discriminate].
  destruct (if is_optimize (um_type m) then Some u
            else ule_do_implicit_promotions u (um_xids m)) as [u1|] eqn:E1; [|discriminate].
  assert (Hc : cx u <> []) by apply (pre_cx _ (wf_pre _ W)).
  assert (W1 : ule_wf u1 /\ top u1 = top u /\ (is_optimize (um_type m) = false -> um_xids m = [] -> px u1 = [])).
  { destruct (is_optimize (um_type m)).
    - injection E1 as <-. split; [auto|split; [auto|discriminate]].
    - pose proof E1 as E2. apply implicit_wf in E1; auto. split; [tauto|]. split; [|tauto].
      eapply implicit_top; eauto. }
  destruct W1 as (W1 & Et & Hpx). rewrite <- Et. set (xs := um_xids m) in *.
  destruct (wf_innermost u1 W1) as (r & Hr & Hnp & _).
  destruct (um_type m) eqn:Em; cbn [is_optimize] in Hpx; cbn [is_abort sent_type] in *; try discriminate.
  - unfold ule_apply_insert in H. destruct (_ <? _); [|discriminate]. rewrite Hr in H.
    inv_do H. injection H as <- <-. erewrite put_top by eauto. rewrite (top_inner _ _ Hr). cbn [one].
    destruct (ux_xr r); cbn [is_ins]; lia.
  - unfold ule_apply_insert_no_overwrite in H. destruct (_ <? _); [|discriminate]. rewrite Hr in H.
    destruct (is_ins (ux_xr r)) eqn:Ei; [injection H as <- <-; lia|].
    inv_do H. injection H as <- <-. erewrite put_top by eauto. rewrite (top_inner _ _ Hr). cbn [one].
    destruct (ux_xr r); try discriminate; lia.
  - unfold ule_apply_delete in H. rewrite Hr in H. inv_do H. injection H as <- <-.
    erewrite put_top by eauto. rewrite (top_inner _ _ Hr). cbn [one].
    destruct (ux_xr r); cbn [is_del]; try lia. congruence.
  - inv_do H. injection H as <- <-. unfold ule_apply_broadcast_commit_all in E. rewrite Hr in E.
    apply Some_inj in E. subst. rewrite (top_inner _ _ Hr).
    match goal with |- context [top ?x] => change (top x) with (Some (ux_xr r)) end. lia.
  - assert (top u' = top u1); [|lia || (rewrite H0; inv_do H; injection H as _ <-; lia)].
    inv_do H. injection H as <- <-. unfold ule_apply_commit in E. cbv zeta in E.
    destruct (negb (xids_innermost xs =? TXNID_NONE)); [|discriminate].
    destruct (is_nil (px u1)); [injection E as <-; auto|].
    destruct (ule_innermost_xid u1); [|discriminate].
    destruct (t =? xids_innermost xs); [|injection E as <-; auto].
    destruct (length (px u1) =? 1)%nat;
      [eapply promote_top|eapply promote_index_top]; eauto. apply (pre_cx _ (wf_pre _ W1)).
  - assert (top u' = top u1); [|lia || (rewrite H0; inv_do H; injection H as _ <-; lia)].
    inv_do H. injection H as <- <-. unfold ule_apply_commit in E. cbv zeta in E.
    destruct (negb (xids_innermost xs =? TXNID_NONE)); [|discriminate].
    destruct (is_nil (px u1)); [injection E as <-; auto|].
    destruct (ule_innermost_xid u1); [|discriminate].
    destruct (t =? xids_innermost xs); [|injection E as <-; auto].
    destruct (length (px u1) =? 1)%nat;
      [eapply promote_top|eapply promote_index_top]; eauto. apply (pre_cx _ (wf_pre _ W1)).
  - assert (top u' = top u1); [|lia || (rewrite H0; inv_do H; injection H as _ <-; lia)].
    inv_do H. injection H as <- _. unfold ule_optimize in E.
    destruct (px u1); [injection E as <-; auto|].
    destruct xs as [|o [|? ?]]; [eapply promote_top; eauto| |discriminate].
    destruct ((o =? TXNID_NONE) || (ux_xid _ <? o)); [eapply promote_top; eauto|].
    injection E as <-; auto.
  - assert (top u' = top u1); [|lia || (rewrite H0; inv_do H; injection H as _ <-; lia)].
    inv_do H. injection H as <- _. unfold ule_optimize in E.
    destruct (px u1); [injection E as <-; auto|].
    destruct xs as [|o [|? ?]]; [eapply promote_top; eauto| |discriminate].
    destruct ((o =? TXNID_NONE) || (ux_xid _ <? o)); [eapply promote_top; eauto|].
    injection E as <-; auto.
Qed.

(** An abort: the correction is right, or it wrongly counts a change where there is
    none. *)
Lemma remove_placeholders_shape fuel : forall u u', ule_remove_innermost_placeholders fuel u = Some u' ->
  cx u' = cx u.
Proof.
  induction fuel as [|fuel IH]; intros u u' H; cbn [ule_remove_innermost_placeholders] in H; [discriminate|].
  destruct (ule_innermost u) as [r|]; [|discriminate].
  destruct (is_place (ux_xr r)); [|injection H as <-; auto].
  destruct (is_nil (px u)) eqn:En; [discriminate|]. cbn [negb] in H.
  unfold ule_remove_innermost in H. destruct (cx u) eqn:Ec; [discriminate|]. rewrite En in H. cbn [negb] in H.
  apply IH in H. exact H.
Qed.

Definition single (u : ule) : bool := ((length (px u) =? 1) && (length (cx u) =? 1))%nat.

Lemma abort_count u xs u' z : ule_wf u -> ule_apply_abort u xs = Some (u', z) ->
  (z = one (top u') - one (top u))%Z
  \/ (one (top u') = one (top u) /\ z = (if Z.eqb (one (top u)) 1 then -1 else 1)%Z
      /\ single u = false /\ px u <> [] /\ ux_xid (last (px u) dummy) = xids_innermost xs).
Proof.
  intros W H. pose proof (abort_wf _ _ _ _ W H) as W'. unfold ule_apply_abort in H. cbv zeta in H.
  destruct (negb (xids_innermost xs =? TXNID_NONE)); [|discriminate].
  destruct (wf_innermost u W) as (r & Hr & Hnp & _). rewrite Hr in H.
  assert (Hc : cx u <> []) by apply (pre_cx _ (wf_pre _ W)).
  destruct (negb (is_nil (px u)) && (ux_xid r =? xids_innermost xs)) eqn:E.
  2:{ inv_do H. injection H as <- <-. left. lia. }
  assert (Hp : px u <> []) by (destruct (px u); [discriminate E|discriminate]).
  rewrite innermost_px in Hr by auto. apply Some_inj in Hr.
  inv_do H. injection H as <- Ez. fold (single u) in Ez.
  unfold ule_remove_innermost in E0. destruct (cx u) as [|c cs] eqn:Ec; [congruence|].
  destruct (is_nil (px u)) eqn:En; [discriminate|]. cbn [negb] in E0. apply Some_inj in E0.
  assert (Tu : top u = Some (ux_xr r)).
  { rewrite <- Hr. apply top_inner, innermost_px; auto. rewrite Ec; discriminate. }
  rewrite Tu.
  destruct (wf_innermost _ W') as (r' & Hr' & Hnp' & _). rewrite (top_inner _ _ Hr').
  assert (Hs : single u = true -> ux_xr r' = ux_xr c).
  { unfold single. intros Hs. apply andb_true_iff in Hs as [H1 H2].
    apply Nat.eqb_eq in H1, H2. rewrite Ec in H2. destruct cs; [|discriminate H2].
    destruct (px u) as [|p [|? ?]] eqn:Ep; try discriminate H1. cbn [removelast] in E0. subst.
    cbn [length px ule_remove_innermost_placeholders] in E1. unfold ule_innermost in E1. cbn [cx px] in E1.
    cbn [last is_nil negb] in E1. destruct (is_place (ux_xr c)) eqn:Epl; [discriminate|]. injection E1 as <-.
    unfold ule_innermost in Hr'. cbn [cx px] in Hr'. injection Hr' as <-. auto. }
  apply andb_true_iff in E as [_ E]. apply N.eqb_eq in E.
  destruct (single u) eqn:Es.
  - specialize (Hs eq_refl). rewrite <- Hs in Ez. left.
    destruct (ux_xr r) as [v| |], (ux_xr r') as [v'| |]; try congruence; cbn [andb is_ins is_del] in Ez;
      unfold one; lia.
  - cbn [andb] in Ez.
    destruct (ux_xr r) as [v| |] eqn:Er, (ux_xr r') as [v'| |]; try congruence; unfold one; subst z;
      try (left; reflexivity); right; (split; [reflexivity|split; [reflexivity|split; [auto|split; [auto|]]]]); rewrite Hr; auto.
Qed.

Lemma apply_count m o gi o' z : row_wf o -> msg_ok m -> is_abort (um_type m) = false ->
  le_apply_msg m o gi = Some (o', z) -> (sent_type (um_type m) + z = present o' - present o)%Z.
Proof.
  intros W Hm Ha H. unfold le_apply_msg in H. rewrite <- (unrow_present o W).
  set (u := match o with None => ule_init_empty | Some u => ule_reload u end) in *.
  assert (Wu : ule_wf u) by (unfold u; destruct o; [apply reload_wf; auto|apply init_wf]).
  inv_do H. injection H as <- <-.
  pose proof (msg_modify_wf _ _ _ _ Wu Hm E) as W1. apply modify_count in E; auto.
  pose proof (post_process_wf _ _ _ W1 E0) as W2. apply post_top in E0.
  apply pack_present in E1; [|apply pre_cx, wf_pre; auto]. rewrite E1, E0. auto.
Qed.

(** The entry an abort looks at: the stored one after implicit promotions. *)
Lemma apply_abort_count u t xs gi o' z : ule_wf u -> xids_ok xs -> is_abort t = true ->
  le_apply_msg (mkUmsg t xs) (Some u) gi = Some (o', z) ->
  (z = present o' - present (Some u))%Z
  \/ (present o' = present (Some u) /\ z = (if Z.eqb (present o') 1 then -1 else 1)%Z
      /\ exists u1, ule_do_implicit_promotions (ule_reload u) xs = Some u1
                  /\ single u1 = false /\ px u1 <> [] /\ ux_xid (last (px u1) dummy) = xids_innermost xs).
Proof.
  intros W Hx Ha H. unfold le_apply_msg in H. rewrite <- (unrow_present (Some u) W). cbv iota zeta in *.
  pose proof (reload_wf _ W) as Wu. set (v := ule_reload u) in *.
  inv_do H. injection H as <- <-.
  pose proof (msg_modify_wf v (mkUmsg t xs) _ _ Wu Hx E) as W1.
  pose proof (post_process_wf _ _ _ W1 E0) as W2. apply post_top in E0.
  apply pack_present in E1; [|apply pre_cx, wf_pre; auto]. rewrite E1, E0.
  unfold msg_modify_ule in E. cbn [um_xids um_type] in E. destruct (_ <? _)%nat; [|discriminate].
  replace (is_optimize t) with false in E by (destruct t; auto; discriminate).
  destruct (ule_do_implicit_promotions v xs) as [u3|] eqn:Ei; [|discriminate].
  pose proof Ei as Ei'. apply implicit_wf in Ei' as [W3 _]; auto.
  assert (Ht : top u3 = top v) by (eapply implicit_top; eauto; apply pre_cx, wf_pre; auto).
  assert (Ea : ule_apply_abort u3 xs = Some (u0, z0)) by (destruct t; try discriminate; auto).
  apply abort_count in Ea; auto. rewrite <- Ht. destruct Ea as [Ea|(E5 & E6 & E7)]; [left; auto|right].
  split; [auto|]. split; [rewrite E5; auto|]. exists u3. auto.
Qed.

(** The garbage collector leaves the latest version. *)
Lemma gc_count u gi o' : ule_wf u -> le_garbage_collect u gi = Some o' -> present o' = present (Some u).
Proof.
  intros W H. rewrite <- (unrow_present (Some u) W). cbv iota.
  unfold le_garbage_collect in H. destruct (gi_state gi) as [[b g]|]; [|discriminate].
  inv_do H. pose proof (reload_wf _ W) as Wu. pose proof (try_promote_wf _ _ _ Wu E) as W1. apply try_promote_top in E.
  assert (W2 : ule_wf u1 /\ top u1 = top u0).
  { destruct (1 <? length (cx u0))%nat; [split; [eapply gc_wf|eapply gc_top]; eauto|].
    apply Some_inj in E0. subst. auto. }
  destruct W2 as [W2 E2]. apply pack_present in H; [|apply pre_cx, wf_pre; auto]. rewrite H, E2, E. auto.
Qed.
