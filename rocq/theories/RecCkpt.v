(** The steps of a checkpoint keep the invariant of RecRun.v. *)
From Coq Require Import Sorted.
From Verif Require Import Base UleModel MgrModel MvccModel RecModel RecSpec RecIdeal RecFiles RecSim RecBlock RecReplay RecRun RecSteps.
Open Scope N_scope.

Lemma still_recs_post r ls : forall par, Forall (fun x => is_end x = false /\ is_recovered x = false) (still_recs r par ls).
Proof. induction ls as [|l ls IH]; intros par; cbn; [constructor|]. constructor; [split; reflexivity|apply IH]. Qed.
Lemma ck_recs_post last fs ts : Forall (fun x => is_end x = false /\ is_recovered x = false) (ck_recs last fs ts).
Proof.
  unfold ck_recs. constructor; [split; reflexivity|]. constructor; [split; reflexivity|]. rewrite Forall_app. split.
  - apply Forall_map, Forall_forall. intros; split; reflexivity.
  - apply Forall_forall. intros x Hx. apply in_flat_map in Hx. destruct Hx as (t & _ & Hx). unfold still_of in Hx.
    destruct (pt_levels t) as [|l [|l2 ls]], (pt_prep t);
      try (eapply (proj1 (Forall_forall _ _) (still_recs_post _ _ _)); exact Hx).
    destruct Hx as [<-|[]]. split; reflexivity.
Qed.

Lemma flook_clean fn fs : flook fn (clean_all fs) = option_map (fun f => mkOf (of_name f) (of_msgs f) (of_lsn f) false) (flook fn fs).
Proof. induction fs as [|[n f] fs IH]; cbn; [reflexivity|]. destruct (n =? fn); [reflexivity|exact IH]. Qed.
Lemma clean_fst fs : map fst (clean_all fs) = map fst fs.
Proof. unfold clean_all. rewrite map_map. apply map_ext. reflexivity. Qed.
Lemma dirty_In fs fn m : NoDup (map fst fs) -> In (fn, m) (dirty_msgs fs) <-> exists f, flook fn fs = Some f /\ of_dirty f = true /\ m = of_msgs f.
Proof.
  intros Nd. unfold dirty_msgs. rewrite in_map_iff. split.
  - intros ([g f] & E & H). apply filter_In in H. destruct H as [H1 H2]. cbn in *. injection E as <- <-. exists f. split; [now apply flook_intro|auto].
  - intros (f & L & D & ->). exists (fn, f). split; [reflexivity|]. apply filter_In. split; [now apply flook_In|exact D].
Qed.

Lemma flook_fset2 fn f fs f0 g : flook fn fs = Some f0 -> flook g (fset fn f fs) = if g =? fn then Some f else flook g fs.
Proof.
  intros L. rewrite flook_fset. destruct (N.eqb_spec g fn) as [E|E]; [subst g; rewrite L; rewrite ?N.eqb_refl; reflexivity|].
  destruct (flook g fs); reflexivity.
Qed.

(** The content at the LSN of a begin record is that before it. *)
Lemma C_begin pre J last fs0 rest log nm : irun ist_init pre = Some J -> IWf J -> i_ck J <= last -> Forall (fun r => r <= last) (i_used J) ->
  log = pre ++ ck_recs last fs0 (i_txns J) ++ rest -> C log (S (length pre)) nm = i_cont J nm.
Proof.
  intros H W Hc Hu ->. unfold ck_recs. cbn [app]. 
  change (pre ++ LBeginCk last :: ?x) with (pre ++ [LBeginCk last] ++ x). rewrite app_assoc. rewrite C_app by (rewrite app_length; cbn; lia).
  erewrite C_all; [|rewrite irun_snoc, H; cbn [istep]|rewrite app_length; cbn; lia].
  2:{ apply N.leb_le in Hc. rewrite Hc. rewrite (proj2 (forallb_forall _ _)); [reflexivity|]. rewrite Forall_forall in Hu. intros x Hx. apply N.leb_le. auto. }
  reflexivity.
Qed.

Lemma step_ckbegin ph s I s' : Inv ph s I -> step s SCkBegin = Some s' -> exists I', Inv ph s' I'.
Proof.
  intros (Co & Rb & Pr & Cp) E. cbn [step] in E. destruct (y_ck s) as [k|] eqn:Ek; [discriminate|]. injection E as <-.
  pose proof (Core_wf _ _ Co) as W. assert (Co0 := Co). destruct Co0 as [K1 K2 K3 K4 K5 K6 K7 K8 K9 K10 K11].
  assert (Bg : Begun I (y_last s) (y_files s) []) by (split; auto).
  assert (Run : irun I (ck_recs (y_last s) (y_files s) (i_txns I)) = Some (set_ck I (y_last s))) by (apply (ck_irun I (y_last s) (y_files s) []); auto).
  exists (set_ck I (y_last s)).
  assert (Td : todo s = []) by (unfold todo; now rewrite Ek).
  assert (St : forall nm, (forall fn f, flook fn (y_files s) = Some f -> of_name f = nm -> ~ In fn (map fst (dirty_msgs (y_files s)))) -> settled s nm).
  { intros nm H fn f L En. rewrite Td. split; [|intros []]. destruct (of_dirty f) eqn:D; [|auto]. exfalso. apply (H fn f L En).
    change fn with (fst (fn, of_msgs f)). apply in_map, dirty_In; [apply K8|eauto]. }
  split; [|split; [|split]].
  - split; cbn [y_log y_txns y_locks y_clast y_last y_idle y_files y_flushed y_disk y_rb y_ck y_rbdirty set_ck i_open i_txns i_cont i_locks i_used i_clast i_ck]; auto.
    + rewrite irun_app, K1, K2. exact Run.
    + lia.
    + destruct K8 as [Nd Fm]. split; [now rewrite clean_fst|]. intros fn. rewrite flook_clean, Fm. destruct (flook fn (y_files s)); reflexivity.
    + intros fn f L. rewrite flook_clean in L. destruct (flook fn (y_files s)) as [f0|] eqn:L0; [|discriminate]. injection L as <-. cbn. exact (K9 _ _ L0).
    + rewrite app_length. lia.
    + intros nm. destruct (K11 nm) as (v & m & A & B & D). exists v, m. split; [auto|]. split; [auto|]. intros Hs. apply D, St. intros fn f L En.
      apply (Hs fn (mkOf (of_name f) (of_msgs f) (of_lsn f) false)); [|exact En]. cbn [y_files]. now rewrite flook_clean, L.
  - intros _. cbn [y_ck y_txns y_rb]. destruct (y_rbdirty s) eqn:Rd; [reflexivity|]. specialize (Rb Rd). rewrite Ek in Rb. exact Rb.
  - cbn [y_ck]. exists (y_log s), I, (y_last s), (y_files s), []. rewrite K2. split; cbn [y_log y_files y_disk y_rb k_lsn k_pin k_todo k_rb k_nf k_nx]; auto.
    + now rewrite app_nil_r.
    + unfold dirty_msgs. rewrite map_map. cbn. apply NoDup_map_filter. apply K8.
    + intros fn m H. apply dirty_In in H; [|apply K8]. destruct H as (f & L & D & ->). split.
      * change fn with (fst (fn, f)). apply in_map. now apply flook_In.
      * eexists. rewrite flook_clean, L. split; [reflexivity|]. cbn. split; [exact (K9 _ _ L)|intros _; exact (K9 _ _ L)].
    + intros nm v m Hn Hq. destruct (K11 nm) as (v' & m' & A & B & D). rewrite Hn in A. injection A as <- <-.
      rewrite Nat.max_r by lia. rewrite C_app by lia. rewrite (C_all _ _ _ _ K1) by lia. apply D, St. intros fn f L En.
      apply (Hq fn (mkOf (of_name f) (of_msgs f) (of_lsn f) false)); [|exact En]. now rewrite flook_clean, L.
    + destruct (y_rbdirty s) eqn:Rd; [reflexivity|]. destruct ph; [specialize (Pr eq_refl); congruence|].
      destruct (Cp eq_refl) as (pre & J & last & fs0 & mid & post & P). pose proof (b_hd _ _ _ _ _ _ _ P) as H. rewrite Ek in H. destruct H as (v & rest & Hr & Hv); [auto|].
      specialize (Rb Rd). rewrite Ek in Rb. destruct Rb as (v' & rest' & Rb). rewrite Hr in Rb. injection Rb as <- Rb <-. exists v, rest.
      rewrite Hr, Rb, K2. split; [auto|]. pose proof (b_end _ _ _ _ _ _ _ P). lia.
  - intros Hp. destruct (Cp Hp) as (pre & J & last & fs0 & mid & post & P). exists pre, J, last, fs0, mid, (post ++ ck_recs (y_last s) (y_files s) (y_txns s)).
    pose proof (b_end _ _ _ _ _ _ _ P) as Be.
    split; cbn [y_log y_files y_disk y_rb y_ck y_flushed k_lsn k_pin k_todo k_rb k_nf k_nx].
    + rewrite (b_log _ _ _ _ _ _ _ P) at 1. rewrite <- !app_assoc. cbn [app]. reflexivity.
    + apply (b_pre _ _ _ _ _ _ _ P).
    + apply (b_begun _ _ _ _ _ _ _ P).
    + rewrite Forall_app. split; [apply (b_post _ _ _ _ _ _ _ P)|apply ck_recs_post].
    + exact Be.
    + intros nm v m Hn. destruct (K11 nm) as (v' & m' & A & B & D). rewrite Hn in A. injection A as <- <-. rewrite C_app by lia. apply (b_disk _ _ _ _ _ _ _ P); auto.
    + apply (b_rb _ _ _ _ _ _ _ P).
    + intros _. pose proof (b_hd _ _ _ _ _ _ _ P) as H. rewrite Ek in H. auto.
    + lia.
Qed.

Lemma step_ckfile ph s I s' fn : Inv ph s I -> step s (SCkFile fn) = Some s' -> Inv ph s' I.
Proof.
  intros (Co & Rb & Pr & Cp) E. cbn [step] in E. destruct (y_ck s) as [k|] eqn:Ek; [|discriminate].
  destruct (find (fun p => fst p =? fn) (k_todo k)) as [[g snap]|] eqn:Fd; [|discriminate]. apply find_some in Fd. destruct Fd as [Fd Eg]. cbn in Eg. apply N.eqb_eq in Eg. subst g.
  destruct (flook fn (y_files s)) as [f|] eqn:L; [|discriminate]. injection E as <-. cbn [snd].
  pose proof (Core_wf _ _ Co) as W. assert (Co0 := Co). destruct Co0 as [K1 K2 K3 K4 K5 K6 K7 K8 K9 K10 K11].
  destruct Pr as (pre & J & last & fs0 & mid & P). assert (P0 := P). destruct P0 as [P1 P2 P3 P4 P5 P6 P7 P8 P9 P10].
  destruct (P8 fn snap Fd) as (Hpin & f' & L' & Es & Hcl). rewrite L in L'. injection L' as <-.
  assert (WJ : IWf J) by (eapply irun_wf; [apply IWf_init|exact P2]).
  assert (Hl : (k_lsn k <= length (y_log s))%nat) by (rewrite P4, P1, app_length, app_length; unfold ck_recs; cbn; lia).
  assert (Cb : forall nm, C (y_log s) (S (length pre)) nm = i_cont J nm) by (intros nm; eapply C_begin; eauto; apply P3).
  set (f1 := mkOf (of_name f) (of_msgs f) (k_lsn k) (of_dirty f)).
  assert (Lk : forall g h, flook g (fset fn f1 (y_files s)) = Some h -> (g = fn /\ h = f1) \/ (g <> fn /\ flook g (y_files s) = Some h)).
  { intros g h H. rewrite (flook_fset2 _ _ _ _ _ L) in H. destruct (N.eqb_spec g fn) as [Eg|Eg]; [|auto]. injection H as <-. auto. }
  assert (Lk2 : forall g h, flook g (y_files s) = Some h -> exists h', flook g (fset fn f1 (y_files s)) = Some h' /\ of_name h' = of_name h /\ of_dirty h' = of_dirty h).
  { intros g h H. rewrite (flook_fset2 _ _ _ _ _ L). destruct (N.eqb_spec g fn) as [Eg|Eg]; [|eauto]. subst g. rewrite L in H. injection H as <-. exists f1. auto. }
  assert (Nx : forall g h, flook g (y_files s) = Some h -> of_name h = of_name f -> g = fn).
  { intros g h H En. apply (nlook_inj g fn (of_name f) (i_open I)); [apply (iw_names _ W)|rewrite (proj2 K8), H; cbn; now rewrite En|rewrite (proj2 K8), L; reflexivity]. }
  assert (Tf : forall g, In g (map fst (filter (fun p => negb (fst p =? fn)) (k_todo k))) <-> In g (map fst (k_todo k)) /\ g <> fn).
  { intros g. rewrite !in_map_iff. split.
    - intros ([a b] & <- & H). apply filter_In in H. destruct H as [H1 H2]. cbn in *. split; [exists (a, b); auto|]. intros ->. rewrite N.eqb_refl in H2. discriminate.
    - intros ([[a b] [Ea H]] & Hne). cbn in Ea. subst a. exists (g, b). split; [auto|]. apply filter_In. split; [auto|]. cbn. apply N.eqb_neq in Hne. now rewrite Hne. }
  assert (Td : todo s = k_todo k) by (unfold todo; now rewrite Ek).
  assert (Dn : forall nm v m, newest (upd2 (y_disk s) (of_name f) ((k_lsn k, snap) :: y_disk s (of_name f))) nm = Some (v, m) ->
      (nm = of_name f /\ v = k_lsn k /\ m = snap) \/ (nm <> of_name f /\ newest (y_disk s) nm = Some (v, m))).
  { intros nm v m H. unfold newest, upd2 in *. destruct (N.eqb_spec nm (of_name f)) as [En|En]; [|auto]. cbn in H. injection H as <- <-. auto. }
  split; [|split; [|split]].
  - split; cbn [y_log y_txns y_locks y_clast y_last y_idle y_files y_flushed y_disk y_rb y_ck y_rbdirty]; auto.
    + eapply Fmatch_keep; [exact K8|apply fset_fst|]. intros g. rewrite (flook_fset2 _ _ _ _ _ L). destruct (N.eqb_spec g fn) as [Eg|Eg]; [|auto]. subst g. rewrite L. reflexivity.
    + intros g h H. destruct (Lk _ _ H) as [[-> ->]|[_ H']]; [exact (K9 _ _ L)|exact (K9 _ _ H')].
    + lia.
    + intros nm. destruct (newest (upd2 _ _ _) nm) as [[v m]|] eqn:Nw.
      * exists v, m. split; [auto|]. destruct (Dn _ _ _ Nw) as [(-> & -> & ->)|[Hne Hn]].
        -- split; [lia|]. intros Hs. apply Hcl. destruct (Lk2 _ _ L) as (h & H1 & H2 & H3). rewrite <- H3. apply (Hs fn h); auto.
        -- destruct (K11 nm) as (v' & m' & A & B & D). rewrite Hn in A. injection A as <- <-. split; [lia|]. intros Hs. apply D. intros g h Hg Eh.
           destruct (Lk2 _ _ Hg) as (h' & H1 & H2 & H3). destruct (Hs g h' H1) as [S1 S2]; [congruence|]. split; [congruence|]. rewrite Td. cbn [todo y_ck k_todo] in S2. intros X.
           apply S2. apply Tf. split; [auto|]. intros ->. rewrite L in Hg. injection Hg as <-. congruence.
      * exfalso. destruct (K11 nm) as (v' & m' & A & _). unfold newest, upd2 in *. destruct (nm =? of_name f); [discriminate|congruence].
  - unfold Rbd in *. cbn [y_rbdirty y_ck y_txns y_rb]. rewrite Ek in Rb. destruct k; exact Rb.
  - cbn [y_ck]. exists pre, J, last, fs0, mid. split; cbn [y_log y_files y_disk y_rb k_lsn k_pin k_todo k_rb k_nf k_nx]; auto.
    + now apply NoDup_map_filter.
    + intros g m H. apply filter_In in H. destruct H as [H1 H2]. cbn in H2. destruct (P8 g m H1) as (A1 & h & A2 & A3 & A4). split; [auto|].
      destruct (Lk2 _ _ A2) as (h' & B1 & B2 & B3). exists h'. rewrite B2, B3. auto.
    + intros nm v m Hn Hq. destruct (Dn _ _ _ Hn) as [(-> & -> & ->)|[Hne Hn']].
      * rewrite P4, Nat.max_l by lia. rewrite Cb. exact Es.
      * apply P9; auto. intros g h Hg Eh Hi. destruct (Lk2 _ _ Hg) as (h' & B1 & B2 & B3). apply (Hq g h' B1); [congruence|]. apply Tf. split; [auto|].
        intros ->. rewrite L in Hg. injection Hg as <-. congruence.
  - intros Hp. destruct (Cp Hp) as (bpre & bJ & blast & bfs & bmid & bpost & B). exists bpre, bJ, blast, bfs, bmid, bpost. destruct B as [B1 B2 B3 B4 B5 B6 B7 B8 B9].
    rewrite Ek in *. split; cbn [y_log y_files y_disk y_rb y_ck y_flushed k_lsn k_pin k_todo k_rb k_nf k_nx]; auto; [lia|].
    intros nm v m Hn. destruct (Dn _ _ _ Hn) as [(-> & -> & ->)|[Hne Hn']]; [|auto]. rewrite Nat.max_l by lia. rewrite P4, Cb. exact Es.
Qed.

Lemma step_ckrb ph s I s' : Inv ph s I -> step s SCkRb = Some s' -> Inv ph s' I.
Proof.
  intros (Co & Rb & Pr & Cp) E. cbn [step] in E. destruct (y_ck s) as [k|] eqn:Ek; [|discriminate].
  destruct (k_rb k) as [m|] eqn:Em; [|discriminate]. injection E as <-.
  assert (Co0 := Co). destruct Co0 as [K1 K2 K3 K4 K5 K6 K7 K8 K9 K10 K11].
  destruct Pr as (pre & J & last & fs0 & mid & P). destruct P as [P1 P2 P3 P4 P5 P6 P7 P8 P9 P10]. rewrite Em in P10.
  assert (Hl : (k_lsn k <= length (y_log s))%nat) by (rewrite P4, P1, app_length, app_length; unfold ck_recs; cbn; lia).
  assert (Td : todo s = k_todo k) by (unfold todo; now rewrite Ek).
  split; [|split; [|split]].
  - split; cbn [y_log y_txns y_locks y_clast y_last y_idle y_files y_flushed y_disk y_rb y_ck y_rbdirty]; auto; [lia|].
    intros nm. destruct (K11 nm) as (v & m' & A & B & D). exists v, m'. split; [auto|]. split; [lia|]. intros Hs. apply D. unfold settled in *. rewrite Td. exact Hs.
  - unfold Rbd in *. cbn [y_rbdirty y_ck y_txns y_rb]. rewrite Ek in Rb. intros Hd. specialize (Rb Hd). destruct k as [? ? ? krb ? ?]; cbn in Em; subst krb. cbn in Rb |- *. rewrite <- Rb. eauto.
  - cbn [y_ck]. exists pre, J, last, fs0, mid. split; cbn [y_log y_files y_disk y_rb k_lsn k_pin k_todo k_rb k_nf k_nx]; auto.
    subst m. rewrite P4. cbn [firstn]. eauto.
  - intros Hp. destruct (Cp Hp) as (bpre & bJ & blast & bfs & bmid & bpost & B). exists bpre, bJ, blast, bfs, bmid, bpost. destruct B as [B1 B2 B3 B4 B5 B6 B7 B8 B9].
    rewrite Ek in *. split; cbn [y_log y_files y_disk y_rb y_ck y_flushed k_lsn k_pin k_todo k_rb k_nf k_nx]; auto; [lia| |intros X; contradiction].
    destruct B8 as (v & rest & Hr & Hv); [congruence|]. rewrite Hr. exists v. cbn [firstn find fst].
    destruct (Nat.leb_spec (k_lsn k) (S (length bpre))) as [X|X].
    + exfalso. unfold ck_recs in B9. cbn in B9. lia.
    + apply Nat.leb_le in Hv. now rewrite Hv.
Qed.

Lemma step_ckend ph s I s' : Inv ph s I -> step s SCkEnd = Some s' -> Inv false s' I.
Proof.
  intros (Co & Rb & Pr & Cp) E. cbn [step] in E. destruct (y_ck s) as [k|] eqn:Ek; [|discriminate].
  destruct (k_todo k) eqn:Et; [|discriminate]. cbn [is_nil] in E. destruct (k_rb k) as [m|] eqn:Em; [discriminate|]. cbn [is_some negb] in E. injection E as <-.
  assert (Co0 := Co). destruct Co0 as [K1 K2 K3 K4 K5 K6 K7 K8 K9 K10 K11].
  destruct Pr as (pre & J & last & fs0 & mid & P). destruct P as [P1 P2 P3 P4 P5 P6 P7 P8 P9 P10]. rewrite Em in P10. rewrite Et in *.
  assert (Td : todo s = []) by (unfold todo; now rewrite Ek).
  assert (Ln : forall x : lrec, length (y_log s ++ [x]) = S (length (y_log s))) by (intros x; rewrite app_length; cbn; lia).
  split; [|split; [|split]].
  - split; cbn [y_log y_txns y_locks y_clast y_last y_idle y_files y_flushed y_disk y_rb y_ck y_rbdirty]; auto.
    + rewrite irun_snoc, K1. reflexivity.
    + intros nm. destruct (K11 nm) as (v & m' & A & B & D). exists v, m'. split; [auto|]. split; [rewrite Ln; lia|]. intros Hs. apply D. unfold settled in *. rewrite Td. exact Hs.
  - unfold Rbd in *. cbn [y_rbdirty y_ck y_txns y_rb]. rewrite Ek in Rb. intros Hd. specialize (Rb Hd). destruct k; cbn in Em; subst. exact Rb.
  - cbn [y_ck]. discriminate.
  - intros _. exists pre, J, last, fs0, mid, []. destruct P10 as (v & rest & Hr & Hv).
    split; cbn [y_log y_files y_disk y_rb y_ck y_flushed]; auto.
    + rewrite P1, P4, P5, P6, <- !app_assoc. reflexivity.
    + rewrite Ln, P1, !app_length. lia.
    + intros nm v' m Hn. destruct (K11 nm) as (v2 & m2 & A & B & D). rewrite Hn in A. injection A as <- <-.
      rewrite C_app; [apply P9; auto|]. assert (length pre <= length (y_log s))%nat by (rewrite P1, app_length; lia). lia.
    + rewrite Hr. exists v. cbn [find fst]. apply Nat.leb_le in Hv. now rewrite Hv.
    + intros _. eauto.
Qed.

Definition ck_op (o : sop) : bool := match o with SCkBegin | SCkFile _ | SCkRb | SCkEnd | SFlush _ => true | _ => false end.
Definition is_ckend (o : sop) : bool := match o with SCkEnd => true | _ => false end.

Theorem step_inv ph s I o s' : Inv ph s I -> (ph = true -> ck_op o = true) -> step s o = Some s' ->
  exists I', Inv (ph && negb (is_ckend o)) s' I'.
Proof.
  intros Hi Ho E. assert (F : is_ckend o = false -> (ph && negb (is_ckend o)) = ph) by (intros ->; apply andb_true_r).
  assert (N : ck_op o = false -> ph = false) by (intros X; destruct ph; [rewrite Ho in X by auto; discriminate|auto]).
  destruct o; try (rewrite F by reflexivity).
  - eapply step_open; eauto.
  - eapply step_close; eauto.
  - exists I. eapply step_start; eauto.
  - exists I. eapply step_drop; eauto.
  - eapply step_begin; eauto.
  - exists I. eapply step_burn; eauto.
  - eapply step_child; eauto.
  - eapply step_write; eauto.
  - eapply step_commit; eauto.
  - eapply step_abort; eauto.
  - eapply step_prepare; eauto.
  - eapply step_ckbegin; eauto.
  - exists I. eapply step_ckfile; eauto.
  - exists I. eapply step_ckrb; eauto.
  - exists I. cbn [is_ckend negb]. rewrite andb_false_r. eapply step_ckend; eauto.
  - exists I. eapply step_flush; eauto.
Qed.
