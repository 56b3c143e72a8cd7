(** Every step of the running system keeps the invariant of RecRun.v. *)
From Coq Require Import Sorted.
From Verif Require Import Base UleModel MgrModel MvccModel RecModel RecSpec RecIdeal RecFiles RecSim RecBlock RecReplay RecRun.
Open Scope N_scope.

(** * The rollback file *)
Definition lv (t : ptxn) : rbmap := filter (fun p => negb (is_nil (snd p))) (level_ids t).
Lemma rb_of_lv ts : rb_of ts = flat_map lv ts.
Proof. unfold rb_of. induction ts as [|t ts IH]; cbn; [reflexivity|]. rewrite filter_app, IH. reflexivity. Qed.
Lemma rb_ins t ts : lv t = [] -> rb_of (ins_pt t ts) = rb_of ts.
Proof.
  intros H. rewrite !rb_of_lv. induction ts as [|u ts IH]; cbn; [now rewrite H|]. destruct (_ <? _); cbn; [now rewrite H|now rewrite IH].
Qed.
Lemma rb_set t ts : (forall u, In u ts -> pt_root u = pt_root t -> lv u = lv t) -> rb_of (set_pt t ts) = rb_of ts.
Proof.
  rewrite !rb_of_lv. unfold set_pt. induction ts as [|u ts IH]; cbn; intros H; [reflexivity|].
  rewrite IH by (intros v Hv; apply H; auto). f_equal. destruct (N.eqb_spec (pt_root u) (pt_root t)) as [E|E]; [|reflexivity]. symmetry. apply H; auto.
Qed.
Lemma rb_del r ts : (forall u, In u ts -> pt_root u = r -> lv u = []) -> rb_of (del_pt r ts) = rb_of ts.
Proof.
  rewrite !rb_of_lv. unfold del_pt. induction ts as [|u ts IH]; cbn; intros H; [reflexivity|].
  destruct (N.eqb_spec (pt_root u) r) as [E|E]; cbn; rewrite IH by (intros v Hv; apply H; auto); [|reflexivity].
  rewrite (H u) by auto. reflexivity.
Qed.
Lemma sorted_uniq ts t u : StronglySorted N.lt (map pt_root ts) -> In u ts -> find_pt (pt_root u) ts = Some t -> u = t.
Proof. intros Hs Hu Hf. rewrite (sorted_find _ _ Hs Hu) in Hf. congruence. Qed.

Lemma Rbd_same s s' : Rbd s -> y_rb s' = y_rb s -> y_ck s' = y_ck s ->
  (y_rbdirty s' = false -> y_rbdirty s = false /\ rb_of (y_txns s') = rb_of (y_txns s)) -> Rbd s'.
Proof. intros H E1 E2 E3 H'. destruct (E3 H') as [E4 E5]. rewrite E1, E2, E5. exact (H E4). Qed.

(** * Messages to open dictionaries *)
Lemma sent_file ms fs fs' fn f' : sent None ms fs fs' -> flook fn fs' = Some f' ->
  exists f, flook fn fs = Some f /\ of_name f' = of_name f /\ of_msgs f' = of_msgs f ++ for_fn fn ms
    /\ (of_dirty f' = false -> of_dirty f = false /\ for_fn fn ms = []).
Proof.
  intros [H1 H2] L. rewrite H2 in L. destruct (flook fn fs) as [f|]; [|discriminate]. cbn in L. injection L as <-. exists f.
  split; [auto|]. split; [apply addm_name|]. split; [apply addm_msgs|]. intros Hc. apply addm_clean in Hc as [Hc1 Hc2]. split; [auto|].
  assert (E : of_msgs (addm None f (for_fn fn ms)) = of_msgs f ++ for_fn fn ms) by apply addm_msgs. rewrite Hc1 in E.
  rewrite <- (app_nil_r (of_msgs f)) in E at 1. apply app_inv_head in E. auto.
Qed.

Lemma sent_settled s I ms fs' nm : Core s I -> sent None ms (y_files s) fs' ->
  (forall fn f, flook fn fs' = Some f -> of_name f = nm -> of_dirty f = false /\ ~ In fn (map fst (todo s))) ->
  settled s nm /\ mine (i_open I) nm ms = [].
Proof.
  intros Co Se H. pose proof (Core_wf _ _ Co) as W. split.
  - intros fn f L E. destruct Se as [S1 S2]. specialize (S2 fn). rewrite L in S2. cbn in S2. destruct (H _ _ S2) as [A B].
    + now rewrite addm_name.
    + apply addm_clean in A. tauto.
  - destruct (find (fun p => snd p =? nm) (i_open I)) as [[fn n]|] eqn:F.
    + apply find_some in F. destruct F as [F1 F2]. cbn in F2. apply N.eqb_eq in F2. subst n. apply nlook_intro in F1; [|apply (iw_fns _ W)].
      rewrite (mine_fn _ fn nm ms (iw_names _ W) F1). pose proof (proj2 (c_fm _ _ Co) fn) as E. rewrite F1 in E.
      destruct (flook fn (y_files s)) as [f|] eqn:L; [|discriminate]. cbn in E. injection E as E. pose proof (proj2 Se fn) as E2. rewrite L in E2.
      destruct (sent_file _ _ _ _ _ Se E2) as (f2 & L2 & E3 & _ & Hd). rewrite L in L2. injection L2 as <-. apply Hd.
      apply (H fn); auto. rewrite E3. symmetry. exact E.
    + apply mine_closed. intros fn Hn. apply nlook_In in Hn. apply (find_none _ _ F) in Hn. cbn in Hn. rewrite N.eqb_refl in Hn. discriminate.
Qed.

Lemma Inv_sent ph s I s' x I' ms : Inv ph s I -> istep I x = Some I' -> is_ck x = false -> is_recovered x = false ->
  y_log s' = y_log s ++ [x] -> y_rb s' = y_rb s -> y_ck s' = y_ck s -> y_flushed s' = y_flushed s -> y_disk s' = y_disk s ->
  (ph = true -> y_rbdirty s' = y_rbdirty s) -> 
  (y_rbdirty s' = false -> y_rbdirty s = false /\ rb_of (y_txns s') = rb_of (y_txns s)) ->
  sent None ms (y_files s) (y_files s') -> i_open I' = i_open I ->
  (forall nm, i_cont I' nm = i_cont I nm ++ mine (i_open I) nm ms) ->
  y_txns s' = i_txns I' -> (forall n k, y_locks s' n k = i_locks I' n k) ->
  Forall (fun t => pt_prep t = false -> i_clast I' (pt_root t) <= y_clast s' (pt_root t)) (i_txns I') ->
  Forall (fun r => r <= y_last s') (i_used I') -> i_ck I' <= y_last s' ->
  Forall (fun r => 0 < r /\ r < TXNID_MAX /\ r <= y_last s' /\ ~ In r (i_used I')) (y_idle s') ->
  Inv ph s' I'.
Proof.
  intros Hi Ex X1 X2 El Er Ek Ef Ed Hd1 Hd2 Se Eo Ec Et Elk Hcl Hu Hck Hid.
  pose proof (proj1 Hi) as Co. pose proof (Core_wf _ _ Co) as W.
  assert (Etd : todo s' = todo s) by (unfold todo; now rewrite Ek).
  eapply Inv_grow; eauto.
  - lia.
  - split; auto.
    + rewrite El, irun_snoc, (c_run _ _ Co). exact Ex.
    + rewrite Eo. eapply sent_Fmatch; [apply (c_fm _ _ Co)|exact Se].
    + intros fn f' L. destruct (sent_file _ _ _ _ _ Se L) as (f & L' & En & Em & _). rewrite Em, Ec, En, (c_fc _ _ Co _ _ L').
      f_equal. symmetry. apply mine_fn; [apply (iw_names _ W)|]. rewrite (proj2 (c_fm _ _ Co)), L'. reflexivity.
    + rewrite Ef, El, app_length. pose proof (c_fl _ _ Co). lia.
    + intros nm. destruct (c_disk _ _ Co nm) as (v & m & H1 & H2 & H3). exists v, m. rewrite Ed, Ef. split; [auto|]. split; [auto|].
      intros Hs. unfold settled in Hs. rewrite Etd in Hs. destruct (sent_settled s I ms (y_files s') nm Co Se Hs) as [A B].
      rewrite Ec, B, app_nil_r. auto.
  - eapply Rbd_same; eauto. apply (proj1 (proj2 Hi)).
  - intros nm v m H. left. congruence.
  - intros fn f _ L. pose proof (proj2 Se fn) as L'. rewrite L in L'. eexists. split; [exact L'|]. destruct (sent_file _ _ _ _ _ Se L') as (f2 & L2 & E3 & _ & Hd).
    rewrite L in L2. injection L2 as <-. split; [exact E3|]. intros Hc. destruct (Hd Hc) as [A B]. split; [auto|]. rewrite Ec.
    rewrite (mine_fn _ fn) by (try apply (iw_names _ W); rewrite (proj2 (c_fm _ _ Co)), L; reflexivity). rewrite B. apply app_nil_r.
Qed.

Lemma is_some_false {A} (o : option A) : is_some o = false -> o = None.
Proof. destruct o; [discriminate|auto]. Qed.

Lemma filter_idle (P : txnid -> Prop) r l : Forall P l -> Forall P (filter (fun x => negb (x =? r)) l).
Proof. rewrite !Forall_forall. intros H x Hx. apply filter_In in Hx. apply H. tauto. Qed.

Lemma set_clast (P : ptxn -> Prop) t ts : Forall P ts -> P t -> Forall P (set_pt t ts).
Proof. apply set_pt_Forall. Qed.

Lemma lv_nil r l b : rl_ents l = [] -> lv (mkPt r [l] b) = [].
Proof. intros E. unfold lv, level_ids. cbn. now rewrite E. Qed.

Lemma has_ents_nil t : has_ents t = false -> match pt_levels t with [] => True | l :: _ => rl_ents l = [] end.
Proof. unfold has_ents. destruct (pt_levels t) as [|l ls]; [auto|]. destruct (rl_ents l); [auto|discriminate]. Qed.

(** * Steps *)

Lemma step_start ph s I s' : Inv ph s I -> step s SStart = Some s' -> Inv ph s' I.
Proof.
  intros Hi E. cbn [step] in E. destruct (N.ltb_spec (y_last s + 1) TXNID_MAX) as [L|]; [|discriminate]. injection E as <-.
  pose proof (proj1 Hi) as Co. eapply Inv_quiet; eauto. destruct Co as [K1 K2 K3 K4 K5 K6 K7 K8 K9 K10 K11].
  split; cbn [y_log y_txns y_locks y_clast y_last y_idle y_files y_flushed y_disk]; auto.
  - eapply Forall_impl; [|exact K5]. cbv beta. intros; lia.
  - lia.
  - constructor.
    + split; [lia|]. split; [auto|]. split; [lia|]. intros X. rewrite Forall_forall in K5. apply K5 in X. lia.
    + eapply Forall_impl; [|exact K7]. cbv beta. intros a (A1 & A2 & A3 & A4). split; [auto|]. split; [auto|]. split; [lia|auto].
Qed.
Lemma step_drop ph s I s' r : Inv ph s I -> step s (SDrop r) = Some s' -> Inv ph s' I.
Proof.
  intros Hi E. cbn [step] in E. destruct (memb r (y_idle s)); [|discriminate]. injection E as <-.
  pose proof (proj1 Hi) as Co. eapply Inv_quiet; eauto. destruct Co as [K1 K2 K3 K4 K5 K6 K7 K8 K9 K10 K11].
  split; cbn [y_log y_txns y_locks y_clast y_last y_idle y_files y_flushed y_disk]; auto. now apply filter_idle.
Qed.
Lemma next_cid_gt r c : c < next_cid r c /\ next_cid r c <> r.
Proof. unfold next_cid. destruct (N.eqb_spec (c + 1) r); lia. Qed.
Lemma step_burn ph s I s' r : Inv ph s I -> step s (SBurn r) = Some s' -> Inv ph s' I.
Proof.
  intros Hi E. cbn [step] in E. destruct (find_pt r (y_txns s)); [|discriminate]. injection E as <-.
  pose proof (proj1 Hi) as Co. eapply Inv_quiet; eauto. destruct Co as [K1 K2 K3 K4 K5 K6 K7 K8 K9 K10 K11].
  split; cbn [y_log y_txns y_locks y_clast y_last y_idle y_files y_flushed y_disk]; auto.
  eapply Forall_impl; [|exact K4]. cbv beta. intros t Ht Hp. specialize (Ht Hp). unfold upd2.
  destruct (N.eqb_spec (pt_root t) r) as [E|E]; [|auto]. rewrite E in *. pose proof (next_cid_gt r (y_clast s r)). lia.
Qed.
Lemma step_flush ph s I s' n : Inv ph s I -> step s (SFlush n) = Some s' -> Inv ph s' I.
Proof.
  intros Hi E. cbn [step] in E. injection E as <-.
  pose proof (proj1 Hi) as Co. eapply Inv_quiet; eauto; [|cbn; lia]. destruct Co as [K1 K2 K3 K4 K5 K6 K7 K8 K9 K10 K11].
  split; cbn [y_log y_txns y_locks y_clast y_last y_idle y_files y_flushed y_disk]; auto; [lia|].
  intros nm. destruct (K11 nm) as (v & m & A & B & D). exists v, m. split; [auto|]. split; [lia|auto].
Qed.

Lemma step_begin ph s I s' r : Inv ph s I -> step s (SBegin r) = Some s' -> exists I', Inv ph s' I'.
Proof.
  intros Hi E. cbn [step] in E. destruct (memb r (y_idle s)) eqn:M; [|discriminate]. injection E as <-. apply memb_In in M.
  pose proof (proj1 Hi) as Co. assert (Co0 := Co). destruct Co0 as [K1 K2 K3 K4 K5 K6 K7 K8 K9 K10 K11].
  rewrite Forall_forall in K7. destruct (K7 r M) as (R1 & R2 & R3 & R4).
  eassert (Es : istep I (LBegin r TXNID_NONE None) = Some _).
  { cbn [istep]. rewrite N.eqb_refl. apply memb_false in R4. rewrite R4. cbn [negb]. apply N.ltb_lt in R1. rewrite R1. apply N.ltb_lt in R2. rewrite R2. reflexivity. }
  eexists. eapply (Inv_sent ph s I _ (LBegin r TXNID_NONE None) _ []); [exact Hi|exact Es|..];
    cbn [y_log y_txns y_locks y_clast y_last y_idle y_files y_flushed y_disk y_rb y_ck y_rbdirty]; auto.
  - intros Hd. split; [auto|]. apply rb_ins. now apply lv_nil.
  - apply sent_nil.
  - intros nm. cbn [i_cont]. symmetry. apply app_nil_r.
  - cbn. now rewrite K2.
  - cbn [i_txns i_clast]. apply ins_pt_Forall; [|exact K4]. cbn. intros _. rewrite (Core_cl0 _ _ Co) by auto. lia.
  - cbn [i_used]. constructor; auto.
  - cbn [i_used]. apply Forall_forall. intros x Hx. apply filter_In in Hx. destruct Hx as [Hx1 Hx2]. destruct (K7 x Hx1) as (A & B & D & F).
    split; [auto|]. split; [auto|]. split; [auto|]. intros [->|X]; [|auto]. rewrite N.eqb_refl in Hx2. discriminate.
Qed.

Lemma step_child ph s I s' r : Inv ph s I -> step s (SChild r) = Some s' -> exists I', Inv ph s' I'.
Proof.
  intros Hi E. cbn [step] in E. destruct (find_pt r (y_txns s)) as [t|] eqn:F; [|discriminate].
  destruct (pt_prep t) eqn:Ep; [discriminate|]. cbn [negb] in E. set (c := next_cid r (y_clast s r)) in *.
  destruct (length (pt_levels t) <? MAX_NESTED_TRANSACTIONS)%nat eqn:G2; [|discriminate]. destruct (c + 2 <? 2 ^ 64) eqn:G3; [|discriminate]. injection E as <-.
  pose proof (proj1 Hi) as Co. pose proof (Core_wf _ _ Co) as W. assert (Co0 := Co). destruct Co0 as [K1 K2 K3 K4 K5 K6 K7 K8 K9 K10 K11]. rewrite K2 in F.
  apply find_pt_some in F as F'. destruct F' as [Ht Er]. destruct (next_cid_gt r (y_clast s r)) as [C1 C2]. fold c in C1, C2.
  assert (Hcl : i_clast I r < c). { rewrite Forall_forall in K4. specialize (K4 t Ht Ep). rewrite Er in K4. lia. }
  eassert (Es : istep I (LBegin r c (Some (pt_child t))) = Some _).
  { cbn [istep]. rewrite <- Er at 1. rewrite (find_inner_intro (pt_root t)) by (rewrite Er; exact F). rewrite Ep. cbn [negb].
    apply N.ltb_lt in Hcl. rewrite Hcl. destruct (N.eqb_spec c r); [contradiction|]. cbn [negb]. rewrite G2, G3. reflexivity. }
  eexists. eapply (Inv_sent ph s I _ (LBegin r c (Some (pt_child t))) _ []); [exact Hi|exact Es|..];
    cbn [y_log y_txns y_locks y_clast y_last y_idle y_files y_flushed y_disk y_rb y_ck y_rbdirty]; auto.
  - intros Hd. split; [auto|]. rewrite K2. apply rb_set. cbn [pt_root]. intros u Hu Eu.
    assert (u = t) as -> by (eapply sorted_uniq; [apply (iw_sorted _ W)|auto|rewrite Eu; exact F]). unfold lv, level_ids. cbn. now rewrite Eu.
  - apply sent_nil.
  - intros nm. cbn [i_cont]. symmetry. apply app_nil_r.
  - cbn. now rewrite K2.
  - cbn [i_txns i_clast]. apply set_pt_Forall.
    + eapply Forall_impl; [|exact K4]. cbv beta. intros u Hu Hp. specialize (Hu Hp). unfold upd2. destruct (pt_root u =? r); [lia|auto].
    + cbn. intros _. unfold upd2. rewrite N.eqb_refl. lia.
Qed.

Lemma step_prepare ph s I s' r : Inv ph s I -> step s (SPrepare r) = Some s' -> exists I', Inv ph s' I'.
Proof.
  intros Hi E. cbn [step] in E. destruct (find_pt r (y_txns s)) as [t|] eqn:F; [|discriminate].
  destruct (N.eqb_spec (pt_child t) TXNID_NONE) as [Ec|]; [|discriminate]. destruct (pt_prep t) eqn:Ep; [discriminate|]. cbn [negb] in E. injection E as <-.
  pose proof (proj1 Hi) as Co. pose proof (Core_wf _ _ Co) as W. assert (Co0 := Co). destruct Co0 as [K1 K2 K3 K4 K5 K6 K7 K8 K9 K10 K11]. rewrite K2 in F.
  apply find_pt_some in F as F'. destruct F' as [Ht Er].
  eassert (Es : istep I (LPrepare r) = Some _).
  { cbn [istep]. rewrite <- Ec. rewrite (find_inner_intro r _ t F). rewrite Ep. cbn [negb]. reflexivity. }
  eexists. unfold with_txns. eapply (Inv_sent ph s I _ (LPrepare r) _ []); [exact Hi|exact Es|..];
    cbn [y_log y_txns y_locks y_clast y_last y_idle y_files y_flushed y_disk y_rb y_ck y_rbdirty]; auto.
  - intros _. apply orb_false_r.
  - rewrite orb_false_r. intros Hd. split; [auto|]. rewrite K2. apply rb_set. cbn [pt_root]. intros u Hu Eu.
    assert (u = t) as -> by (eapply sorted_uniq; [apply (iw_sorted _ W)|auto|rewrite Eu; exact F]). unfold lv, level_ids. cbn. now rewrite Eu.
  - apply sent_nil.
  - intros nm. cbn [i_cont iwith]. symmetry. apply app_nil_r.
  - cbn. now rewrite K2.
  - cbn [i_txns i_clast iwith]. apply set_pt_Forall; [exact K4|]. cbn. discriminate.
Qed.

Lemma step_write ph s I s' r fn k w : Inv ph s I -> ph = false -> step s (SWrite r fn k w) = Some s' -> exists I', Inv ph s' I'.
Proof.
  intros Hi Hph E. cbn [step] in E. destruct (find_pt r (y_txns s)) as [t|] eqn:F; [|discriminate].
  destruct (flook fn (y_files s)) as [f|] eqn:L; [|discriminate]. destruct (pt_prep t) eqn:Ep; [discriminate|]. cbn [negb] in E.
  destruct (lock_free r (of_name f) k (y_locks s)) eqn:Lk; [|discriminate].
  pose proof (proj1 Hi) as Co. pose proof (Core_wf _ _ Co) as W. assert (Co0 := Co). destruct Co0 as [K1 K2 K3 K4 K5 K6 K7 K8 K9 K10 K11].
  destruct (put_ok None fn (k, mkRmsg (wmsg w) (pt_chain t)) (y_files s)) as (fs & Epu & Se); [apply K8|congruence|]. rewrite Epu in E. injection E as <-.
  rewrite K2 in F. apply find_pt_some in F as F'. destruct F' as [Ht Er].
  assert (Nl : nlook fn (i_open I) = Some (of_name f)) by (rewrite (proj2 K8), L; reflexivity).
  eassert (Es : istep I (LEnq fn r (pt_child t) k w) = Some _).
  { cbn [istep]. rewrite (find_inner_intro r _ t F), Nl, Ep. cbn [negb]. unfold lock_free in *. rewrite <- K3, Lk. reflexivity. }
  eexists. unfold with_locks, with_txns. eapply (Inv_sent ph s I _ (LEnq fn r (pt_child t) k w) _ [(fn, (k, mkRmsg (wmsg w) (pt_chain t)))]); [exact Hi|exact Es|..];
    cbn [y_log y_txns y_locks y_clast y_last y_idle y_files y_flushed y_disk y_rb y_ck y_rbdirty]; auto.
  - congruence.
  - rewrite orb_true_r. discriminate.
  - cbn. now rewrite K2.
  - intros n k'. cbn [i_locks iwith]. unfold take. destruct (_ && _); auto.
  - cbn [i_txns i_clast iwith]. apply set_pt_Forall; [exact K4|]. rewrite Forall_forall in K4. specialize (K4 t Ht).
    unfold push_rent. destruct (pt_levels t); cbn [pt_root pt_prep]; auto.
Qed.

Lemma commit_rb I t K : IWf I -> find_pt (pt_root t) (i_txns I) = Some t -> istep I (LCommit (pt_root t) (pt_child t)) = Some K -> has_ents t = false ->
  rb_of (i_txns K) = rb_of (i_txns I).
Proof.
  intros W F E H. cbn [istep] in E. rewrite (find_inner_intro _ _ _ F) in E. apply has_ents_nil in H. destruct (pt_levels t) as [|l [|p ls]] eqn:El; [discriminate| |]; injection E as <-; cbn [i_txns iwith].
  - apply rb_del. intros u Hu Eu. assert (u = t) as -> by (eapply sorted_uniq; [apply (iw_sorted _ W)|auto|rewrite Eu; exact F]). unfold lv, level_ids. rewrite El. cbn. now rewrite H.
  - apply rb_set. unfold merge_child at 1. rewrite El. cbn [pt_root]. intros u Hu Eu.
    assert (u = t) as -> by (eapply sorted_uniq; [apply (iw_sorted _ W)|auto|rewrite Eu; exact F]). unfold lv, level_ids, merge_child. rewrite El. cbn. rewrite H. cbn. reflexivity.
Qed.
Lemma abort_rb I t K : IWf I -> find_pt (pt_root t) (i_txns I) = Some t -> istep I (LAbort (pt_root t) (pt_child t)) = Some K -> has_ents t = false ->
  rb_of (i_txns K) = rb_of (i_txns I).
Proof.
  intros W F E H. cbn [istep] in E. rewrite (find_inner_intro _ _ _ F) in E. apply has_ents_nil in H. destruct (pt_levels t) as [|l [|p ls]] eqn:El; [discriminate| |]; injection E as <-; cbn [i_txns iwith is_nil].
  - apply rb_del. intros u Hu Eu. assert (u = t) as -> by (eapply sorted_uniq; [apply (iw_sorted _ W)|auto|rewrite Eu; exact F]). unfold lv, level_ids. rewrite El. cbn. now rewrite H.
  - apply rb_set. cbn [pt_root pop_level]. intros u Hu Eu.
    assert (u = t) as -> by (eapply sorted_uniq; [apply (iw_sorted _ W)|auto|rewrite Eu; exact F]). unfold lv, level_ids, pop_level. rewrite El. cbn. rewrite H. cbn. reflexivity.
Qed.

(** The remaining transactions of an inner commit or abort are old ones or have the same root. *)
Lemma clast_rest I x K (cl : txnid -> txnid) t : istep I x = Some K -> In t (i_txns I) ->
  x = LCommit (pt_root t) (pt_child t) \/ x = LAbort (pt_root t) (pt_child t) -> find_pt (pt_root t) (i_txns I) = Some t -> 
  Forall (fun t => pt_prep t = false -> i_clast I (pt_root t) <= cl (pt_root t)) (i_txns I) ->
  Forall (fun t => pt_prep t = false -> i_clast K (pt_root t) <= cl (pt_root t)) (i_txns K).
Proof.
  intros E Ht Hx F H. assert (Hm := H). rewrite Forall_forall in Hm. specialize (Hm t Ht).
  destruct Hx as [-> | ->]; cbn [istep] in E; rewrite (find_inner_intro _ _ _ F) in E; destruct (pt_levels t) as [|l [|p ls]] eqn:El; try discriminate; injection E as <-; cbn [i_txns iwith i_clast is_nil].
  - now apply del_pt_Forall.
  - apply set_pt_Forall; [auto|]. unfold merge_child. rewrite El. exact Hm.
  - now apply del_pt_Forall.
  - apply set_pt_Forall; [auto|]. exact Hm.
Qed.

Lemma step_commit ph s I s' r : Inv ph s I -> ph = false -> step s (SCommit r) = Some s' -> exists I', Inv ph s' I'.
Proof.
  intros Hi Hph E. cbn [step] in E. destruct (find_pt r (y_txns s)) as [t|] eqn:F; [|discriminate].
  pose proof (proj1 Hi) as Co. pose proof (Core_wf _ _ Co) as W. assert (Co0 := Co). destruct Co0 as [K1 K2 K3 K4 K5 K6 K7 K8 K9 K10 K11]. rewrite K2 in *.
  apply find_pt_some in F as F'. destruct F' as [Ht Er]. subst r.
  destruct (commit_inner_ok false None I (y_files s) t W K8 F) as (K & fs' & Ei & Eci & Se & Eo & Ect & Elk & Eu & Ecl & Eck). rewrite Eci in E. injection E as <-.
  exists K. eapply (Inv_sent ph s I _ (LCommit (pt_root t) (pt_child t)) K (cmsgs t)); eauto;
    unfold with_locks, with_txns; destruct (pt_child t =? TXNID_NONE) eqn:Z; cbn [y_log y_txns y_locks y_clast y_last y_idle y_files y_flushed y_disk y_rb y_ck y_rbdirty]; auto;
    try congruence; try (rewrite ?Eu, ?Eck; auto; fail).
  1,2: intros Hd; apply orb_false_iff in Hd; destruct Hd as [Hd1 Hd2]; split; [auto|]; rewrite K2; eapply commit_rb; eauto.
  - intros n k. rewrite Elk. unfold release. rewrite K3. reflexivity.
  - eapply clast_rest; eauto.
  - eapply clast_rest; eauto.
Qed.
Lemma step_abort ph s I s' r : Inv ph s I -> ph = false -> step s (SAbort r) = Some s' -> exists I', Inv ph s' I'.
Proof.
  intros Hi Hph E. cbn [step] in E. destruct (find_pt r (y_txns s)) as [t|] eqn:F; [|discriminate].
  pose proof (proj1 Hi) as Co. pose proof (Core_wf _ _ Co) as W. assert (Co0 := Co). destruct Co0 as [K1 K2 K3 K4 K5 K6 K7 K8 K9 K10 K11]. rewrite K2 in *.
  apply find_pt_some in F as F'. destruct F' as [Ht Er]. subst r.
  destruct (abort_inner_ok false None I (y_files s) t W K8 F) as (K & fs' & Ei & Eci & Se & Eo & Ect & Elk & Eu & Ecl & Eck & _). rewrite Eci in E. injection E as <-.
  exists K. eapply (Inv_sent ph s I _ (LAbort (pt_root t) (pt_child t)) K (amsgs t)); eauto;
    unfold with_locks, with_txns; destruct (pt_child t =? TXNID_NONE) eqn:Z; cbn [y_log y_txns y_locks y_clast y_last y_idle y_files y_flushed y_disk y_rb y_ck y_rbdirty]; auto;
    try congruence; try (rewrite ?Eu, ?Eck; auto; fail).
  1,2: intros Hd; apply orb_false_iff in Hd; destruct Hd as [Hd1 Hd2]; split; [auto|]; rewrite K2; eapply abort_rb; eauto.
  - intros n k. rewrite Elk. unfold release. rewrite K3. reflexivity.
  - eapply clast_rest; eauto.
  - eapply clast_rest; eauto.
Qed.

Lemma name_open_spec s I nm : Core s I -> name_open nm (y_files s) = true <-> exists fn, nlook fn (i_open I) = Some nm.
Proof.
  intros Co. pose proof (Core_wf _ _ Co) as W. destruct (c_fm _ _ Co) as [Nd Fm]. unfold name_open. rewrite existsb_exists. split.
  - intros ([fn f] & H & E). cbn in E. apply N.eqb_eq in E. exists fn. rewrite Fm, (flook_intro _ _ _ Nd H). cbn. now rewrite E.
  - intros (fn & H). rewrite Fm in H. destruct (flook fn (y_files s)) as [f|] eqn:L; [|discriminate]. cbn in H. injection H as H.
    exists (fn, f). split; [now apply flook_In|]. cbn. now apply N.eqb_eq.
Qed.

Lemma step_open ph s I s' fn nm : Inv ph s I -> step s (SOpen fn nm) = Some s' -> exists I', Inv ph s' I'.
Proof.
  intros Hi E. cbn [step] in E. destruct (flook fn (y_files s)) eqn:L; [discriminate|]. cbn [is_some negb] in E.
  destruct (name_open nm (y_files s)) eqn:No; [discriminate|]. cbn [negb] in E. destruct (newest (y_disk s) nm) as [[v m]|] eqn:Nw; [|discriminate]. injection E as <-.
  pose proof (proj1 Hi) as Co. pose proof (Core_wf _ _ Co) as W. assert (Co0 := Co). destruct Co0 as [K1 K2 K3 K4 K5 K6 K7 K8 K9 K10 K11].
  assert (Nn : forall g, nlook g (i_open I) <> Some nm).
  { intros g Hg. enough (name_open nm (y_files s) = true) by congruence. apply (name_open_spec s I); eauto. }
  assert (Nf : nlook fn (i_open I) = None) by (rewrite (proj2 K8), L; reflexivity).
  assert (Es : istep I (LFopen fn nm) = Some (mkIst ((fn, nm) :: i_open I) (i_txns I) (i_cont I) (i_locks I) (i_used I) (i_clast I) (i_ck I))).
  { cbn [istep]. rewrite Nf. cbn [is_some negb]. destruct (existsb (fun p => snd p =? nm) (i_open I)) eqn:X; [|reflexivity]. exfalso.
    apply existsb_exists in X. destruct X as ([g n] & Hg & En). cbn in En. apply N.eqb_eq in En. subst n. apply (Nn g). apply nlook_intro; [apply (iw_fns _ W)|auto]. }
  assert (Em : m = i_cont I nm).
  { destruct (K11 nm) as (v' & m' & A & B & D). rewrite Nw in A. injection A as <- <-. apply D. intros g f Hg Hf. exfalso. apply (Nn g). rewrite (proj2 K8), Hg. cbn. now rewrite Hf. }
  assert (Old : forall g f, flook g (y_files s) = Some f -> flook g ((fn, mkOf nm m v false) :: y_files s) = Some f).
  { intros g f Hg. cbn [flook]. destruct (N.eqb_spec fn g) as [->|]; [congruence|auto]. }
  eexists. eapply (Inv_grow ph s I _ (LFopen fn nm)); [exact Hi|exact Es|..]; cbn [y_log y_txns y_locks y_clast y_last y_idle y_files y_flushed y_disk y_rb y_ck y_rbdirty]; auto.
  - split; cbn [y_log y_txns y_locks y_clast y_last y_idle y_files y_flushed y_disk y_rb y_ck y_rbdirty i_open i_txns i_cont i_locks i_used i_clast i_ck]; auto.
    + rewrite irun_snoc, K1. exact Es.
    + destruct K8 as [Nd Fm]. split; [cbn; constructor; [apply flook_none; auto|auto]|]. intros g. cbn [nlook flook]. destruct (fn =? g); [reflexivity|apply Fm].
    + intros g f Hg. cbn [flook] in Hg. destruct (fn =? g); [injection Hg as <-; exact Em|exact (K9 _ _ Hg)].
    + rewrite app_length. lia.
    + intros n. destruct (K11 n) as (v' & m' & A & B & D). exists v', m'. split; [auto|]. split; [auto|]. intros Hs. apply D. intros g f Hg Hf. apply (Hs g f); auto.
  - eapply Rbd_same; [apply (proj1 (proj2 Hi))|..]; auto.
  - intros g f _ Hg. exists f. split; [auto|]. auto.
Qed.

Lemma step_close ph s I s' fn : Inv ph s I -> step s (SClose fn) = Some s' -> exists I', Inv ph s' I'.
Proof.
  intros Hi E. cbn [step] in E. destruct (flook fn (y_files s)) as [f|] eqn:L; [|discriminate].
  destruct (used_by fn (y_txns s)) eqn:U; [discriminate|]. cbn [negb] in E.
  destruct (match y_ck s with Some k => negb (memb fn (k_pin k)) | None => true end) eqn:Pin; [|discriminate]. injection E as <-.
  pose proof (proj1 Hi) as Co. pose proof (Core_wf _ _ Co) as W. assert (Co0 := Co). destruct Co0 as [K1 K2 K3 K4 K5 K6 K7 K8 K9 K10 K11].
  assert (Nl : nlook fn (i_open I) = Some (of_name f)) by (rewrite (proj2 K8), L; reflexivity).
  assert (Td : ~ In fn (map fst (todo s))).
  { unfold todo. destruct (y_ck s) as [k|] eqn:Ek; [|auto]. destruct Hi as (_ & _ & Pr & _). rewrite Ek in Pr. destruct Pr as (pre & J & last & fs0 & mid & P).
    intros H. apply in_map_iff in H. destruct H as ([g m] & Eg & Hg). cbn in Eg. subst g. apply (p_todo _ _ _ _ _ _ _ _ P) in Hg. destruct Hg as [Hg _].
    apply memb_In in Hg. rewrite Hg in Pin. discriminate. }
  assert (Es : istep I (LFclose fn (of_name f)) = Some (mkIst (filter (fun p => negb (fst p =? fn)) (i_open I)) (i_txns I) (i_cont I) (i_locks I) (i_used I) (i_clast I) (i_ck I))).
  { cbn [istep]. rewrite Nl, N.eqb_refl, <- K2, U. reflexivity. }
  assert (Run : irun ist_init (y_log s ++ [LFclose fn (of_name f)]) = Some (mkIst (filter (fun p => negb (fst p =? fn)) (i_open I)) (i_txns I) (i_cont I) (i_locks I) (i_used I) (i_clast I) (i_ck I))).
  { rewrite irun_snoc, K1. exact Es. }
  assert (Dk : forall nm v m, newest (if of_dirty f then upd2 (y_disk s) (of_name f) ((length (y_log s ++ [LFclose fn (of_name f)]), of_msgs f) :: y_disk s (of_name f)) else y_disk s) nm = Some (v, m) ->
     newest (y_disk s) nm = Some (v, m) /\ (nm = of_name f -> of_dirty f = false) \/ (v = length (y_log s ++ [LFclose fn (of_name f)]) /\ m = i_cont I nm /\ of_dirty f = true)).
  { intros nm v m H. destruct (of_dirty f) eqn:Df; [|auto]. unfold newest, upd2 in *. destruct (N.eqb_spec nm (of_name f)) as [E|E]; [|left; split; [auto|congruence]].
    cbn in H. injection H as <- <-. right. rewrite E. split; [auto|]. split; [|auto]. apply (K9 fn f L). }
  assert (Ln : length (y_log s ++ [LFclose fn (of_name f)]) = S (length (y_log s))) by (rewrite app_length; cbn; lia).
  eexists. eapply (Inv_grow ph s I _ (LFclose fn (of_name f))); [exact Hi|exact Es|..]; cbn [y_log y_txns y_locks y_clast y_last y_idle y_files y_flushed y_disk y_rb y_ck y_rbdirty]; auto.
  - destruct (of_dirty f); lia.
  - split; cbn [y_log y_txns y_locks y_clast y_last y_idle y_files y_flushed y_disk y_rb y_ck y_rbdirty i_open i_txns i_cont i_locks i_used i_clast i_ck]; auto.
    + destruct K8 as [Nd Fm]. split; [unfold fdel; now apply NoDup_map_filter|]. intros g. rewrite nlook_filter by reflexivity. rewrite flook_fdel, Fm. cbn.
      destruct (flook g (y_files s)); cbn; destruct (g =? fn); reflexivity.
    + intros g h Hg. rewrite flook_fdel in Hg. destruct (g =? fn); [discriminate|]. eauto.
    + destruct (of_dirty f); lia.
    + intros nm. destruct (newest _ nm) as [[v m]|] eqn:Nw.
      * exists v, m. split; [auto|]. destruct (K11 nm) as (v' & m' & A & B & D). destruct (Dk nm v m Nw) as [[X1 X2]|(X1 & X2 & X3)].
        -- rewrite X1 in A. injection A as <- <-. split; [destruct (of_dirty f); lia|]. intros Hs. apply D. intros g h Hg Hn.
           destruct (N.eq_dec g fn) as [Eg|Eg].
           ++ subst g. rewrite L in Hg. injection Hg as Hg. subst h. split; [auto|exact Td].
           ++ apply (Hs g h); [|auto]. cbn [y_files]. rewrite flook_fdel. apply N.eqb_neq in Eg. now rewrite Eg.
        -- rewrite X3. split; [lia|]. auto.
      * exfalso. destruct (K11 nm) as (v' & m' & A & _). destruct (of_dirty f); [|congruence]. unfold newest, upd2 in *. destruct (nm =? of_name f); [discriminate|congruence].
  - eapply Rbd_same; [apply (proj1 (proj2 Hi))|..]; auto.
  - intros nm v m H. destruct (Dk nm v m H) as [[X _]|(X1 & X2 & _)]; auto.
  - intros g h Hg Hf. exists h. rewrite flook_fdel. destruct (N.eqb_spec g fn) as [->|]; [contradiction|]. auto.
Qed.
