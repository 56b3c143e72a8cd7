(** What readers get from a copy of the row. *)
From Verif Require Import Base Bytes UleModel UleSpec LeCodecProofs LeAccProofs UleWf
  MgrModel MgrSpec MgrProofs MvccModel MvccSpec StackProofs MvccGc MvccRow MvccApply MvccAsync MvccSys MvccSync.
Open Scope N_scope.
Local Arguments ideal : simpl never.

Lemma crow_iter S gone src fin clos u a f : crow S gone src fin clos u a -> S (fun _ => true) -> S f ->
  exists r b, le_iterate f f u = Some r /\ accepted_committed f (full a) = Some b /\ xval r = xval b.
Proof.
  intros [W Hw Hlen _ _ _ Hrel] H1 Hf. pose proof (wf_nonempty u W) as Hc.
  destruct (cur_ok S H1 gone u a W Hw Hlen Hrel) as (i & Hi & Ei).
  assert (Hacc : forall c, c <> [] -> exists r, accepted_committed f c = Some r).
  { intros c Hc'. destruct (accepted_committed f c) eqn:E; eauto. exfalso. clear -Hc' E.
    induction c as [|x [|y c] IH]; [congruence|discriminate|]. rewrite acc_cons in E by discriminate.
    destruct (f (ux_xid x)); [discriminate|]. apply IH; [discriminate|auto]. }
  unfold le_iterate. destruct Hrel as [(LA & Hl & Hp & Hs & HD)|(Hp & _ & Hs)].
  - destruct (px u) as [|o p] eqn:Ep.
    + assert (Hcase : full a = ar_w a \/ (exists x, full a = mkUxr x XDel :: ar_w a) /\ accepted_committed f (ar_w a) = Some XDel).
      { unfold full. destruct (ar_x a) as [|x X] eqn:EX; [auto|].
        assert (Hz : lastnp LA = XPlace).
        { apply strip_nil. symmetry in Hp. destruct (strip LA) eqn:Es; auto. discriminate. }
        destruct HD as [<-|[HD Hdel]]; [rewrite Hz; auto|].
        destruct (drel_lastnp _ _ _ HD) as [E|(_ & E & _)]; [rewrite <- E, Hz; auto|].
        rewrite E. right. split; eauto. }
      rewrite (Hs f Hf). destruct (Hacc _ Hw) as (r & Er). exists r. destruct Hcase as [->|[(x & ->) Ed]].
      * exists r. auto.
      * rewrite acc_cons by auto. cbn [ux_xid ux_xr]. rewrite Ed in *. apply Some_inj in Er. subst r.
        exists XDel. split; auto. split; auto. destruct (f x); auto.
    + destruct (zipx_head _ _ _ _ (eq_sym Hp)) as (x & X & EX & Ex).
      assert (Hz : lastnp LA <> XPlace).
      { intros Hz. apply strip_nil in Hz. rewrite Hz in Hp. destruct (ar_x a); discriminate. }
      assert (El : lastnp LA = lastnp (ar_l a)).
      { destruct HD as [<-|[HD _]]; auto. destruct (drel_lastnp _ _ _ HD) as [E|(E & _)]; congruence. }
      assert (Ef : full a = mkUxr x (lastnp (ar_l a)) :: ar_w a).
      { unfold full. rewrite EX. destruct (lastnp (ar_l a)); congruence. }
      assert (Ec : cur a = lastnp (ar_l a)).
      { unfold cur, resv. destruct (lastnp (ar_l a)); congruence. }
      rewrite Ef, acc_cons by auto. cbn [ux_xid ux_xr]. rewrite Ex. destruct (f x).
      * rewrite Hi. exists (ux_xr i), (lastnp (ar_l a)). split; auto. split; auto. congruence.
      * rewrite (Hs f Hf). destruct (Hacc _ Hw) as (r & Er). exists r, r. auto.
  - rewrite Hp. rewrite (Hs f Hf). destruct (Hacc (full a)) as (r & Er); [apply full_nonempty; auto|]. exists r, r. auto.
Qed.

Lemma iter_ext f g u : (forall x, In x (nonbottom (cx u)) -> f x = g x) -> (forall o p, px u = o :: p -> f (ux_xid o) = g (ux_xid o)) ->
  le_iterate f f u = le_iterate g g u.
Proof.
  intros Hc Hp. unfold le_iterate. rewrite (acc_ext f g) by auto. destruct (px u) as [|o p]; auto. rewrite (Hp o p) by auto. auto.
Qed.

Lemma le_read_snap rd u : le_read C_READ_SNAPSHOT rd u =
  do r <- le_iterate (fun x => txn_reads_txnid x rd) (fun x => txn_reads_txnid x rd) u; Some (xval r).
Proof. reflexivity. Qed.

Lemma row_read_snap rd o : row_read C_READ_SNAPSHOT rd o =
  do r <- le_iterate (fun x => txn_reads_txnid x rd) (fun x => txn_reads_txnid x rd) (match o with Some u => u | None => ule_init_empty end);
  Some (xval r).
Proof. destruct o; reflexivity. Qed.

Lemma row_read_any rd o : row_read C_READ_ANY rd o =
  do i <- ule_innermost (match o with Some u => u | None => ule_init_empty end); Some (xval (ux_xr i)).
Proof. destruct o as [u|]; [|reflexivity]. cbn. unfold le_read. destruct (ule_innermost u); reflexivity. Qed.

(** The snapshots a root transaction reads through: its own or one taken by an
    open child (txn->snapshot_txnid64, ft/txn/txn.cc:122-165). *)
Definition holds_snap (y : rsys) (r : txnid) (s : snap) : Prop :=
  (exists rt, In rt (ms_roots (y_ms y)) /\ r_xid rt = r /\ r_snap rt = Some s) \/ In (r, s) (ms_child (y_ms y)).

Lemma ents_own ls lv : ents_ok ls lv -> own ls <> None -> exists l, In l lv /\ lv_ents l <> [].
Proof.
  induction 1 as [|w l ls lv H1 H2 IH]; cbn; [congruence|]. destruct w.
  - intros _. exists l. split; auto. apply H1. discriminate.
  - intros Ho. destruct (IH Ho) as (l' & Hi & Hl). eauto.
Qed.

Section Read.
Context (y : rsys) (T : tinv y) (A : ainv y) (S : sync y).
Let h := ms_hist (y_ms y).
Let sp := spec_of (y_trace y).
Let C : cinv (ms_mgr (y_ms y)) h := i_c _ (t_m T).

Lemma holds_fx r s : holds_snap y r s -> In s (snaps_of h) /\ r < s_id s /\ ~ finished h r.
Proof.
  pose proof (t_m T) as M. intros [(rt & Hi & <- & Es)|Hi].
  - split; [apply (i_own _ M); unfold owned; apply in_app_iff; left; apply root_snaps_in; eauto|].
    split; [eapply (i_rsnap _ M); eauto|]. apply (i_roots _ M rt Hi).
  - destruct (i_child _ M r s Hi) as (Hl & rt & Hr & <-).
    split; [apply (i_own _ M); unfold owned; apply in_app_iff; right; apply (in_map snd) in Hi; exact Hi|].
    split; auto. apply (i_roots _ M rt Hr).
Qed.

Lemma reads_sees r s x : In s (snaps_of h) -> r < s_id s -> begun h x ->
  txn_reads_txnid x (mkReader (s_id s) (s_live s) r) = snap_sees s r x.
Proof.
  intros Hs Hr Hb. unfold snap_sees. destruct (N.eqb_spec x r) as [->|Hn]; [apply reads_own; auto|]. cbn [orb].
  pose proof (reads_iff _ _ s r x C Hs Hr Hb Hn) as Hiff.
  destruct (txn_reads_txnid _ _); symmetry.
  - destruct (proj1 Hiff eq_refl) as [Hlt Hni]. apply andb_true_iff. split; [apply N.ltb_lt; auto|].
    apply negb_true_iff, in_live_list_false. auto.
  - apply not_true_iff_false. rewrite andb_true_iff. intros [Hlt Hni]. apply N.ltb_lt in Hlt.
    apply negb_true_iff, in_live_list_false in Hni. assert (false = true) by (apply Hiff; auto). discriminate.
Qed.

Lemma serves_reader r s : holds_snap y r s -> serves h (fun x => txn_reads_txnid x (mkReader (s_id s) (s_live s) r)).
Proof.
  intros H. destruct (holds_fx r s H) as (Hs & Hr & Hn). right. exists s, r. split; auto. split; auto. split; auto.
  intros x Hb. apply reads_sees; auto.
Qed.

Lemma copy_iter k o f : In (k, o) (y_copies y) -> serves h f ->
  exists r b, le_iterate f f (match o with Some u => u | None => ule_init_empty end) = Some r
   /\ accepted_committed f (full (ideal (y_msgs y) k)) = Some b /\ xval r = xval b.
Proof.
  intros Hi Hf. destruct (a_copies A k o Hi) as [_ Hc]. destruct o as [u|]; eapply crow_iter; eauto; apply serves_all.
Qed.

Lemma copy_any k o rd : In (k, o) (y_copies y) -> row_read C_READ_ANY rd o = Some (xval (cur (ideal (y_msgs y) k))).
Proof.
  intros Hi. destruct (a_copies A k o Hi) as [_ Hc]. rewrite row_read_any.
  assert (Hc' : exists i, ule_innermost (match o with Some u => u | None => ule_init_empty end) = Some i
     /\ ux_xr i = cur (ideal (y_msgs y) k)).
  { destruct o as [u|]; destruct Hc as [W Hw Hlen _ _ _ Hrel];
      (eapply cur_ok; [apply (serves_all h)|exact W|exact Hw|exact Hlen|exact Hrel]). }
  destruct Hc' as (i & -> & ->). auto.
Qed.

(** What the lock holder has left in the ideal row. *)
Lemma holder_full t : In t (y_txns y) -> y_lock y = Some (t_root t) ->
  exists v W, settled h (sp_val sp) (sp_frozen sp) W
   /\ full (ideal (y_msgs y) (length (y_msgs y))) = pushl (t_root t) v W
   /\ (t_phase t = PActive -> v = tox (own (sp_levels sp (t_root t))))
   /\ (v <> XPlace -> begun h (t_root t)).
Proof.
  intros Ht Hl. destruct (q_hold S t Ht Hl) as [He _ Hph]. fold sp in He, Hph.
  assert (Hb : own (sp_levels sp (t_root t)) <> None -> begun h (t_root t)).
  { intros Ho. pose proof (ents_own _ _ He Ho) as (l & Hi & Hl'). apply (c_wrote _ _ C).
    apply (k_ents _ _ _ (t_all T t Ht) l); auto. }
  pose proof (chain_ne y T t Ht) as Hne. assert (HI : awf (ideal (y_msgs y) (length (y_msgs y)))) by apply S.
  destruct (k_chain _ _ _ (t_all T t Ht)) as (D & ED & _). rewrite <- (turn_full (chain t)) by auto.
  assert (Ex : ar_x (turn (chain t) (ideal (y_msgs y) (length (y_msgs y)))) = t_root t :: D) by (rewrite turn_x; auto).
  destruct (t_phase t).
  - rewrite (full_push _ _ _ Ex). destruct Hph as [Hst El]. rewrite El, lastnp_own. eexists _, _. split; [exact Hst|].
    split; [reflexivity|]. split; auto. intros Hv. apply Hb. intros E. rewrite E in Hv. auto.
  - destruct Hph as (w & W0 & Ew & Hst & Ef). eexists _, _. split; [exact Hst|]. split; [exact Ef|]. split; [discriminate|].
    intros Hv. apply Hb. rewrite Ew. destruct w; [discriminate|]. exfalso. apply Hv. auto.
  - rewrite (full_push _ _ _ Ex). destruct Hph as [Hst (w & ls' & z & Ew & El & Hz & _)]. eexists _, _. split; [exact Hst|].
    split; [reflexivity|]. split; [discriminate|]. intros Hv. apply Hb. rewrite Ew. cbn. destruct w; [discriminate|].
    rewrite El in Hv. rewrite lastnp_snoc in Hv. intros E. apply Hv. destruct Hz as [->| ->]; cbn; rewrite lastnp_own, E; auto.
Qed.

Lemma settled_reads r s W : settled h (sp_val sp) (sp_frozen sp) W -> In s (snaps_of h) -> r < s_id s -> ~ finished h r ->
  exists b, accepted_committed (fun x => txn_reads_txnid x (mkReader (s_id s) (s_live s) r)) W = Some b
   /\ xval b = sp_frozen sp (s_id s).
Proof.
  intros St Hs Hr Hn. destruct (e_frozen _ _ _ _ St s Hs) as (b & Hb & Ev). exists b. split; auto.
  rewrite <- Hb. apply acc_ext. intros x Hx. destruct (e_fin _ _ _ _ St x Hx) as [Hbg Hfin].
  rewrite reads_sees by auto. unfold snap_sees, fs. destruct (N.eqb_spec x r); [congruence|auto].
Qed.

Lemma others_none t : In t (y_txns y) -> y_lock y <> Some (t_root t) -> own (sp_levels sp (t_root t)) = None.
Proof.
  intros Ht Hl. pose proof (q_other S t Ht Hl) as H. fold sp in H. revert H. generalize (sp_levels sp (t_root t)).
  induction l as [|w l IH]; auto. intros H. cbn. rewrite (H w) by (left; auto). apply IH. intros; apply H; right; auto.
Qed.

Lemma ideal_snapshot r s : active y r -> holds_snap y r s ->
  exists b, accepted_committed (fun x => txn_reads_txnid x (mkReader (s_id s) (s_live s) r))
     (full (ideal (y_msgs y) (length (y_msgs y)))) = Some b
   /\ xval b = sees (sp_levels sp r) (sp_frozen sp (s_id s)).
Proof.
  intros (t & Hf & Hp) Hsn. destruct (holds_fx r s Hsn) as (Hs & Hr & Hn).
  destruct (find_ok _ T _ _ Hf) as (Ht & Er & K & _). unfold sees.
  assert (Hcase : y_lock y = None \/ exists q, y_lock y = Some q) by (clear; destruct (y_lock y); eauto).
  destruct Hcase as [El|(q & El)]; cycle 1.
  - assert (Hq : In q (map t_root (y_txns y))) by (apply (t_lock T); auto).
    apply in_map_iff in Hq. destruct Hq as (tq & Eq & Hq). rewrite <- Eq in El.
    destruct (holder_full tq Hq El) as (v & W & St & Ef & Hv & Hbg). rewrite Ef.
    destruct (settled_reads r s W St Hs Hr Hn) as (b & Hb & Eb).
    destruct (N.eq_dec q r) as [->|Hqr].
    + assert (tq = t).
      { pose proof (find_txn_unique r _ _ (roots_nd _ T) Ht Er).
        pose proof (find_txn_unique r _ _ (roots_nd _ T) Hq Eq). congruence. }
      subst tq. rewrite (Hv Hp). rewrite Er. destruct (own (sp_levels sp r)) as [[w|]|]; cbn [tox pushl].
      * rewrite acc_cons by apply (e_ne _ _ _ _ St). cbn [ux_xid ux_xr]. rewrite reads_own by auto. eexists. split; reflexivity.
      * rewrite acc_cons by apply (e_ne _ _ _ _ St). cbn [ux_xid ux_xr]. rewrite reads_own by auto. eexists. split; reflexivity.
      * eauto.
    + rewrite <- Er. rewrite (others_none t Ht) by congruence. rewrite Er.
      assert (Hrej : v <> XPlace -> txn_reads_txnid (t_root tq) (mkReader (s_id s) (s_live s) r) = false).
      { intros Hnp. specialize (Hbg Hnp). rewrite reads_sees by auto. unfold snap_sees.
        destruct (N.eqb_spec (t_root tq) r); [congruence|]. cbn [orb]. apply not_true_iff_false. rewrite andb_true_iff.
        intros [Hlt Hni]. apply N.ltb_lt in Hlt. apply negb_true_iff, in_live_list_false in Hni. apply Hni.
        apply (c_slive _ _ C); auto. eapply unfinished; eauto. }
      destruct v; cbn [pushl] in *; try (eauto; fail);
        rewrite acc_cons by apply (e_ne _ _ _ _ St); cbn [ux_xid ux_xr]; rewrite Hrej by discriminate; eauto.
  - assert (St : settled h (sp_val sp) (sp_frozen sp) (full (ideal (y_msgs y) (length (y_msgs y))))) by (apply (q_none S); auto).
    rewrite <- Er. rewrite (others_none t Ht) by congruence. rewrite Er. apply settled_reads; auto.
Qed.
End Read.

Lemma locked_cur y r : tinv y -> ainv y -> sync y -> y_lock y = Some r -> active y r ->
  xval (cur (ideal (y_msgs y) (length (y_msgs y)))) =
    sees (sp_levels (spec_of (y_trace y)) r) (sp_val (spec_of (y_trace y))).
Proof.
  intros T A S Hl (t & Hf & Hp). destruct (find_ok _ T _ _ Hf) as (Ht & Er & K & _).
  destruct (q_hold S t Ht) as [_ _ Hph]; [congruence|]. rewrite Hp in Hph. destruct Hph as [Hst El].
  rewrite <- (cur_turn (chain t)); [|apply (chain_ne y T); auto|apply S]. unfold cur. rewrite El, Er.
  apply sees_resv. apply (e_val _ _ _ _ Hst).
Qed.

Lemma free_cur y : sync y -> y_lock y = None ->
  xval (cur (ideal (y_msgs y) (length (y_msgs y)))) = sp_val (spec_of (y_trace y)).
Proof.
  intros S Hl. pose proof (q_none S Hl) as St. rewrite <- (e_val _ _ _ _ St). f_equal.
  symmetry. apply whead_full. apply S.
Qed.

(** * Runs *)

Inductive rsteps : rsys -> rsys -> Prop :=
| rs_refl y : rsteps y y
| rs_step y o y1 y' : rop_legal y o -> ids_left (y_ms y) -> rstep y o = Some y1 -> rsteps y1 y' -> rsteps y y'.

Lemma rsteps_reach last y y' : rsteps y y' -> rreach last y -> rreach last y'.
Proof. induction 1; auto. intros R. apply IHrsteps. eapply rreach_step; eauto. Qed.

Lemma step_keeps y o y' : tinv y -> rstep y o = Some y' ->
  (exists d, y_msgs y' = y_msgs y ++ d) /\ (exists d, y_copies y' = y_copies y ++ d) /\ later (y_ms y) (y_ms y')
  /\ (forall n, n <= m_last (ms_mgr (y_ms y)) -> sp_frozen (spec_of (y_trace y')) n = sp_frozen (spec_of (y_trace y)) n).
Proof.
  intros T H.
  assert (Hd : forall l : list (rmsg * list event), exists d, l = l ++ d) by (exists []; rewrite app_nil_r; auto).
  assert (Hd' : forall l : list (nat * option ule), exists d, l = l ++ d) by (exists []; rewrite app_nil_r; auto).
  destruct o as [ro rec|r|s|r|r|r|r w|r|r|r|r|r|r|r| |i|j s|j s]; cbn [rstep] in H.
  - destruct (mstep _ _) as [ms'|] eqn:Em; [|discriminate]. pose proof (mstep_later _ _ _ Em) as La.
    destruct (begin_fx _ _ _ _ Em) as (x & os & Er & _ & _ & Ex & Es). rewrite Er, rev_app_distr in H. cbn [rev app r_xid r_snap] in H.
    destruct os as [s|]; apply Some_inj in H; subst y'; cbn; (split; [auto|split; [auto|split; [exact La|]]]); auto.
    intros n Hn. apply upd_other. rewrite (Es s eq_refl). lia.
  - destruct (mstep _ _) as [ms'|] eqn:Em; [|discriminate]. pose proof (mstep_later _ _ _ Em) as La.
    destruct (childsnap_fx _ _ _ Em) as (s & _ & Ec & _ & Es). rewrite Ec, rev_app_distr in H. cbn [rev app snd] in H.
    apply Some_inj in H; subst y'; cbn. split; [auto|split; [auto|split; [exact La|]]]. intros n Hn. apply upd_other. lia.
  - destruct (mstep _ _) as [ms'|] eqn:Em; [|discriminate]. pose proof (mstep_later _ _ _ Em) as La.
    apply Some_inj in H; subst y'; cbn. auto.
  - destruct (mstep _ _) as [ms'|] eqn:Em; [|discriminate]. pose proof (mstep_later _ _ _ Em) as La.
    apply Some_inj in H; subst y'; cbn. auto.
  - destruct (find_txn _ _); [|discriminate]. apply Some_inj in H; subst y'; cbn. pose proof (later_refl (y_ms y)). auto.
  - apply Some_inj in H; subst y'; cbn. pose proof (later_refl (y_ms y)). auto.
  - destruct (mstep _ _) as [ms'|] eqn:Em; [|discriminate]. pose proof (mstep_later _ _ _ Em) as La.
    destruct (find_txn _ _); [|discriminate]. apply Some_inj in H; subst y'; cbn. split; eauto.
  - destruct (find_txn _ _); [|discriminate]. apply Some_inj in H; subst y'; cbn. pose proof (later_refl (y_ms y)). auto.
  - destruct (find_txn _ _) as [t|]; [|discriminate]. destruct (hd_error _); [|discriminate].
    apply Some_inj in H; subst y'; cbn. pose proof (later_refl (y_ms y)). auto.
  - destruct (find_txn _ _) as [t|]; [|discriminate]. destruct (t_phase t) as [| |[|n]]; try discriminate.
    apply Some_inj in H; subst y'; cbn. pose proof (later_refl (y_ms y)). split; eauto.
  - destruct (find_txn _ _) as [t|]; [|discriminate]. destruct (t_levels t) as [|l [|l2 ls]]; try discriminate.
    + unfold retire in H. destruct (mstep _ _) as [ms'|] eqn:Em; [|discriminate]. pose proof (mstep_later _ _ _ Em) as La.
      apply Some_inj in H; subst y'; cbn. auto.
    + apply Some_inj in H; subst y'; cbn. pose proof (later_refl (y_ms y)). auto.
  - destruct (find_txn _ _) as [t|]; [|discriminate]. destruct (hd_error _); [|discriminate].
    apply Some_inj in H; subst y'; cbn. pose proof (later_refl (y_ms y)). auto.
  - destruct (find_txn _ _) as [t|]; [|discriminate]. destruct (t_phase t) as [|[|b todo]|]; try discriminate.
    apply Some_inj in H; subst y'. pose proof (later_refl (y_ms y)). destruct b; cbn; eauto.
  - unfold retire in H. destruct (mstep _ _) as [ms'|] eqn:Em; [|discriminate]. pose proof (mstep_later _ _ _ Em) as La.
    apply Some_inj in H; subst y'; cbn. auto.
  - apply Some_inj in H; subst y'; cbn. pose proof (later_refl (y_ms y)). auto.
  - destruct (nth_error _ _); [|discriminate]. apply Some_inj in H; subst y'; cbn. pose proof (later_refl (y_ms y)). eauto.
  - destruct (nth_error (y_copies y) j) as [[k le]|]; [|discriminate]. destruct (nth_error (y_msgs y) k) as [[m h]|]; [|discriminate].
    destruct (mk_gi _ _); [|discriminate]. destruct (row_apply _ _ _); [|discriminate]. apply Some_inj in H. subst y'.
    cbn. pose proof (later_refl (y_ms y)). eauto.
  - destruct (nth_error (y_copies y) j) as [[k le]|]; [|discriminate].
    destruct (mk_gi _ _); [|discriminate]. destruct le; [|discriminate]. destruct (le_garbage_collect _ _); [|discriminate].
    apply Some_inj in H. subst y'. cbn. pose proof (later_refl (y_ms y)). eauto.
Qed.

Lemma rsteps_keeps last y y' : rsteps y y' -> rreach last y ->
  (exists d, y_msgs y' = y_msgs y ++ d) /\ (exists d, y_copies y' = y_copies y ++ d)
  /\ m_last (ms_mgr (y_ms y)) <= m_last (ms_mgr (y_ms y'))
  /\ (forall n, n <= m_last (ms_mgr (y_ms y)) -> sp_frozen (spec_of (y_trace y')) n = sp_frozen (spec_of (y_trace y)) n).
Proof.
  induction 1 as [y|y o y1 y' Hl Hi E R IH]; intros Hr.
  - split; [exists []; rewrite app_nil_r; auto|]. split; [exists []; rewrite app_nil_r; auto|]. split; [lia|auto].
  - destruct (rreach_inv _ _ Hr) as [T _]. destruct (step_keeps _ _ _ T E) as ((d & Ed) & (c & Ec) & (_ & La & _) & Hf).
    destruct IH as ((d' & Ed') & (c' & Ec') & La' & Hf'); [eapply rreach_step; eauto|].
    split; [exists (d ++ d'); rewrite Ed', Ed, app_assoc; auto|].
    split; [exists (c ++ c'); rewrite Ec', Ec, app_assoc; auto|]. split; [lia|].
    intros n Hn. rewrite Hf' by lia. auto.
Qed.

Lemma find_app_none {A} (f : A -> bool) l l' : find f l = None -> find f (l ++ l') = find f l'.
Proof. induction l as [|a l IH]; cbn; auto. destruct (f a); [discriminate|auto]. Qed.

Lemma find_txn_none r ts : (forall t, In t ts -> t_root t <> r) -> find (fun t => t_root t =? r) ts = None.
Proof.
  induction ts as [|t ts IH]; intros H; cbn; auto. destruct (N.eqb_spec (t_root t) r) as [E|E].
  - exfalso. apply (H t); [left; auto|auto].
  - apply IH. intros; apply H; right; auto.
Qed.

Lemma ideal_prefix ms d k : (k <= length ms)%nat -> ideal (ms ++ d) k = ideal ms k.
Proof.
  revert ms. induction d as [|e d IH]; intros ms H; [rewrite app_nil_r; auto|].
  change (e :: d) with ([e] ++ d). rewrite app_assoc, IH by (rewrite app_length; cbn; lia). apply ideal_ext. auto.
Qed.
