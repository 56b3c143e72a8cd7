(** Readers that copy the list of running transactions but take no snapshot
    (DB_READ_COMMITTED_ALWAYS). *)
From Verif Require Import Base Bytes UleModel UleSpec LeCodecProofs LeAccProofs UleWf
  MgrModel MgrSpec MgrProofs MvccModel MvccSpec StackProofs MvccGc MvccRow MvccApply MvccAsync MvccSys
  MvccSync MvccRead.
Open Scope N_scope.
Local Arguments ideal : simpl never.

(** * What such a reader takes from one leaf entry *)

Lemma row_read_rca rd o : row_read C_READ_COMMITTED rd o =
  do r <- le_iterate (fun x => txn_reads_txnid x rd) (fun _ => true) (match o with Some u => u | None => ule_init_empty end);
  Some (xval r).
Proof. destruct o; reflexivity. Qed.

Lemma crow_rca S gone src fin clos u a fp : crow S gone src fin clos u a -> S (fun _ => true) ->
  exists v, le_iterate fp (fun _ => true) u = Some v
  /\ ((exists x X, ar_x a = x :: X /\ fp x = true /\ xval v = xval (cur a))
   \/ (exists x X, ar_x a = x :: X /\ gone x /\ xval v = xval (cur a))
   \/ (xval v = xval (whead (ar_w a)) /\ xval (cur a) = xval (whead (ar_w a)))
   \/ (exists x X, ar_x a = x :: X /\ fp x = false /\ xval v = xval (whead (ar_w a)))).
Proof.
  intros [W Hw Hlen _ _ _ Hrel] H1. pose proof (wf_nonempty u W) as Hc.
  destruct (cur_ok S H1 gone u a W Hw Hlen Hrel) as (i & Hi & Ei).
  assert (Hcx : accepted_committed (fun _ => true) (cx u) = Some (whead (cx u))) by (apply acc_yes; auto).
  assert (Hfull : full a <> []) by (apply full_nonempty; auto).
  unfold le_iterate. destruct Hrel as [(LA & Hl & Hp & Hs & HD)|(Hp & (x & X & Ex & Hg) & Hs)].
  - pose proof (Hs _ H1) as Hh. rewrite Hcx, acc_yes in Hh by auto. apply Some_inj in Hh.
    destruct (px u) as [|o p] eqn:Ep.
    + exists (whead (cx u)). split; auto. right. right. left. rewrite Hh. split; auto.
      assert (Hz : lastnp LA = XPlace).
      { apply strip_nil. destruct (strip LA) eqn:Es; auto. destruct (ar_x a); [destruct LA; discriminate|discriminate]. }
      unfold cur, resv. destruct HD as [<-|[HD Hdel]]; [rewrite Hz; auto|].
      destruct (drel_lastnp _ _ _ HD) as [E|(_ & E & _)]; [rewrite <- E, Hz; auto|]. rewrite E.
      specialize (Hdel _ H1). rewrite acc_yes in Hdel by auto. apply Some_inj in Hdel. rewrite Hdel. auto.
    + destruct (zipx_head _ _ _ _ (eq_sym Hp)) as (x & X & EX & Ex). rewrite Ex. destruct (fp x) eqn:Ef.
      * rewrite Hi. exists (ux_xr i). split; auto. left. exists x, X. rewrite Ei. auto.
      * exists (whead (cx u)). split; auto. right. right. right. exists x, X. rewrite Hh. auto.
  - rewrite Hp, Hcx. exists (whead (cx u)). split; auto. right. left. exists x, X. split; auto. split; auto.
    pose proof (Hs _ H1) as Hh. rewrite Hcx, acc_yes in Hh by auto. apply Some_inj in Hh. rewrite Hh.
    rewrite whead_full; [auto|split; auto].
Qed.

(** * What lies below the last sender's records *)

Definition committing (t : rtxn) : Prop := exists todo, t_phase t = PCommit todo.

(** In the events [d] after [tr] no transaction but [x] commits a change to the row. *)
Definition only_by (P : txnid -> Prop) (d tr : list revent) : Prop :=
  forall d1 q d2, d = d1 ++ VCommit q :: d2 -> own (sp_levels (spec_of (d2 ++ tr)) q) <> None -> P q.

Definition base0 (tr : list revent) (ts : list rtxn) (lk : option txnid) (I : arow) : Prop :=
  (exists d tr', tr = d ++ tr' /\ xval (whead (ar_w I)) = sp_val (spec_of tr')
     /\ only_by (fun q => hd_eq [q] (ar_x I) = true) d tr')
  \/ (exists t, In t ts /\ lk = Some (t_root t) /\ committing t /\ whead (ar_w I) = whead (full I)).

Definition base (y : rsys) : Prop := base0 (y_trace y) (y_txns y) (y_lock y) (ideal (y_msgs y) (length (y_msgs y))).

Lemma only_by_cons (P : txnid -> Prop) e d tr :
  only_by P d tr -> (forall q, e = VCommit q -> own (sp_levels (spec_of (d ++ tr)) q) <> None -> P q) -> only_by P (e :: d) tr.
Proof.
  intros H He d1 q d2 E Ho. destruct d1 as [|a d1]; cbn in E; injection E as -> ->; [eapply He; eauto|].
  eapply H; eauto.
Qed.

Lemma only_by_nil P tr : only_by P [] tr.
Proof. intros d1 q d2 E. destruct d1; discriminate. Qed.

Lemma only_by_impl (P Q : txnid -> Prop) d tr : (forall q, P q -> Q q) -> only_by P d tr -> only_by Q d tr.
Proof. intros H Ho d1 q d2 E Hw. apply H. eapply Ho; eauto. Qed.

(** The row stays as it is and nobody commits a change to it. *)
Lemma base_quiet tr ts ts' lk lk' I e : base0 tr ts lk I ->
  (forall q, e = VCommit q -> own (sp_levels (spec_of tr) q) = None) ->
  (forall t, In t ts -> lk = Some (t_root t) -> committing t -> exists t', In t' ts' /\ lk' = Some (t_root t') /\ committing t') ->
  base0 (e :: tr) ts' lk' I.
Proof.
  intros [(d & tr' & E & Ev & Ho)|(t & Ht & Hl & Hc & Ew)] He Ht'.
  - left. exists (e :: d), tr'. split; [rewrite E; auto|]. split; auto. apply only_by_cons; auto.
    intros q Eq Hq. rewrite <- E in Hq. rewrite (He q Eq) in Hq. congruence.
  - right. destruct (Ht' t Ht Hl Hc) as (t' & H1 & H2 & H3). eauto 8.
Qed.

Lemma base_txns tr ts ts' lk lk' I : base0 tr ts lk I ->
  (forall t, In t ts -> lk = Some (t_root t) -> committing t -> exists t', In t' ts' /\ lk' = Some (t_root t') /\ committing t') ->
  base0 tr ts' lk' I.
Proof.
  intros [B|(t & Ht & Hl & Hc & Ew)] Ht'; [left; auto|]. right. destruct (Ht' t Ht Hl Hc) as (t' & H1 & H2 & H3). eauto 8.
Qed.

Lemma base_now tr ts lk I : xval (whead (ar_w I)) = sp_val (spec_of tr) -> base0 tr ts lk I.
Proof. intros H. left. exists [], tr. split; auto. split; auto. apply only_by_nil. Qed.

Lemma astep_w a m : non_opt (rm_kind m) = true -> rm_kind m <> KCommit ->
  astep a m = a \/ (ar_w (astep a m) = ar_w (turn (rm_xids m) a) /\ ar_x (astep a m) = rm_xids m).
Proof.
  intros Hn Hc. unfold astep. destruct (rm_kind m) as [v|v| | | | |f]; try discriminate; try congruence; cbn; rewrite ?turn_x; auto.
  - right. destruct (is_ins _); cbn; rewrite turn_x; auto.
  - destruct (f _) as [[w|]|]; auto; right; cbn; rewrite turn_x; auto.
Qed.

Section Step.
Context (y : rsys) (T : tinv y) (A : ainv y) (S : sync y).

Lemma not_committing r t : find_txn r (y_txns y) = Some t -> ~ committing t ->
  forall q, In q (y_txns y) -> committing q -> t_root q <> r.
Proof.
  intros Hf Hn q Hq Hc E. pose proof (find_txn_unique r _ _ (roots_nd _ T) Hq E). congruence.
Qed.

(** A transaction that is not committing is replaced. *)
Lemma keep_set r t t' : find_txn r (y_txns y) = Some t -> ~ committing t -> t_root t' = r ->
  forall q, In q (y_txns y) -> y_lock y = Some (t_root q) -> committing q ->
  exists q', In q' (set_txn t' (y_txns y)) /\ y_lock y = Some (t_root q') /\ committing q'.
Proof.
  intros Hf Hn Er q Hq Hl Hc. exists q. split; auto. apply set_txn_other; auto. rewrite Er.
  eapply not_committing; eauto.
Qed.

Lemma own_free q t : In t (y_txns y) -> t_root t = q -> own (sp_levels (spec_of (y_trace y)) q) <> None -> y_lock y = Some q.
Proof.
  intros Ht <- Ho. assert (D : y_lock y = Some (t_root t) \/ y_lock y <> Some (t_root t)).
  { destruct (y_lock y) as [z|]; [destruct (N.eq_dec z (t_root t)); [left|right]; congruence|right; congruence]. }
  destruct D as [|D]; auto. exfalso. apply Ho. apply (others_none y S); auto.
Qed.
End Step.

Lemma active_nc t : t_phase t = PActive -> ~ committing t.
Proof. intros H (todo & E). congruence. Qed.
Lemma abort_nc t n : t_phase t = PAbort n -> ~ committing t.
Proof. intros H (todo & E). congruence. Qed.

Lemma base_step y o y' : tinv y -> ainv y -> sync y -> sync y' -> base y -> rop_legal y o -> ids_left (y_ms y) ->
  rstep y o = Some y' -> base y'.
Proof.
  intros T A S S' B Hleg Hids E.
  destruct o as [ro rec|r|s|r|r|r|r w|r|r|r|r|r|r|r| |i|j s|j s]; cbn [rop_legal] in Hleg; cbn [rstep] in E.
  - destruct (mstep _ _) as [ms'|] eqn:Em; [|discriminate].
    destruct (begin_fx _ _ _ _ Em) as (x & os & Er & _ & _ & Ex & Es). rewrite Er, rev_app_distr in E. cbn [rev app r_xid r_snap] in E.
    assert (Hk : forall t, In t (y_txns y) -> y_lock y = Some (t_root t) -> committing t ->
       exists t', In t' (y_txns y ++ [mkRtxn x [mkLevel x []] TXNID_NONE PActive]) /\ y_lock y = Some (t_root t') /\ committing t').
    { intros t Ht Hl Hc. exists t. split; auto. apply in_app_iff. auto. }
    destruct os as [s|]; apply Some_inj in E; subst y'; unfold base; cbn [y_ms y_txns y_lock y_msgs y_copies y_obs y_trace note].
    + eapply base_quiet; [eapply base_quiet; [exact B|discriminate|exact Hk]|discriminate|]. intros t Ht Hl Hc. eauto.
    + eapply base_quiet; [exact B|discriminate|exact Hk].
  - destruct (mstep _ _) as [ms'|] eqn:Em; [|discriminate].
    destruct (childsnap_fx _ _ _ Em) as (s & _ & Ec & _ & Es). rewrite Ec, rev_app_distr in E. cbn [rev app snd] in E.
    apply Some_inj in E; subst y'. unfold base; cbn [y_ms y_txns y_lock y_msgs y_copies y_obs y_trace note with_ms].
    eapply base_quiet; [exact B|discriminate|]. intros t Ht Hl Hc. eauto.
  - destruct (mstep _ _) as [ms'|] eqn:Em; [|discriminate]. apply Some_inj in E; subst y'. exact B.
  - destruct (mstep _ _) as [ms'|] eqn:Em; [|discriminate]. apply Some_inj in E; subst y'. exact B.
  - destruct Hleg as (t & Hf & Hp & _). rewrite Hf in E. apply Some_inj in E; subst y'.
    unfold base; cbn [y_ms y_txns y_lock y_msgs y_copies y_obs y_trace note with_txn].
    eapply base_quiet; [exact B|discriminate|]. apply (keep_set y T r t); auto. apply active_nc; auto.
  - destruct Hleg as ((t & Hf & Hp) & Hl). apply Some_inj in E; subst y'.
    unfold base; cbn [y_ms y_txns y_lock y_msgs y_copies y_obs y_trace note lock].
    eapply base_txns; [exact B|]. intros q Hq Hlq Hc. exfalso.
    apply (not_committing y T r t Hf (active_nc _ Hp) q Hq Hc). destruct Hl; congruence.
  - (* a write *)
    destruct Hleg as ((t & Hf & Hp) & _ & Hl & _). destruct (mstep _ _) as [ms'|] eqn:Em; [|discriminate].
    rewrite Hf in E. apply Some_inj in E; subst y'. destruct (find_ok _ T _ _ Hf) as (Ht & Hr & K & _).
    unfold base; cbn [y_ms y_txns y_lock y_msgs y_copies y_obs y_trace note with_txn send lock with_ms].
    rewrite ideal_snoc. unfold base in B. unfold sync in S. set (I := ideal (y_msgs y) (length (y_msgs y))) in *.
    assert (Hn : non_opt (wmsg w) = true) by (destruct w; reflexivity).
    assert (Hc : wmsg w <> KCommit) by (destruct w; discriminate).
    destruct (astep_w I (mkRmsg (wmsg w) (chain t)) Hn Hc) as [->|[Ew Ex]].
    { eapply base_quiet; [exact B|discriminate|]. intros q Hq Hlq Hcq. exfalso.
      apply (not_committing y T r t Hf (active_nc _ Hp) q Hq Hcq). destruct Hl; congruence. }
    cbn [rm_xids] in Ew, Ex. destruct Hl as [Hl|Hl].
    + unfold turn in Ew. destruct (hd_eq (ar_x I) (chain t)) eqn:Eh; cbn [ar_w] in Ew.
      * destruct B as [(d & tr' & Etr & Ev & Ho)|(q & _ & Hq & _)]; [|congruence].
        left. exists (VWrite r w :: d), tr'. split; [cbn; congruence|]. split; [rewrite Ew; auto|].
        apply only_by_cons; [|discriminate]. eapply only_by_impl; [|exact Ho]. intros q Hq. rewrite Ex.
        destruct (ar_x I) as [|x X]; [discriminate|]. destruct (chain t) as [|c C]; [discriminate|]. cbn in *.
        apply N.eqb_eq in Hq, Eh. apply N.eqb_eq. congruence.
      * apply base_now. rewrite Ew. cbn [spec_of spec_step sp_val]. apply (e_val _ _ _ _ (q_none S Hl)).
    + apply base_now. rewrite Ew. cbn [spec_of spec_step sp_val]. subst r.
      destruct (q_hold S t Ht Hl) as [_ _ Hph]. rewrite Hp in Hph. apply (e_val _ _ _ _ (proj1 Hph)).
  - destruct Hleg as (t & Hf & Hp & _). rewrite Hf in E. apply Some_inj in E; subst y'.
    unfold base; cbn [y_ms y_txns y_lock y_msgs y_copies y_obs y_trace note with_txn].
    eapply base_quiet; [exact B|discriminate|]. apply (keep_set y T r t); auto. apply active_nc; auto.
  - destruct Hleg as (t & Hf & Hp). rewrite Hf in E. destruct (hd_error _); [|discriminate]. apply Some_inj in E; subst y'.
    unfold base; cbn [y_ms y_txns y_lock y_msgs y_copies y_obs y_trace note with_txn].
    eapply base_txns; [exact B|]. apply (keep_set y T r t); auto. apply active_nc; auto.
  - (* an abort message *)
    destruct Hleg as (t & n & Hf & Hp). rewrite Hf, Hp in E. apply Some_inj in E; subst y'.
    destruct (find_ok _ T _ _ Hf) as (Ht & Hr & K & _).
    unfold base; cbn [y_ms y_txns y_lock y_msgs y_copies y_obs y_trace note with_txn send].
    rewrite ideal_snoc. unfold sync in S. set (I := ideal (y_msgs y) (length (y_msgs y))) in *.
    apply base_now.
    assert (Ew : ar_w (astep I (mkRmsg KAbort (chain t))) = ar_w (turn (chain t) I)) by reflexivity.
    rewrite Ew. assert (Hlk : y_lock y = Some (t_root t)).
    { pose proof (k_phase _ _ _ K) as Hph. unfold phase_ok in Hph. rewrite Hp in Hph. destruct Hph as (l & ls & El & Hle).
      apply (k_ents _ _ _ K l); [rewrite El; left; auto|]. intros E0. rewrite E0 in Hle. cbn in Hle. lia. }
    destruct (q_hold S t Ht Hlk) as [_ _ Hph]. rewrite Hp in Hph. apply (e_val _ _ _ _ (proj1 Hph)).
  - (* abort done *)
    destruct Hleg as (t & Hf & Hp & _). rewrite Hf in E. destruct (t_levels t) as [|l [|l2 ls]] eqn:Elv; [discriminate|..].
    + unfold retire in E. destruct (mstep _ _) as [ms'|] eqn:Em; [|discriminate]. apply Some_inj in E; subst y'.
      unfold base; cbn [y_ms y_txns y_lock y_msgs y_copies y_obs y_trace note].
      eapply base_quiet; [exact B|discriminate|]. intros q Hq Hlq Hc.
      pose proof (not_committing y T r t Hf (abort_nc _ _ Hp) q Hq Hc) as Hne.
      exists q. split; [apply del_txn_in; auto|]. rewrite Hlq. destruct (N.eqb_spec (t_root q) r); [tauto|auto].
    + apply Some_inj in E; subst y'. unfold base; cbn [y_ms y_txns y_lock y_msgs y_copies y_obs y_trace note with_txn].
      eapply base_quiet; [exact B|discriminate|]. apply (keep_set y T r t); auto. eapply abort_nc; eauto.
  - destruct Hleg as (t & Hf & Hp & _). rewrite Hf in E. destruct (hd_error _) as [l|]; [|discriminate].
    apply Some_inj in E; subst y'. unfold base; cbn [y_ms y_txns y_lock y_msgs y_copies y_obs y_trace note with_txn].
    eapply base_txns; [exact B|]. apply (keep_set y T r t); auto. apply active_nc; auto.
  - (* a commit message *)
    destruct Hleg as (t & b & todo & Hf & Hp). rewrite Hf, Hp in E. apply Some_inj in E; subst y'.
    destruct (find_ok _ T _ _ Hf) as (Ht & Hr & K & _).
    set (t' := mkRtxn r (t_levels t) (t_last t) (PCommit todo)).
    assert (Hin : In t' (set_txn t' (y_txns y))).
    { apply set_txn_new. cbn [t_root t']. rewrite <- Hr. apply in_map. auto. }
    destruct b.
    + unfold base; cbn [y_ms y_txns y_lock y_msgs y_copies y_obs y_trace note with_txn send]. rewrite ideal_snoc.
      pose proof (k_phase _ _ _ K) as Hph. unfold phase_ok in Hph. rewrite Hp in Hph. destruct Hph as (l & El & Hle).
      assert (Hlk : y_lock y = Some (t_root t)).
      { apply (k_ents _ _ _ K l); [rewrite El; left; auto|]. intros E0. rewrite E0 in Hle. cbn in Hle. lia. }
      right. exists t'. split; auto. split; [cbn; congruence|]. split; [exists todo; auto|].
      unfold astep. cbn [rm_kind rm_xids]. unfold full at 2. cbn [ar_x ar_l ar_w]. rewrite lastnp_repeat.
      destruct (ar_x _); auto.
    + unfold base; cbn [y_ms y_txns y_lock y_msgs y_copies y_obs y_trace note with_txn].
      eapply base_txns; [exact B|]. intros q Hq Hlq Hc. destruct (N.eq_dec (t_root q) r) as [Eq|Hne].
      * exists t'. split; auto. split; [cbn; congruence|exists todo; auto].
      * exists q. split; auto. apply set_txn_other; auto.
  - (* commit done *)
    destruct Hleg as ((t & Hf & Hp) & Hno). destruct (find_ok _ T _ _ Hf) as (Ht & Hr & K & _).
    unfold retire in E. destruct (mstep _ _) as [ms'|] eqn:Em; [|discriminate]. apply Some_inj in E; subst y'.
    unfold base, sync in *; cbn [y_ms y_txns y_lock y_msgs y_copies y_obs y_trace note] in *.
    set (I := ideal (y_msgs y) (length (y_msgs y))) in *.
    assert (D : own (sp_levels (spec_of (y_trace y)) r) = None \/ own (sp_levels (spec_of (y_trace y)) r) <> None).
    { destruct (own _); [right; discriminate|left; auto]. }
    assert (Hv : y_lock y = Some r -> xval (whead (full I)) = sp_val (spec_of (VCommit r :: y_trace y))).
    { intros Hl. apply (e_val _ _ _ _ (q_none S' ltac:(rewrite Hl, N.eqb_refl; auto))). }
    destruct D as [D|D].
    + destruct B as [B|(q & Hq & Hlq & Hc & Ew)].
      * eapply (base_quiet _ (y_txns y) _ None); [left; exact B| |intros ? _ Hx; discriminate].
        intros q Eq. injection Eq as <-. exact D.
      * destruct (N.eq_dec (t_root q) r) as [Eq|Hne].
        { apply base_now. rewrite Ew. apply Hv. congruence. }
        eapply (base_quiet _ (y_txns y) _ (y_lock y)); [right; exists q; auto| |].
        -- intros z Ez. injection Ez as <-. exact D.
        -- intros z Hz Hlz Hcz. exists z. assert (t_root z <> r) by congruence. split; [apply del_txn_in; auto|].
           rewrite Hlz. destruct (N.eqb_spec (t_root z) r); [tauto|auto].
    + pose proof (own_free y S r t Ht Hr D) as Hl. subst r.
      destruct B as [(d & tr' & Etr & Ev & Ho)|(q & Hq & Hlq & Hc & Ew)].
      2: { apply base_now. rewrite Ew. apply Hv. congruence. }
      destruct (q_hold S t Ht Hl) as [_ _ Hph]. rewrite Hp in Hph. destruct Hph as (w & W0 & Els & _ & Ef).
      rewrite turn_full in Ef; [|apply (chain_ne y T); auto|apply S]. fold I in Ef.
      assert (Hw : w <> None) by (intros ->; apply D; rewrite Els; reflexivity).
      assert (Hfu : exists v, full I = mkUxr (t_root t) v :: W0).
      { rewrite Ef. destruct w as [[v|]|]; cbn; eauto. congruence. }
      destruct Hfu as (v & Hfu). assert (Dx : ar_x I = [] \/ exists x X, ar_x I = x :: X) by (destruct (ar_x I); eauto).
      destruct Dx as [Ex|(x & X & Ex)].
      { apply base_now. rewrite <- Hv by auto. unfold full. rewrite Ex. auto. }
      pose proof (full_push I x X Ex) as Hfp. destruct (lastnp (ar_l I)) eqn:El; cbn [pushl] in Hfp.
      3: { apply base_now. rewrite <- Hv by auto. rewrite Hfp. auto. }
      1,2: left; exists (VCommit (t_root t) :: d), tr'; (split; [cbn; congruence|]); (split; [auto|]);
        (apply only_by_cons; [auto|]); intros q Eq _; injection Eq as <-; rewrite Ex; cbn; apply N.eqb_eq; congruence.
  - apply Some_inj in E; subst y'. exact B.
  - destruct (nth_error (y_obs y) i) as [ob|]; [|discriminate]. apply Some_inj in E. subst y'.
    unfold base. cbn [y_ms y_txns y_lock y_msgs y_copies y_obs y_trace send]. rewrite ideal_snoc. exact B.
  - destruct (nth_error (y_copies y) j) as [[k le]|]; [|discriminate]. destruct (nth_error (y_msgs y) k) as [[m h]|]; [|discriminate].
    destruct (mk_gi _ _); [|discriminate]. destruct (row_apply _ _ _); [|discriminate]. apply Some_inj in E. subst y'. exact B.
  - destruct (nth_error (y_copies y) j) as [[k le]|]; [|discriminate].
    destruct (mk_gi _ _); [|discriminate]. destruct le; [|discriminate]. destruct (le_garbage_collect _ _); [|discriminate].
    apply Some_inj in E. subst y'. exact B.
Qed.

Lemma rreach_base last y : rreach last y -> base y.
Proof.
  induction 1 as [H|y o y' R IH Hl Hi E].
  - apply base_now. reflexivity.
  - destruct (rreach_inv _ _ R) as [T A]. eapply base_step; eauto; eapply rreach_sync; eauto. eapply rreach_step; eauto.
Qed.

(** * The reader *)

Lemma later_trans a b c : later a b -> later b c -> later a c.
Proof.
  intros (B1 & L1 & F1) (B2 & L2 & F2). split; [eapply before_trans; eauto|]. split; [lia|].
  intros x Hx. destruct (F2 x Hx) as [H|H]; [apply F1; auto|right; lia].
Qed.

Lemma rsteps_later last y y' : rsteps y y' -> rreach last y -> later (y_ms y) (y_ms y').
Proof.
  induction 1 as [y|y o y1 y' Hl Hi E R IH]; intros Hr; [apply later_refl|].
  destruct (rreach_inv _ _ Hr) as [T _]. destruct (step_keeps _ _ _ T E) as (_ & _ & La & _).
  eapply later_trans; [exact La|]. apply IH. eapply rreach_step; eauto.
Qed.

(** A transaction older than all that were running is over. *)
Lemma older_finished last y0 y x l L : rreach last y0 -> later (y_ms y0) (y_ms y) ->
  m_live (ms_mgr (y_ms y0)) = l :: L -> begun (ms_hist (y_ms y)) x -> x < l -> finished (ms_hist (y_ms y)) x.
Proof.
  intros R (B & _ & F) El Hb Hlt. destruct (rreach_inv _ _ R) as [T _]. pose proof (i_c _ (t_m T)) as C.
  assert (Hl : In l (live_of (ms_hist (y_ms y0)))) by (rewrite <- (c_live _ _ C), El; left; auto).
  assert (Hx : begun (ms_hist (y_ms y0)) x).
  { destruct (F x Hb) as [H|H]; auto. apply (c_live_iff _ _ C) in Hl. destruct Hl as [Hl _].
    apply begin_in_ids in Hl. apply (c_last _ _ C) in Hl. lia. }
  eapply before_in; [exact B|]. assert (D : finished (ms_hist (y_ms y0)) x \/ ~ finished (ms_hist (y_ms y0)) x).
  { unfold finished. destruct (in_dec (fun a b : event => ltac:(decide equality; try apply N.eq_dec; apply Bool.bool_dec) : {a = b} + {a <> b}) (EFinish x) (ms_hist (y_ms y0))); auto. }
  destruct D as [D|D]; auto. exfalso. assert (Hi : In x (live_of (ms_hist (y_ms y0)))) by (apply (c_live_iff _ _ C); auto).
  pose proof (c_live_sorted _ _ C) as Hs. rewrite <- (c_live _ _ C), El in Hi, Hs.
  destruct Hi as [->|Hi]; [lia|]. inversion Hs as [|? ? _ Hf]; subst. rewrite Forall_forall in Hf. apply Hf in Hi. lia.
Qed.

Section Reader.
Context (y : rsys) (T : tinv y) (A : ainv y) (S : sync y).
Let I := ideal (y_msgs y) (length (y_msgs y)).
Let tr := y_trace y.

(** The row's value for those who look at the row when its last sender is over, or
    when nothing is provisional. *)
Lemma cur_settled : (forall x X, ar_x I = x :: X -> finished (ms_hist (y_ms y)) x) \/ xval (cur I) = xval (whead (ar_w I)) ->
  xval (cur I) = sp_val (spec_of tr)
  \/ exists t, In t (y_txns y) /\ committing t /\ xval (cur I) = sp_val (spec_of (VCommit (t_root t) :: tr)).
Proof.
  intros H. assert (D : y_lock y = None \/ exists q, y_lock y = Some q) by (clear; destruct (y_lock y); eauto).
  assert (HI : awf I) by apply S.
  destruct D as [Hl|(q & Hl)]; [left; apply free_cur; auto|].
  assert (Hq : In q (map t_root (y_txns y))) by (apply (t_lock T); auto).
  apply in_map_iff in Hq. destruct Hq as (t & <- & Ht).
  destruct (q_hold S t Ht Hl) as [_ _ Hph]. fold I in Hph. pose proof (k_chain _ _ _ (t_all T t Ht)) as (D & ED & _).
  assert (Hst : settled (ms_hist (y_ms y)) (sp_val (spec_of tr)) (sp_frozen (spec_of tr)) (ar_w (turn (chain t) I)) ->
     xval (cur I) = sp_val (spec_of tr)).
  { intros Hs. unfold turn in Hs. destruct (hd_eq (ar_x I) (chain t)) eqn:Eh; cbn [ar_w] in Hs.
    - rewrite ED in Eh. destruct (hd_eq_cons _ _ _ Eh) as (X & EX). destruct H as [H| ->]; [|apply (e_val _ _ _ _ Hs)].
      exfalso. specialize (H _ _ EX). pose proof (find_txn_unique _ _ _ (roots_nd _ T) Ht eq_refl) as Hf.
      destruct (find_ok _ T _ _ Hf) as (_ & _ & _ & _ & _ & _ & _ & Hn). auto.
    - rewrite <- whead_full by auto. apply (e_val _ _ _ _ Hs). }
  destruct (t_phase t) as [|todo|n] eqn:Ep; [left; apply Hst; apply Hph| |left; apply Hst; apply Hph].
  right. exists t. split; auto. split; [exists todo; auto|]. destruct Hph as (w & W0 & Els & Hs & Ef).
  rewrite turn_full in Ef; [|apply (chain_ne y T); auto|auto]. rewrite <- whead_full by auto. rewrite Ef.
  cbn [spec_of spec_step sp_val]. fold tr in Els |- *. rewrite Els.
  destruct w as [[v|]|]; cbn; auto. apply (e_val _ _ _ _ Hs).
Qed.

(** The reader of a transaction that has written the row itself finds its write. *)
Lemma own_head r t : find_txn r (y_txns y) = Some t -> t_phase t = PActive -> own (sp_levels (spec_of tr) r) <> None ->
  y_lock y = Some r /\ exists X, ar_x I = r :: X.
Proof.
  intros Hf Hp Ho. destruct (find_ok _ T _ _ Hf) as (Ht & Hr & K & _). pose proof (own_free y S r t Ht Hr Ho) as Hl.
  split; auto. subst r. destruct (q_hold S t Ht Hl) as [_ _ Hph]. rewrite Hp in Hph. fold I tr in Hph. destruct Hph as [_ El].
  destruct (k_chain _ _ _ K) as (D & ED & _). destruct (hd_eq (ar_x I) (chain t)) eqn:Eh.
  - rewrite ED in Eh. apply hd_eq_cons in Eh. auto.
  - exfalso. apply Ho. unfold turn in El. rewrite Eh in El. cbn [ar_l] in El.
    assert (E : tox (own (sp_levels (spec_of tr) (t_root t))) = XPlace) by (rewrite <- lastnp_own, <- El; apply lastnp_repeat).
    destruct (own _) as [[|]|]; [discriminate|discriminate|auto].
Qed.
End Reader.

Lemma rca_read last y0 y r o : rreach last y0 -> rsteps y0 y -> active y r -> In (length (y_msgs y), o) (y_copies y) ->
  let tr := y_trace y in
  exists v, row_read C_READ_COMMITTED (mkReader TXNID_NONE (m_live (ms_mgr (y_ms y0))) r) o = Some v
  /\ (own (sp_levels (spec_of tr) r) <> None -> Some v = own (sp_levels (spec_of tr) r))
  /\ (own (sp_levels (spec_of tr) r) = None ->
       v = sp_val (spec_of tr)
       \/ (exists t, In t (y_txns y) /\ committing t /\ v = sp_val (spec_of (VCommit (t_root t) :: tr)))
       \/ (exists x d tr', tr = d ++ tr' /\ v = sp_val (spec_of tr') /\ only_by (eq x) d tr' /\ x <> r
            /\ begun (ms_hist (y_ms y)) x
            /\ (m_live (ms_mgr (y_ms y0)) = [] \/ exists l, In l (m_live (ms_mgr (y_ms y0))) /\ l <= x))).
Proof.
  intros R0 Hs (t & Hf & Hp) Hin tr. pose proof (rsteps_reach _ _ _ Hs R0) as R. pose proof (rsteps_later _ _ _ Hs R0) as La.
  destruct (rreach_inv _ _ R) as [T A]. pose proof (rreach_sync _ _ R) as S. pose proof (rreach_base _ _ R) as B.
  destruct (find_ok _ T _ _ Hf) as (Ht & Hr & K & _ & _ & _ & _ & Hnf).
  rewrite row_read_rca. set (rd := mkReader _ _ r). destruct (a_copies A _ _ Hin) as [_ Hc].
  set (I := ideal (y_msgs y) (length (y_msgs y))) in *.
  assert (Hcr : exists v, le_iterate (fun x => txn_reads_txnid x rd) (fun _ => true) (match o with Some u => u | None => ule_init_empty end) = Some v
    /\ ((exists x X, ar_x I = x :: X /\ txn_reads_txnid x rd = true /\ xval v = xval (cur I))
     \/ (exists x X, ar_x I = x :: X /\ finished (ms_hist (y_ms y)) x /\ xval v = xval (cur I))
     \/ (xval v = xval (whead (ar_w I)) /\ xval (cur I) = xval (whead (ar_w I)))
     \/ (exists x X, ar_x I = x :: X /\ txn_reads_txnid x rd = false /\ xval v = xval (whead (ar_w I))))).
  { destruct o as [u|]; destruct (crow_rca _ _ _ _ _ _ _ (fun x => txn_reads_txnid x rd) Hc (serves_all _)) as (v & E & H);
      (exists v; split; [exact E|]); destruct H as [H|[(x & X & E1 & [E2 _] & E3)|[H|H]]]; eauto 10. }
  destruct Hcr as (v & Ev & Hv). rewrite Ev. exists (xval v). split; auto.
  assert (Hlocked : own (sp_levels (spec_of tr) r) <> None -> Some (xval (cur I)) = own (sp_levels (spec_of tr) r)).
  { intros Ho. destruct (own_head y T S r t Hf Hp Ho) as [Hl _].
    unfold I. rewrite (locked_cur y r T A S Hl (ex_intro _ t (conj Hf Hp))). unfold sees. fold tr. destruct (own _); congruence. }
  assert (Hoh : own (sp_levels (spec_of tr) r) <> None -> exists X, ar_x I = r :: X) by (intros Ho; apply (own_head y T S r t Hf Hp Ho)).
  assert (Hself : txn_reads_txnid r rd = true).
  { unfold txn_reads_txnid. cbn [rd_live rd_snapshot rd_root rd]. rewrite N.eqb_refl, orb_true_r. destruct (_ && _); auto. }
  assert (Hfin : forall x X, ar_x I = x :: X -> finished (ms_hist (y_ms y)) x -> x <> r) by (intros; congruence).
  assert (Hcs : forall P, (forall x X, ar_x I = x :: X -> finished (ms_hist (y_ms y)) x) \/ xval (cur I) = xval (whead (ar_w I)) ->
     xval (cur I) = sp_val (spec_of tr)
       \/ (exists t, In t (y_txns y) /\ committing t /\ xval (cur I) = sp_val (spec_of (VCommit (t_root t) :: tr))) \/ P).
  { intros P H. destruct (cur_settled y T S H) as [E|E]; auto. }
  destruct Hv as [(x & X & Ex & Ha & Eq)|[(x & X & Ex & Ha & Eq)|[(Eq & Ec)|(x & X & Ex & Ha & Eq)]]].
  - (* the provisional value is accepted *)
    rewrite Eq. split; auto. intros Ho. destruct (N.eq_dec x r) as [->|Hne].
    + left. assert (Hsrc : src (y_msgs y) (length (y_msgs y)) r).
      { eapply ideal_src; [apply (a_log A)|auto|exact Ex]. }
      destruct (t_src T r Hsrc) as [|Hl]; [tauto|]. unfold I. rewrite (locked_cur y r T A S Hl (ex_intro _ t (conj Hf Hp))).
      unfold sees. fold tr. rewrite Ho. auto.
    + apply Hcs. left. intros x' X' E'. rewrite Ex in E'. injection E' as <- <-.
      assert (Hb : begun (ms_hist (y_ms y)) x).
      { assert (Hsrc : src (y_msgs y) (length (y_msgs y)) x) by (eapply ideal_src; [apply (a_log A)|auto|exact Ex]).
        destruct (src_hk _ _ _ _ _ (a_log A) (le_n _) Hsrc) as [Hb _]. eapply before_in; [|exact Hb].
        eapply hk_now; [apply (a_log A)|auto]. }
      unfold txn_reads_txnid in Ha. cbn [rd_live rd_snapshot rd_root rd] in Ha. unfold TXNID_NONE in Ha.
      destruct (N.eqb_spec x r); [congruence|].
      assert (H0 : 0 < x) by (apply (c_pos _ _ (i_c _ (t_m T))), (begin_in_ids _ _ _ Hb)).
      replace (x <? 0) with false in Ha by (symmetry; apply N.ltb_ge; lia).
      replace (0 <? x) with true in Ha by (symmetry; apply N.ltb_lt; lia).
      rewrite andb_false_r, orb_false_r in Ha. cbn [orb] in Ha.
      destruct (m_live (ms_mgr (y_ms y0))) as [|l L] eqn:El.
      * cbn in Ha. unfold TXNID_NONE in Ha. replace (x <? 0) with false in Ha by (symmetry; apply N.ltb_ge; lia). discriminate.
      * cbn in Ha. destruct (N.ltb_spec x l); [|discriminate]. eapply (older_finished last y0 y); eauto.
  - rewrite Eq. split.
    + intros Ho. apply Hlocked. auto.
    + intros Ho. apply Hcs. left. intros x' X' E'. rewrite Ex in E'. injection E' as <- <-. auto.
  - rewrite Eq, <- Ec. split; auto.
  - (* the provisional value is rejected *)
    rewrite Eq. assert (Hne : x <> r) by congruence. split.
    + intros Ho. destruct (Hoh Ho) as (X' & E'). congruence.
    + intros Ho. destruct B as [(d & tr' & Etr & Eb & Hby)|(q & Hq & Hlq & Hcq & Ew)].
      * right. right. exists x, d, tr'. split; auto. split; auto. split.
        { intros d1 q d2 E Hw. specialize (Hby d1 q d2 E Hw). fold I in Hby. cbn beta in Hby. rewrite Ex in Hby. cbn in Hby.
          apply N.eqb_eq in Hby. auto. }
        split; auto.
        assert (Hb : begun (ms_hist (y_ms y)) x).
        { assert (Hsrc : src (y_msgs y) (length (y_msgs y)) x) by (eapply ideal_src; [apply (a_log A)|auto|exact Ex]).
          destruct (src_hk _ _ _ _ _ (a_log A) (le_n _) Hsrc) as [Hb _]. eapply before_in; [|exact Hb].
          eapply hk_now; [apply (a_log A)|auto]. }
        split; auto.
        destruct (m_live (ms_mgr (y_ms y0))) as [|l L] eqn:El; auto. right. exists l. split; [left; auto|].
        unfold txn_reads_txnid in Ha. cbn in Ha. destruct (N.ltb_spec x l) as [Hlt|]; auto. exfalso.
        destruct (_ && _); discriminate.
      * assert (Ecur : xval (cur I) = xval (whead (ar_w I))).
        { fold I in Ew. rewrite Ew, whead_full by apply S. auto. }
        rewrite <- Ecur. apply Hcs. auto.
Qed.

(** ** Traces *)

Lemma own_write tr q : own (sp_levels (spec_of tr) q) <> None -> exists w, In (VWrite q w) tr.
Proof.
  induction tr as [|e tr IH]; cbn [spec_of]; [intros H; exfalso; apply H; reflexivity|].
  assert (Hk : own (sp_levels (spec_of tr) q) <> None -> exists w, In (VWrite q w) (e :: tr)).
  { intros H. destruct (IH H) as (w & Hw). exists w. right. auto. }
  destruct e as [r|r|r w|r|r|r|r|s]; cbn [spec_step sp_levels]; auto; unfold upd; destruct (N.eqb_spec q r) as [->|]; auto.
  all: try (intros _; exists w; left; auto; fail).
  all: try (cbn; congruence).
  - destruct (sp_levels (spec_of tr) r) as [|c [|p ls]] eqn:E; auto. destruct c as [c|]; [intros _; apply Hk; cbn; discriminate|].
    intros H. apply Hk. exact H.
  - intros H. apply Hk. destruct (sp_levels (spec_of tr) r) as [|[w|] ls]; cbn in *; auto. discriminate.
Qed.

Lemma only_by_none d tr : only_by (fun _ => False) d tr -> sp_val (spec_of (d ++ tr)) = sp_val (spec_of tr).
Proof.
  induction d as [|e d IH]; intros H; auto. cbn [app spec_of].
  assert (Hd : only_by (fun _ => False) d tr).
  { intros d1 q d2 E. apply (H (e :: d1) q d2). rewrite E. auto. }
  rewrite <- (IH Hd). destruct e as [r|r|r w|r|r|r|r|s]; cbn [spec_step sp_val]; auto. unfold sees.
  destruct (own (sp_levels (spec_of (d ++ tr)) r)) eqn:E; auto. exfalso. apply (H [] r d); auto. congruence.
Qed.
