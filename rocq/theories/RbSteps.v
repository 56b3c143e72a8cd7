(** Every operation on the rollback logs keeps the invariant and does what the specification
    says. *)
From Verif Require Import Base Bytes LogModel RbModel RbSpec RbProofs RbInv.
Open Scope N_scope.

Definition okst (s : rsys) (A : astate) : Prop :=
  exists fpf own, rinv (heap s) (cache s) (cache_max s) (txs s) A fpf own [].

Lemma rinv_ext h c cmax T A fpf own ext T' A' : (forall u, T' u = T u) -> (forall u, A' u = A u) ->
  rinv h c cmax T A fpf own ext -> rinv h c cmax T' A' fpf own ext.
Proof.
  intros ET EA []. constructor; auto.
  - intros u. rewrite ET, EA. auto.
  - intros u t p. rewrite ET. intros E P. rewrite ET. eauto.
Qed.

(** Adding one entry, which may include the nodes [fpn]. *)
Lemma save_ok s T id t a e fresh A fpf own fpn ext l :
  rinv (heap s) (cache s) (cache_max s) T A fpf own (fpn ++ ext) ->
  txs s id = Some t -> T id = Some t -> A id = Some a -> fresh_ok s fresh ->
  ents (heap s) [e] l fpn -> rb_fsize e <> None ->
  exists s' t' fpf' own', save_entry s id e fresh = Some s' /\
    rinv (heap s') (cache s') (cache_max s') (upd T id (Some t'))
      (aset A id (Some (mkA (a_parent a) (a_log a ++ l)))) fpf' own' ext /\
    (forall u, txs s' u = upd (txs s) id (Some t') u) /\ cache_max s' = cache_max s /\ wbs s' = wbs s /\
    t_parent t' = t_parent t /\
    (forall b', b' <> fresh -> heap s b' = None -> heap s' b' = None) /\
    (forall b', In b' ext -> heap s' b' = heap s b').
Proof.
  intros I ST TT AA FR E SZ. unfold save_entry. rewrite ST.
  destruct (node_ok s t fresh id a (cache_max s) T A fpf own (fpn ++ ext) I TT AA FR)
    as (s1 & t1 & b & n & f1 & o1 & NE & I1 & HB & TC & BZ & TS & WB & CM & PA & NN & HN & HE).
  rewrite NE. destruct (rb_fsize e) as [sz|] eqn:SE; [|congruence].
  set (t2 := mkRT (t_xid t1) (t_parent t1) (t_num t1) (t_head t1) (t_tail t1) (t_cur t1) (t_nents t1 + 1)).
  assert (I2 : rinv (heap s1) (cache s1) (cache_max s) (upd T id (Some t2)) A f1 o1 (fpn ++ ext)).
  { pose proof (v_tx _ _ _ _ _ _ _ _ I1) as VT. pose proof (v_par _ _ _ _ _ _ _ _ I1) as VP.
    destruct I1. constructor; auto.
    - intros u. specialize (VT u). unfold upd. unfold upd in VT. destruct (Nat.eqb_spec u id) as [EQ|]; [subst u|exact VT].
      rewrite AA in VT |- *. cbn in VT |- *. destruct VT as [P TX]. split; [exact P|].
      destruct TX as (ns & ls & fps & lc & fpc & TX). exists ns, ls, fps, lc, fpc. exact TX.
    - intros u tu p H P. assert (H' : exists tu', upd T id (Some t1) u = Some tu' /\ t_parent tu' = Some p).
      { unfold upd in H |- *. destruct (Nat.eqb_spec u id) as [EQ|]; [|eauto]. injection H as <-. exists t1. auto. }
      destruct H' as (tu' & H' & P'). destruct (VP u tu' p H' P') as [Q R]. split; [|exact R].
      unfold upd in *. destruct (Nat.eqb_spec p id); [discriminate|exact Q]. }
  assert (E1 : ents (heap s1) [e] l fpn).
  { eapply ents_frame; [exact E|]. intros b' IN. apply HE. apply in_app_iff. auto. }
  destruct (push_ok _ _ _ _ _ _ _ ext id t2 a b n [e] l fpn sz I2 (upd_same _ _ _) AA TC BZ HB E1)
    as (f2 & o2 & I3).
  { cbn [sizes]. rewrite SE. f_equal. lia. }
  cbn [app] in I3. set (n' := mkRN (n_xid n) (n_seq n) (n_prev n) (e :: n_ents n) (n_bytes n + sz)) in *.
  set (A' := aset A id (Some (mkA (a_parent a) (a_log a ++ l)))) in *.
  destruct (spill_ok s1 _ _ _ _ _ _ _ _ id t2 (mkA (a_parent a) (a_log a ++ l)) b n' I3 (upd_same _ _ _)) as (t3 & SP & PP & I4); auto.
  { unfold A', aset. now rewrite Nat.eqb_refl. }
  { unfold hset. now rewrite N.eqb_refl. }
  rewrite SP.
  eexists _, t3, f2, o2. split; [reflexivity|]. cbn [heap cache cache_max wbs txs set_txs set_heap].
  split; [|split; [|split; [|split; [|split; [|split]]]]].
  - rewrite CM. eapply rinv_ext; [|reflexivity|exact I4]. intros u. unfold upd. destruct (Nat.eqb u id); reflexivity.
  - intros u. unfold upd. rewrite TS. reflexivity.
  - exact CM.
  - exact WB.
  - rewrite PP. cbn. exact PA.
  - intros b' NF Z. unfold hset. destruct (N.eqb_spec b' b) as [->|].
    + specialize (HN b NF Z). congruence.
    + apply HN; auto.
  - intros b' IN. unfold hset. destruct (N.eqb_spec b' b) as [->|].
    + exfalso. assert (IE : In b (fpn ++ ext)) by (apply in_app_iff; auto).
      apply (v_ext _ _ _ _ _ _ _ _ I2) in IE.
      pose proof (v_tx _ _ _ _ _ _ _ _ I2 id) as VT. rewrite upd_same, AA in VT. destruct VT as [_ TX].
      destruct TX as (ns & ls & fps & lc & fpc & _ & _ & CU & _ & FP). unfold cur_ok, has_current in CU. cbn in CU.
      rewrite TC in CU. apply N.eqb_neq in BZ. unfold ROLLBACK_NONE in CU. rewrite BZ in CU. cbn in CU.
      destruct CU as (nd & fp & _ & _ & _ & _ & _ & -> & _).
      assert (OT : o1 b = OTx id) by (apply (v_own _ _ _ _ _ _ _ _ I2); rewrite FP; left; reflexivity). congruence.
    + apply HE. apply in_app_iff. auto.
Qed.

Theorem save_step s A id e fresh : okst s A -> allowed A s (Save id e fresh) ->
  exists s' a, save_entry s id e fresh = Some s' /\ A id = Some a /\
    okst s' (aset A id (Some (mkA (a_parent a) (a_log a ++ [e])))) .
Proof.
  intros (fpf & own & I) (LV & UN & FR). destruct (A id) as [a|] eqn:AA; [|congruence].
  pose proof (v_tx _ _ _ _ _ _ _ _ I id) as REL. rewrite AA in REL. destruct (txs s id) as [t|] eqn:TT; [|contradiction].
  destruct e as [cmd vs|]; [|contradiction]. cbn [is_undo] in UN.
  assert (E : ents (heap s) [ROp cmd vs] [ROp cmd vs] []) by (apply (ents_op _ cmd vs [] [] []); constructor).
  destruct (save_ok s (txs s) id t a (ROp cmd vs) fresh A fpf own [] [] [ROp cmd vs]) as (s' & t' & f' & o' & SE & I' & TS & CM & _); auto.
  exists s', a. split; [exact SE|]. split; [reflexivity|]. exists f', o'. eapply rinv_ext; [exact TS|reflexivity|exact I'].
Qed.

Lemma rinv_perm h c cmax T A fpf own ext ext' : (forall b, In b ext <-> In b ext') -> NoDup ext' ->
  rinv h c cmax T A fpf own ext -> rinv h c cmax T A fpf own ext'.
Proof.
  intros P N []. constructor; auto. intros b. rewrite <- P. auto.
Qed.

Lemma nents_ok h c cmax T A fpf own ext id t k : rinv h c cmax T A fpf own ext -> T id = Some t ->
  rinv h c cmax (upd T id (Some (mkRT (t_xid t) (t_parent t) (t_num t) (t_head t) (t_tail t) (t_cur t) k))) A fpf own ext.
Proof.
  intros I TT. set (t2 := mkRT (t_xid t) (t_parent t) (t_num t) (t_head t) (t_tail t) (t_cur t) k).
  pose proof (par_same T id t t2 TT eq_refl (v_par _ _ _ _ _ _ _ _ I)) as VP.
  pose proof (v_tx _ _ _ _ _ _ _ _ I) as VT. destruct I. constructor; auto.
  intros u. specialize (VT u). unfold upd. destruct (Nat.eqb_spec u id) as [EQ|]; [subst u|exact VT].
  rewrite TT in VT. destruct (A id); [|contradiction]. cbn in VT |- *. destruct VT as [P TX]. split; [exact P|].
  destruct TX as (ns & ls & fps & lc & fpc & TX). exists ns, ls, fps, lc, fpc. exact TX.
Qed.

Lemma aset_other A id x u : u <> id -> aset A id x u = A u.
Proof. unfold aset. intros H. destruct (Nat.eqb_spec u id); [contradiction|reflexivity]. Qed.
Lemma aset_same A id x : aset A id x id = x.
Proof. unfold aset. now rewrite Nat.eqb_refl. Qed.

Theorem commit_step s A id f1 f2 : okst s A -> allowed A s (Commit id f1 f2) ->
  exists s' a pid p, commit_child s id f1 f2 = Some s' /\ A id = Some a /\ a_parent a = Some pid /\ A pid = Some p /\
    okst s' (aset (aset A pid (Some (mkA (a_parent p) (a_log p ++ a_log a)))) id None).
Proof.
  intros (fpf & own & I) (NC & (a & AA & PA) & FR1 & FR2 & FNE).
  pose proof (v_tx _ _ _ _ _ _ _ _ I id) as REL. rewrite AA in REL. destruct (txs s id) as [t|] eqn:TT; [|contradiction].
  destruct REL as [PAR TX]. destruct (a_parent a) as [pid|] eqn:AP; [|congruence].
  destruct (v_par _ _ _ _ _ _ _ _ I id t pid TT PAR) as [PL PNE].
  destruct (txs s pid) as [pt|] eqn:PT; [|congruence].
  pose proof (v_tx _ _ _ _ _ _ _ _ I pid) as RELP. rewrite PT in RELP. destruct (A pid) as [pa|] eqn:PAA; [|contradiction].
  destruct (aside_ok _ _ _ _ _ _ _ id t a I TT AA NC) as (own0 & I0).
  pose proof (small_of _ _ _ _ _ _ _ _ id I) as SM. pose proof (v_ndf _ _ _ _ _ _ _ _ I id) as ND.
  pose proof (v_bytes _ _ _ _ _ _ _ _ I) as VB.
  destruct TX as (ns & ls & fps & lc & fpc & C & T0 & CU & AL & FP).
  assert (PNE' : (pid =? id)%nat = false) by (now apply Nat.eqb_neq).
  assert (NL : ns < 2 ^ 64).
  { rewrite FP in ND, SM. apply NoDup_app' in ND as (_ & N1 & _). apply Forall_app in SM as [_ S1].
    pose proof (chain_len _ _ _ _ _ _ _ C). pose proof (pigeon fps (2 ^ 63) N1 S1). lia. }
  assert (HS : has_spilled t = negb (ns =? 0)).
  { unfold has_spilled. f_equal. apply Bool.eq_true_iff_eq. rewrite !N.eqb_eq. apply (chain_b0 _ _ _ _ _ _ _ C). }
  assert (NUM : (if has_current t then pred64 (t_num t) else t_num t) = ns).
  { unfold cur_ok in CU. destruct (has_current t); [|tauto]. destruct CU as (nd & fp & _ & _ & _ & _ & _ & _ & ->).
    now apply pred64_succ. }
  rewrite FP in I0, ND. apply NoDup_app' in ND as (NDC & NDS & DJ).
  assert (I1 : rinv (heap s) (cache s) (cache_max s) (upd (txs s) id None) (aset A id None) (upd fpf id []) own0 (fps ++ fpc)).
  { eapply rinv_perm; [| |exact I0]; [intros b; rewrite !in_app_iff; tauto|].
    apply NoDup_app'. split; [exact NDS|]. split; [exact NDC|]. intros y I2 I3. apply (DJ y I3 I2). }
  unfold commit_child. rewrite TT. rewrite PAR. rewrite NUM.
  (* the spilled nodes *)
  assert (S1 : exists s1 p1 fa oa, (if has_spilled t then save_entry s pid (RIncl (t_xid t) ns (t_head t) (t_tail t)) f1 else Some s) = Some s1 /\
     rinv (heap s1) (cache s1) (cache_max s1) (upd (upd (txs s) id None) pid (Some p1))
       (aset (aset A id None) pid (Some (mkA (a_parent pa) (a_log pa ++ ls)))) fa oa fpc /\
     (forall u, txs s1 u = upd (txs s) pid (Some p1) u) /\
     fresh_ok s1 f2 /\ agree fpc (heap s) (heap s1)).
  { rewrite HS. destruct (N.eqb_spec ns 0) as [Z|NZ]; cbn [negb].
    - pose proof (chain_0' _ _ _ _ _ _ _ C Z) as (_ & -> & ->). cbn [app] in I1. rewrite app_nil_r.
      exists s, pt, (upd fpf id []), own0. split; [reflexivity|]. split.
      + eapply rinv_ext; [| |exact I1].
        * intros u. unfold upd. destruct (Nat.eqb_spec u pid) as [->|]; [|reflexivity]. now rewrite PNE', PT.
        * intros u. unfold aset. destruct (Nat.eqb_spec u pid) as [->|]; [|reflexivity]. rewrite PNE', PAA. now destruct pa.
      + split; [|split; [exact FR2|intros y _; reflexivity]].
        intros u. unfold upd. destruct (Nat.eqb_spec u pid) as [->|]; [exact PT|reflexivity].
    - assert (E : ents (heap s) [RIncl (t_xid t) ns (t_head t) (t_tail t)] ls fps).
      { pose proof (ents_incl (heap s) (t_xid t) ns (t_head t) (t_tail t) [] [] [] ls fps (ents_nil _) C NZ) as E.
        rewrite app_nil_r in E. exact E. }
      destruct (save_ok s (upd (txs s) id None) pid pt pa (RIncl (t_xid t) ns (t_head t) (t_tail t)) f1 (aset A id None)
                  (upd fpf id []) own0 fps fpc ls) as (s1 & p1 & fa & oa & SE & IA & TS & CM & WB & PP & HN & HE); auto.
      { rewrite upd_other; auto. }
      { rewrite aset_other; auto. }
      { discriminate. }
      exists s1, p1, fa, oa. split; [exact SE|]. split; [exact IA|]. split; [exact TS|]. split; [|exact HE].
      destruct FR2 as (Z & L & N). split; [exact Z|]. split; [exact L|]. apply HN; auto. }
  destruct S1 as (s1 & p1 & fa & oa & SE & IA & TS & FR & AG). rewrite SE. clear SE I1 I0.
  set (T1 := upd (upd (txs s) id None) pid (Some p1)) in *.
  set (A1 := aset (aset A id None) pid (Some (mkA (a_parent pa) (a_log pa ++ ls)))) in *.
  (* the entries of the current node *)
  assert (S2 : exists s2 p2 fb ob, (if has_current t then
              do p <- txs s1 pid;
              do (s', p1, pb, pn) <- node_for_entry s1 p f2;
              do cn <- pin s' (t_cur t);
              guard verify cn (t_xid t) (pred64 (t_num t));
              let pn' := mkRN (n_xid pn) (n_seq pn) (n_prev pn) (n_ents cn ++ n_ents pn)
                              (match n_ents cn with [] => n_bytes pn | _ => n_bytes pn + n_bytes cn end) in
              let '(h2, c2) := give_or_remove (hset (heap s') pb pn') (cache s') (cache_max s') (t_cur t) in
              do p2 <- maybe_spill s' p1 pb pn';
              Some (set_txs (set_heap s' h2 c2) pid (Some p2))
            else Some s1) = Some s2 /\
     rinv (heap s2) (cache s2) (cache_max s2) (upd T1 pid (Some p2))
       (aset A1 pid (Some (mkA (a_parent pa) (a_log pa ++ a_log a)))) fb ob [] /\
     (forall u, txs s2 u = upd (txs s1) pid (Some p2) u)).
  { unfold cur_ok in CU. destruct (has_current t) eqn:HC.
    - destruct CU as (cn & fp & HB & X & SQ & PV & E & -> & TN).
      rewrite TS, upd_same.
      destruct (node_ok s1 p1 f2 pid (mkA (a_parent pa) (a_log pa ++ ls)) (cache_max s1) T1 A1 fa oa (t_cur t :: fp))
        as (s' & p2 & pb & pn & fb & ob & NE & IB & HPB & TC & BZ & TS' & WB & CM & PP & NN & HN & HE); auto.
      { unfold T1. apply upd_same. }
      { unfold A1. apply aset_same. }
      rewrite NE. unfold pin.
      apply agree_cons in AG as [AB AG].
      assert (HC' : heap s' (t_cur t) = Some cn) by (rewrite HE by (left; reflexivity); congruence).
      rewrite HC'. unfold verify. rewrite X, pair_eqb_refl, TN, pred64_succ, SQ, N.eqb_refl by exact NL. cbn [andb].
      assert (E' : ents (heap s') (n_ents cn) lc fp).
      { eapply ents_frame; [exact E|]. intros y IN. rewrite HE by (right; exact IN). apply AG. exact IN. }
      apply NoDup_cons_iff in NDC as [NB NDP].
      assert (IB' : rinv (heap s') (cache s') (cache_max s1) (upd T1 pid (Some p2)) A1 fb ob (fp ++ [t_cur t])).
      { eapply rinv_perm; [| |exact IB].
        - intros b. rewrite in_app_iff. cbn. tauto.
        - apply NoDup_app'. split; [exact NDP|]. split; [repeat constructor; intros []|]. intros y IN [<-|[]]. contradiction. }
      assert (SZ : sizes (n_ents cn) = Some (n_bytes cn)) by (eapply VB; eauto).
      destruct (push_ok _ _ _ _ _ _ _ [t_cur t] pid p2 (mkA (a_parent pa) (a_log pa ++ ls)) pb pn (n_ents cn) lc fp (n_bytes cn) IB')
        as (fc & oc & IC); auto.
      { apply upd_same. }
      { unfold A1. apply aset_same. }
      assert (BY : n_bytes pn + n_bytes cn = match n_ents cn with [] => n_bytes pn | _ => n_bytes pn + n_bytes cn end).
      { destruct (n_ents cn); [|reflexivity]. cbn in SZ. injection SZ as <-. lia. }
      rewrite BY in IC.
      set (pn' := mkRN (n_xid pn) (n_seq pn) (n_prev pn) (n_ents cn ++ n_ents pn)
                       (match n_ents cn with [] => n_bytes pn | _ => n_bytes pn + n_bytes cn end)) in *.
      rewrite CM. destruct (give_or_remove (hset (heap s') pb pn') (cache s') (cache_max s1) (t_cur t)) as [h2 c2] eqn:G.
      destruct (give_ok _ _ _ _ _ _ _ _ _ h2 c2 IC G) as (od & ID).
      cbn [a_parent a_log] in ID. rewrite <- app_assoc, <- AL in ID.
      set (A2 := aset A1 pid (Some (mkA (a_parent pa) (a_log pa ++ a_log a)))) in *.
      assert (PBC : pb <> t_cur t).
      { intros EQ. assert (OE : ob (t_cur t) = OExt) by (apply (v_ext _ _ _ _ _ _ _ _ IB); left; reflexivity).
        pose proof (v_tx _ _ _ _ _ _ _ _ IB pid) as VT. rewrite upd_same in VT. unfold A1 in VT. rewrite aset_same in VT.
        destruct VT as [_ (ns' & ls' & fps' & lc' & fpc' & _ & _ & CU & _ & FP')]. unfold cur_ok, has_current in CU.
        rewrite TC in CU. pose proof BZ as BZ'. apply N.eqb_neq in BZ'. unfold ROLLBACK_NONE in CU. rewrite BZ' in CU. cbn in CU.
        destruct CU as (nd & fp' & _ & _ & _ & _ & _ & -> & _).
        assert (OT : ob pb = OTx pid) by (apply (v_own _ _ _ _ _ _ _ _ IB); rewrite FP'; left; reflexivity). congruence. }
      assert (HP2 : h2 pb = Some pn').
      { unfold give_or_remove in G. destruct (N.of_nat (length (cache s')) <? cache_max s1); injection G as <- <-;
          unfold hset, hdel; apply N.eqb_neq in PBC; rewrite PBC, N.eqb_refl; reflexivity. }
      destruct (spill_ok s' _ _ _ _ _ _ _ _ pid p2 (mkA (a_parent pa) (a_log pa ++ a_log a)) pb pn' ID) as (p3 & SP & PP3 & IE); auto.
      { apply upd_same. }
      { unfold A2. apply aset_same. }
      rewrite SP. eexists _, p3, fc, od. split; [reflexivity|]. cbn [heap cache cache_max txs set_txs set_heap].
      split.
      + rewrite CM. eapply rinv_ext; [|reflexivity|exact IE]. intros u. unfold upd. destruct (Nat.eqb u pid); reflexivity.
      + intros u. unfold upd. now rewrite TS'.
    - destruct CU as (-> & -> & TN). rewrite app_nil_r in AL.
      exists s1, p1, fa, oa. split; [reflexivity|]. split.
      + eapply rinv_ext; [| |exact IA].
        * intros u. unfold T1, upd. destruct (Nat.eqb u pid); reflexivity.
        * intros u. unfold A1, aset. destruct (Nat.eqb u pid); [now rewrite AL|reflexivity].
      + intros u. unfold upd. rewrite TS. unfold upd. destruct (Nat.eqb u pid); reflexivity. }
  destruct S2 as (s2 & p2 & fb & ob & SE & IB & TS2). cbv zeta in SE |- *. rewrite SE. rewrite TS2, upd_same.
  eexists _, a, pid, pa. split; [reflexivity|]. split; [exact AA|]. split; [exact AP|]. split; [exact PAA|].
  exists fb, ob. cbn [heap cache cache_max txs set_txs].
  pose proof (nents_ok _ _ _ _ _ _ _ _ pid p2 (t_nents p2 + t_nents t) IB (upd_same _ _ _)) as IC.
  eapply rinv_ext; [| |exact IC].
  - intros u. unfold upd, T1. unfold upd. rewrite TS2. unfold upd. rewrite TS. unfold upd.
    destruct (Nat.eqb_spec u id) as [->|NU].
    + destruct (Nat.eqb_spec id pid); [congruence|reflexivity].
    + destruct (Nat.eqb u pid); reflexivity.
  - intros u. unfold A1, aset. destruct (Nat.eqb_spec u id) as [->|NU]; [|destruct (Nat.eqb u pid); reflexivity].
    destruct (Nat.eqb_spec id pid); [congruence|reflexivity].
Qed.

(** Processing a log; [rstep] can only run out of the model's step budget. *)
Theorem finish_step s A id : okst s A -> no_child A id -> A id <> None ->
  exists a n, A id = Some a /\ forall fuel, (n <= fuel)%nat ->
    exists s', finish fuel s id = Done (s', rev (a_log a)) /\ okst s' (aset A id None).
Proof.
  intros (fpf & own & I) NC LV. destruct (A id) as [a|] eqn:AA; [|congruence].
  pose proof (v_tx _ _ _ _ _ _ _ _ I id) as REL. rewrite AA in REL. destruct (txs s id) as [t|] eqn:TT; [|contradiction].
  destruct REL as [PAR TX]. pose proof (small_of _ _ _ _ _ _ _ _ id I) as SM. pose proof (v_ndf _ _ _ _ _ _ _ _ I id) as ND.
  destruct (run_apply _ _ _ _ TX ND SM) as (n & RUN).
  exists a, n. split; [reflexivity|]. intros fuel LE.
  destruct (RUN fuel LE (cache s) (cache_max s)) as (h' & g & t' & R & HE & IG & NG & LG & CO).
  unfold finish. rewrite TT, R. cbn [abind]. rewrite CO. eexists. split; [reflexivity|].
  destruct (aside_ok _ _ _ _ _ _ _ id t a I TT AA NC) as (own0 & I0).
  exists (upd fpf id []), (fun y => if inb y g then OCache else if inb y (fpf id) then ONone else own0 y).
  cbn [heap cache cache_max txs set_txs set_heap].
  pose proof (v_ext _ _ _ _ _ _ _ _ I0) as VE.
  assert (AGR : forall l, (forall y, In y l -> ~ In y (fpf id)) -> agree l (heap s) h').
  { intros l D y IN. rewrite HE. unfold after. assert (NI := D y IN).
    assert (G : inb y g = false) by (apply inb_false; intros Z; apply NI, IG, Z). rewrite G.
    apply inb_false in NI. now rewrite NI. }
  constructor.
  - intros u. pose proof (v_tx _ _ _ _ _ _ _ _ I0 u) as VT. unfold upd in VT |- *.
    eapply rel_frame; [exact VT|]. apply AGR. intros y IN. destruct (Nat.eqb_spec u id) as [EQ|NU]; [destruct IN|].
    intros IN'. apply (v_own _ _ _ _ _ _ _ _ I) in IN, IN'. congruence.
  - intros u y. destruct (inb y g) eqn:G.
    + apply inb_in, IG in G. split; [|discriminate]. intros IN. unfold upd in IN. destruct (Nat.eqb_spec u id) as [EQ|NU]; [destruct IN|].
      apply (v_own _ _ _ _ _ _ _ _ I) in IN, G. congruence.
    + destruct (inb y (fpf id)) eqn:Y.
      * apply inb_in in Y. split; [|discriminate]. intros IN. unfold upd in IN. destruct (Nat.eqb_spec u id) as [EQ|NU]; [destruct IN|].
        apply (v_own _ _ _ _ _ _ _ _ I) in IN, Y. congruence.
      * apply (v_own _ _ _ _ _ _ _ _ I0).
  - intros y. rewrite in_app_iff. destruct (inb y g) eqn:G.
    + apply inb_in in G. tauto.
    + apply inb_false in G. rewrite (v_cache _ _ _ _ _ _ _ _ I0). destruct (inb y (fpf id)) eqn:Y; [|tauto].
      apply inb_in, VE in Y. split; [intros [Z|Z]; [congruence|contradiction]|discriminate].
  - intros y. split; [intros []|]. destruct (inb y g); [discriminate|]. destruct (inb y (fpf id)) eqn:Y; [discriminate|].
    apply inb_false in Y. intros O. apply VE in O. contradiction.
  - apply (v_ndf _ _ _ _ _ _ _ _ I0).
  - apply NoDup_app'. split; [apply (v_ndc _ _ _ _ _ _ _ _ I)|]. split; [exact NG|]. intros y IC IN.
    apply IG in IN. apply (v_own _ _ _ _ _ _ _ _ I) in IN. apply (v_cache _ _ _ _ _ _ _ _ I) in IC. congruence.
  - constructor.
  - intros y. rewrite HE. unfold after. destruct (inb y g); [split; discriminate|]. destruct (inb y (fpf id)); [tauto|].
    apply (v_dom _ _ _ _ _ _ _ _ I0).
  - intros y IN. rewrite HE. unfold after. destruct (inb y g) eqn:G; [exists empty_node; auto|].
    apply in_app_iff in IN as [IN|IN]; [|apply inb_in in IN; congruence].
    destruct (inb y (fpf id)) eqn:Y.
    + apply inb_in in Y. apply (v_own _ _ _ _ _ _ _ _ I) in Y. apply (v_cache _ _ _ _ _ _ _ _ I) in IN. congruence.
    + apply (v_unused _ _ _ _ _ _ _ _ I). exact IN.
  - intros y. rewrite HE. unfold after. destruct (inb y g) eqn:G.
    + intros _. apply (v_small _ _ _ _ _ _ _ _ I). apply (v_dom _ _ _ _ _ _ _ _ I).
      apply inb_in, IG in G. apply (v_own _ _ _ _ _ _ _ _ I) in G. congruence.
    + destruct (inb y (fpf id)); [tauto|]. apply (v_small _ _ _ _ _ _ _ _ I).
  - pose proof (v_len _ _ _ _ _ _ _ _ I). lia.
  - intros u tu p H P. apply (v_par _ _ _ _ _ _ _ _ I0 u tu p); [exact H|exact P].
  - intros y nd. rewrite HE. unfold after. destruct (inb y g); [intros Z; injection Z as <-; reflexivity|].
    destruct (inb y (fpf id)); [discriminate|]. apply (v_bytes _ _ _ _ _ _ _ _ I).
Qed.

Lemma begin_step s A id x p : okst s A -> allowed A s (Begin id x p) -> okst (begin_txn s id x p) (aset A id (Some (mkA p []))).
Proof.
  intros (fpf & own & I) (NL & PL).
  pose proof (v_tx _ _ _ _ _ _ _ _ I id) as REL. rewrite NL in REL. destruct (txs s id) eqn:TT; [contradiction|]. cbn in REL.
  exists fpf, own. unfold begin_txn. cbn [heap cache cache_max txs set_txs].
  pose proof (v_par _ _ _ _ _ _ _ _ I) as VP. pose proof (v_tx _ _ _ _ _ _ _ _ I) as VT.
  destruct I. constructor; auto.
  - intros u. unfold aset. destruct (Nat.eqb_spec u id) as [->|]; [|apply VT]. cbn. split; [reflexivity|].
    rewrite REL. exists 0, [], [], [], []. split; [constructor|]. split; [reflexivity|].
    split; [unfold cur_ok, has_current; cbn; auto|]. auto.
  - intros u tu q. destruct (Nat.eqb_spec u id) as [->|NU].
    + intros E. injection E as <-. cbn. intros ->. destruct PL as [PL NE].
      destruct (Nat.eqb_spec q id); [contradiction|]. split; [|exact NE].
      specialize (VT q). intros Z. rewrite Z in VT. destruct (A q); [contradiction|congruence].
    + intros E P. destruct (VP u tu q E P) as [Q R]. split; [|exact R]. destruct (Nat.eqb q id); [discriminate|exact Q].
Qed.

(** More fuel never changes a result. *)
Definition le_res {X} (r r' : ares X) : Prop := r = Fuel \/ r = r'.
Lemma abind_le {X Y} (r r' : ares X) (k k' : X -> ares Y) :
  le_res r r' -> (forall x, le_res (k x) (k' x)) -> le_res (abind r k) (abind r' k').
Proof. intros [->|<-] K; [left; reflexivity|]. destruct r; cbn; auto; [left|right]; reflexivity. Qed.
Lemma le_refl {X} (r : ares X) : le_res r r. Proof. right; reflexivity. Qed.

Lemma items_le f g : (forall h x n hd tl, le_res (f h x n hd tl) (g h x n hd tl)) ->
  forall l h, le_res (items f h l) (items g h l).
Proof.
  intros FG. induction l as [|e l IH]; intros h; cbn [items]; [apply le_refl|]. destruct e as [cmd vs|x n hd tl].
  - apply abind_le; [apply IH|]. intros [h' o]. apply le_refl.
  - apply abind_le; [apply FG|]. intros [h1 o1]. apply abind_le; [apply IH|]. intros [h2 o2]. apply le_refl.
Qed.

Lemma incl_loop_le f : forall g h x hd nx la fd, (f <= g)%nat -> le_res (incl_loop f h x hd nx la fd) (incl_loop g h x hd nx la fd).
Proof.
  induction f as [|f IH]; intros g h x hd nx la fd L; [left; reflexivity|]. destruct g as [|g]; [lia|].
  assert (L' : (f <= g)%nat) by lia. cbn [incl_loop]. destruct (nx =? ROLLBACK_NONE); [apply le_refl|].
  destruct (h nx) as [log|]; [|apply le_refl]. destruct (verify _ _ _); [|apply le_refl].
  apply abind_le.
  - apply items_le. intros h' x' n' hd' tl'. destruct (tl' =? ROLLBACK_NONE); [apply le_refl|]. now apply IH.
  - intros [h1 o1]. destruct (_ && _); [apply le_refl|]. destruct (_ && _); [apply le_refl|].
    apply abind_le; [now apply IH|]. intros [h2 o2]. apply le_refl.
Qed.

Lemma txn_loop_le f : forall g h c cm t nx la cu fd, (f <= g)%nat ->
  le_res (txn_loop f h c cm t nx la cu fd) (txn_loop g h c cm t nx la cu fd).
Proof.
  induction f as [|f IH]; intros g h c cm t nx la cu fd L; [left; reflexivity|]. destruct g as [|g]; [lia|].
  assert (L' : (f <= g)%nat) by lia. cbn [txn_loop]. destruct (nx =? ROLLBACK_NONE); [apply le_refl|].
  destruct (h nx) as [log|]; [|apply le_refl]. destruct (verify _ _ _); [|apply le_refl].
  apply abind_le.
  - apply items_le. intros h' x' n' hd' tl'. unfold apply_incl. destruct (tl' =? ROLLBACK_NONE); [apply le_refl|]. now apply incl_loop_le.
  - intros [h1 o1]. destruct (_ && _); [apply le_refl|]. cbv zeta. destruct (_ && _); [apply le_refl|].
    destruct (if n_prev log =? ROLLBACK_NONE then _ else _) as [h2 c2].
    apply abind_le; [now apply IH|]. intros [[[h3 c3] t3] o3]. apply le_refl.
Qed.

Lemma finish_le f g s id : (f <= g)%nat -> le_res (finish f s id) (finish g s id).
Proof.
  intros L. unfold finish. destruct (txs s id) as [t|]; [|apply le_refl]. apply abind_le.
  - unfold apply_txn. destruct (if has_current t then _ else _) as [nx cu]. now apply txn_loop_le.
  - intros [[[h c] t'] o]. apply le_refl.
Qed.

Theorem step_ok s A o : okst s A -> allowed A s o ->
  match o with
  | Finish id fuel => exists a n, A id = Some a /\
      (forall f, (n <= f)%nat -> exists s', rstep s (Finish id f) = Done (s', rev (a_log a)) /\ okst s' (aset A id None)) /\
      (rstep s o = Fuel \/ exists s', rstep s o = Done (s', rev (a_log a)) /\ okst s' (aset A id None))
  | _ => exists s' A', rstep s o = Done (s', []) /\ astep A o = Some (A', []) /\ okst s' A'
  end.
Proof.
  intros OK AL. destruct o as [id x p|id e b|id f1 f2|id fuel].
  - cbn [rstep astep]. eexists _, _. split; [reflexivity|]. split; [reflexivity|]. now apply begin_step.
  - destruct AL as (LV & U & F). destruct (save_step s A id e b OK) as (s' & a & SE & AA & OK'); [exact (conj LV (conj U F))|].
    cbn [rstep astep]. rewrite SE, AA. eexists _, _. split; [reflexivity|]. split; [reflexivity|]. exact OK'.
  - destruct (commit_step s A id f1 f2 OK AL) as (s' & a & pid & p & SE & AA & AP & PA & OK').
    cbn [rstep astep]. rewrite SE, AA, AP, PA. eexists _, _. split; [reflexivity|]. split; [reflexivity|]. exact OK'.
  - destruct AL as [NC LV]. destruct (finish_step s A id OK NC LV) as (a & n & AA & R).
    exists a, n. split; [exact AA|]. split; [exact R|]. cbn [rstep].
    destruct (finish_le fuel (Nat.max fuel n) s id) as [E|E]; [lia|left; exact E|].
    right. rewrite E. apply R. lia.
Qed.

Lemma init_ok cmax w : okst (rinit cmax w) (fun _ => None).
Proof.
  exists (fun _ => []), (fun _ => ONone). constructor; cbn; try discriminate; try tauto.
  all: try (intros; split; [tauto|discriminate]).
  all: try constructor; try lia.
Qed.

Lemma nfe_cmax s t f s' t' b n : node_for_entry s t f = Some (s', t', b, n) -> cache_max s' = cache_max s.
Proof.
  unfold node_for_entry. intros E. repeat match type of E with context [match ?x with _ => _ end] => destruct x; try discriminate end;
    injection E as <- <- <- <-; reflexivity.
Qed.
Lemma save_cmax s id e f s' : save_entry s id e f = Some s' -> cache_max s' = cache_max s.
Proof.
  unfold save_entry. intros E. destruct (txs s id); [|discriminate].
  destruct (node_for_entry s r f) as [[[[s1 t1] b] n]|] eqn:NE; [|discriminate]. apply nfe_cmax in NE.
  repeat match type of E with context [match ?x with _ => _ end] => destruct x; try discriminate end;
    injection E as <-; exact NE.
Qed.
Lemma step_cmax s o s' out : rstep s o = Done (s', out) -> cache_max s' = cache_max s.
Proof.
  destruct o as [id x p|id e b|id f1 f2|id fuel]; cbn [rstep].
  - intros E. injection E as <- <-. reflexivity.
  - destruct (save_entry s id e b) eqn:E; [|discriminate]. intros H. injection H as <- <-. eapply save_cmax; eassumption.
  - destruct (commit_child s id f1 f2) eqn:E; [|discriminate]. intros H. injection H as <- <-.
    unfold commit_child in E. destruct (txs s id) as [t|]; [|discriminate]. destruct (t_parent t) as [pid|]; [|discriminate].
    destruct (if has_spilled t then _ else _) as [s1|] eqn:E1; [|discriminate].
    assert (C1 : cache_max s1 = cache_max s).
    { destruct (has_spilled t); [eapply save_cmax; eassumption|injection E1 as <-; reflexivity]. }
    match type of E with context [match ?x with Some _ => _ | None => _ end] => destruct x as [s2|] eqn:E2; [|discriminate] end.
    destruct (txs s2 pid); [|discriminate]. injection E as <-. cbn [set_txs cache_max]. rewrite <- C1.
    destruct (has_current t); [|injection E2 as <-; reflexivity].
    destruct (txs s1 pid) as [rr|]; [|discriminate]. destruct (node_for_entry s1 rr f2) as [[[[s3 t1] pb] n]|] eqn:NE; [|discriminate].
    apply nfe_cmax in NE. rewrite <- NE. clear NE. cbv zeta in E2.
    repeat match type of E2 with context [match ?x with _ => _ end] => destruct x; try discriminate end; injection E2 as <-; reflexivity.
  - unfold finish. destruct (txs s id); [|discriminate]. destruct (apply_txn _ _ _ _ _) as [[[[h c] t'] o]| |]; cbn [abind]; try discriminate.
    destruct (complete_ok t'); [|discriminate]. intros E. injection E as <- <-. reflexivity.
Qed.

Theorem reached_ok cmax w s A : reached cmax w s A -> okst s A /\ cache_max s = cmax.
Proof.
  unfold reached. remember (rinit cmax w) as s0. remember (fun _ : nat => @None atxn) as A0.
  induction 1 as [s A|s A s1 A1 o s2 A2 out out' R IH AL ST AS]; subst.
  - split; [apply init_ok|reflexivity].
  - destruct IH as [OK CM]; auto.
    assert (CM2 : cache_max s2 = cache_max s1).
    { eapply step_cmax; eassumption. }
    split; [|congruence].
    pose proof (step_ok s1 A1 o OK AL) as SO. destruct o as [id x p|id e b|id f1 f2|id fuel].
    1-3: destruct SO as (s' & A' & E1 & E2 & OK'); rewrite E1 in ST; rewrite E2 in AS; injection ST as <- <-; injection AS as <- <-; exact OK'.
    destruct SO as (a & n & AA & _ & [E|(s' & E & OK')]); rewrite E in ST; [discriminate|]. injection ST as <- <-.
    cbn [astep] in AS. rewrite AA in AS. injection AS as <- <-. exact OK'.
Qed.
