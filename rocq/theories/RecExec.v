(** Histories of a system with crashes and recoveries. *)
From Coq Require Import Sorted.
From Verif Require Import Base UleModel MgrModel MvccModel MvccSpec RecModel RecSpec RecIdeal RecFiles RecSim RecBlock RecReplay
  RecRun RecSteps RecCkpt RecCrash RecRow RecLeaf.
Open Scope N_scope.

(** Values fit the 31 bits a leaf entry has for a length (ft/ule.cc). *)
Definition op_ok (o : sop) : Prop := match o with SWrite _ _ _ w => wkind_ok w | _ => True end.

(** The states a system can be in.  A crash leaves any prefix of the log that holds
    the flushed part.  The flag: recovery has run but its checkpoint is not complete;
    the environment is not yet open, so only the checkpoint makes steps
    (recover.cc:1629-1641). *)
Inductive exec : bool -> sys -> Prop :=
| ex_init : exec false sys_init
| ex_step s o s' : exec false s -> op_ok o -> step s o = Some s' -> exec false s'
| ex_crash s n s' : exec false s -> (y_flushed s <= n <= length (y_log s))%nat ->
    recover (crash n s) = Some s' -> exec true s'
| ex_ck s o s' : exec true s -> ck_op o = true -> step s o = Some s' -> exec (negb (is_ckend o)) s'.

Lemma Inv_init : Inv false sys_init ist_init.
Proof.
  split; [|split; [|split]].
  - split; cbn; auto; try lia.
    + split; [constructor|]. intros fn. reflexivity.
    + intros fn f. discriminate.
    + intros nm. exists 0%nat, []. auto with arith.
  - intros _. cbn. eauto.
  - discriminate.
  - intros _. exists [], ist_init, 0, [], [], []. split; cbn; auto; try lia.
    + split; cbn; repeat constructor; auto; lia.
    + intros nm v m [= <- <-]. reflexivity.
    + eauto.
    + eauto.
Qed.

(** * Values in the log *)

Lemma step_wk s o s' : op_ok o -> wkinds_ok (y_log s) -> step s o = Some s' -> wkinds_ok (y_log s').
Proof.
  intros Ho H E. unfold wkinds_ok in *.
  assert (A : forall l, Forall (fun x => match x with LEnq _ _ _ _ w => wkind_ok w | _ => True end) l ->
    Forall (fun x => match x with LEnq _ _ _ _ w => wkind_ok w | _ => True end) (y_log s ++ l)) by (intros l; rewrite Forall_app; auto).
  assert (St : forall r l p, Forall (fun x => match x with LEnq _ _ _ _ w => wkind_ok w | _ => True end) (still_recs r p l)).
  { intros r. induction l as [|a l IH]; intros p; cbn [still_recs]; constructor; auto. }
  destruct o; cbn [step] in E.
  - destruct (flook fn (y_files s)); [discriminate|]. cbn in E. destruct (name_open _ _); [discriminate|]. cbn in E.
    destruct (newest _ _) as [[v m]|]; [|discriminate]. injection E as <-. cbn [y_log]. apply A. repeat constructor.
  - destruct (flook fn (y_files s)); [|discriminate]. destruct (used_by _ _); [discriminate|]. cbn [negb] in E.
    destruct (match y_ck s with Some k => _ | None => _ end); [|discriminate]. injection E as <-. cbn [y_log]. apply A. repeat constructor.
  - destruct (_ <? _); [|discriminate]. injection E as <-. exact H.
  - destruct (memb _ _); [|discriminate]. injection E as <-. exact H.
  - destruct (memb _ _); [|discriminate]. injection E as <-. cbn [y_log]. apply A. repeat constructor.
  - destruct (find_pt _ _); [|discriminate]. injection E as <-. exact H.
  - destruct (find_pt _ _) as [t|]; [|discriminate]. destruct (pt_prep t); [discriminate|]. cbn [negb] in E.
    destruct (_ <? _)%nat; [|discriminate]. destruct (_ <? _); [|discriminate]. injection E as <-. cbn [y_log]. apply A. repeat constructor.
  - destruct (find_pt _ _) as [t|]; [|discriminate]. destruct (flook _ _) as [f|]; [|discriminate]. destruct (pt_prep t); [discriminate|]. cbn [negb] in E.
    destruct (lock_free _ _ _ _); [|discriminate]. destruct (put _ _ _ _) as [fs|]; [|discriminate]. injection E as <-. cbn [with_locks with_txns y_log]. apply A. repeat constructor. exact Ho.
  - destruct (find_pt _ _) as [t|]; [|discriminate]. destruct (commit_inner _ _ _ _ _) as [[ts fs]|]; [|discriminate].
    destruct (pt_child t =? _); injection E as <-; cbn [with_locks with_txns y_log]; apply A; repeat constructor.
  - destruct (find_pt _ _) as [t|]; [|discriminate]. destruct (abort_inner _ _ _ _ _) as [[ts fs]|]; [|discriminate].
    destruct (pt_child t =? _); injection E as <-; cbn [with_locks with_txns y_log]; apply A; repeat constructor.
  - destruct (find_pt _ _) as [t|]; [|discriminate]. destruct (_ =? _); [|discriminate]. destruct (pt_prep t); [discriminate|]. injection E as <-.
    cbn [with_txns y_log]. apply A. repeat constructor.
  - destruct (y_ck s); [discriminate|]. injection E as <-. cbn [y_log]. apply A. unfold ck_recs. constructor; [exact Logic.I|]. constructor; [exact Logic.I|].
    apply Forall_app. split; [apply Forall_map, Forall_forall; auto|]. apply Forall_flat_map, Forall_forall. intros t _. unfold still_of.
    destruct (pt_levels t) as [|l1 [|l2 ls]]; try apply St. destruct (pt_prep t); [repeat constructor|apply St].
  - destruct (y_ck s) as [k|]; [|discriminate]. destruct (find _ _); [|discriminate]. destruct (flook _ _); [|discriminate]. injection E as <-. exact H.
  - destruct (y_ck s) as [k|]; [|discriminate]. destruct (k_rb k); [|discriminate]. injection E as <-. exact H.
  - destruct (y_ck s) as [k|]; [|discriminate]. destruct (is_nil _); [|discriminate]. destruct (is_some _); [discriminate|]. injection E as <-. cbn [y_log]. apply A. repeat constructor.
  - injection E as <-. exact H.
Qed.

Lemma wk_firstn n l : wkinds_ok l -> wkinds_ok (firstn n l).
Proof. unfold wkinds_ok. rewrite <- (firstn_skipn n l) at 1. rewrite Forall_app. tauto. Qed.

Lemma exec_inv ph s : exec ph s -> wkinds_ok (y_log s) /\ exists I, Inv ph s I.
Proof.
  induction 1 as [|s o s' _ [W (J & IH)] Ho E|s n s' _ [W (J & IH)] Hn E|s o s' _ [W (J & IH)] Ho E].
  - split; [repeat constructor|exists ist_init; apply Inv_init].
  - split; [eapply step_wk; eauto|]. destruct (step_inv false s J o s' IH ltac:(discriminate) E) as (J' & IH'). eauto.
  - destruct (recover_inv _ _ _ IH Hn) as (s2 & J' & out & K & E2 & IH' & _ & _ & El & Hf & _). rewrite E in E2. injection E2 as <-. split; [|eauto].
    rewrite El. unfold wkinds_ok. rewrite !Forall_app. split; [apply (wk_firstn n _ W)|]. split; [|repeat constructor].
    eapply Forall_impl; [|exact Hf]. intros x (t & c & -> & _). exact Logic.I.
  - split; [eapply step_wk; eauto; destruct o; try discriminate Ho; exact Logic.I|].
    destruct (step_inv true s J o s' IH ltac:(auto) E) as (J' & IH'). eauto.
Qed.

(** * What the log says is not changed by recovery's own records *)

Lemma committed_tail nm k l out : Forall (fun x => exists r c, x = LAbort r c) out ->
  committed nm k (l ++ out ++ [LComment true]) = committed nm k l.
Proof.
  intros H. rewrite app_assoc. unfold committed. rewrite row_events_app. cbn [row_events]. rewrite app_nil_r.
  induction out as [|x out IH] using rev_ind; [now rewrite app_nil_r|]. apply Forall_app in H. destruct H as [H1 H2].
  apply Forall_cons_iff in H2. destruct H2 as [(r & c & ->) _]. rewrite app_assoc, row_events_app, rev_app_distr. cbn [row_events rev app].
  rewrite <- IH by auto. destruct (c =? 0); reflexivity.
Qed.

(** * Only committed transactions count *)

Definition ev_root (e : revent) : option txnid :=
  match e with
  | VBegin r | VChild r | VWrite r _ | VChildCommit r | VChildAbort r | VCommit r | VAbort r => Some r
  | VSnap _ => None
  end.
Definition keep (p : txnid -> bool) (e : revent) : bool := match ev_root e with Some r => p r | None => true end.

Lemma spec_keep p tr : (forall r, In (VCommit r) tr -> p r = true) ->
  sp_val (spec_of (filter (keep p) tr)) = sp_val (spec_of tr)
  /\ forall r, p r = true -> sp_levels (spec_of (filter (keep p) tr)) r = sp_levels (spec_of tr) r.
Proof.
  induction tr as [|e tr IH]; intros H; [auto|]. destruct IH as [V L]; [intros r Hr; apply H; right; auto|].
  cbn [filter]. destruct (keep p e) eqn:K.
  - cbn [spec_of]. destruct e; cbn [keep ev_root] in K; cbn [spec_step sp_val sp_levels];
      try (split; [exact V|]; intros q Hq; unfold MvccSpec.upd; rewrite ?V, ?(L _ K); destruct (N.eqb_spec q r); auto).
    + rewrite V, (L _ K). split; [auto|]. intros q Hq. unfold MvccSpec.upd. destruct (q =? r); auto.
    + auto.
  - cbn [spec_of]. destruct e; cbn [keep ev_root] in K; try discriminate K; cbn [spec_step sp_val sp_levels];
      try (split; [exact V|]; intros q Hq; unfold MvccSpec.upd; destruct (N.eqb_spec q r) as [E|E]; [subst q; congruence|auto]).
    rewrite (H r) in K by (left; auto). discriminate K.
Qed.

Lemma events_filter nm k p l : forall o,
  row_events nm k o (filter (fun x => match rec_root x with Some r => p r | None => true end) l) = filter (keep p) (row_events nm k o l).
Proof.
  induction l as [|x l IH]; intros o; [reflexivity|]. cbn [filter].
  destruct x as [last|b nf nx|fn nm'| |r c par has fts|r has fts|r c [par|]|r c|r c|r|fn nm'|fn nm'|fn r c k' w|b]; cbn [rec_root row_events]; try apply IH.
  - destruct (p r) eqn:P; cbn [row_events filter]; unfold keep at 1; cbn [ev_root]; rewrite P, IH; reflexivity.
  - destruct (p r) eqn:P; cbn [row_events filter]; unfold keep at 1; cbn [ev_root]; rewrite P, IH; reflexivity.
  - destruct (p r) eqn:P; cbn [row_events filter]; unfold keep at 1; destruct (c =? 0); cbn [ev_root]; rewrite P, IH; reflexivity.
  - destruct (p r) eqn:P; cbn [row_events filter]; unfold keep at 1; destruct (c =? 0); cbn [ev_root]; rewrite P, IH; reflexivity.
  - destruct (p r); cbn [row_events]; apply IH.
  - assert (Kw : keep p (VWrite r w) = p r) by reflexivity. rewrite filter_app.
    destruct (p r) eqn:P; cbn [row_events]; rewrite IH; destruct (nlook fn o) as [n|]; try reflexivity; destruct (_ && _); cbn [filter app]; rewrite ?Kw; reflexivity.
Qed.

Lemma events_commit nm k l r : forall o, In (VCommit r) (row_events nm k o l) -> has_commit l r = true.
Proof.
  unfold has_commit. induction l as [|x l IH]; intros o H; [destruct H|]. cbn [existsb]. apply orb_true_iff.
  destruct x as [last|b nf nx|fn nm'| |q c par has fts|q has fts|q c [par|]|q c|q c|q|fn nm'|fn nm'|fn q c k' w|b]; cbn [row_events] in H; try (right; eapply IH; exact H).
  - destruct H as [H|H]; [discriminate|right; eauto].
  - destruct H as [H|H]; [discriminate|right; eauto].
  - destruct H as [H|H]; [|right; eauto]. destruct (c =? 0); [|discriminate]. injection H as ->. rewrite N.eqb_refl. auto.
  - destruct H as [H|H]; [destruct (c =? 0); discriminate|right; eauto].
  - apply in_app_or in H. destruct H as [H|H]; [|right; eauto]. destruct (nlook fn o) as [n|]; [destruct (_ && _)|]; cbn in H; try tauto. destruct H as [H|[]]. discriminate.
Qed.

Lemma filter_rev' {A} (f : A -> bool) l : filter f (rev l) = rev (filter f l).
Proof.
  induction l as [|a l IH]; [reflexivity|]. cbn [rev filter]. rewrite filter_app, IH. cbn [filter].
  destruct (f a); cbn [rev]; [reflexivity|apply app_nil_r].
Qed.

(** Leaving out every transaction without a commit record changes no committed value. *)
Theorem committed_only nm k l : committed nm k (only_committed l) = committed nm k l.
Proof.
  unfold committed, only_committed. rewrite events_filter, <- filter_rev'.
  apply spec_keep. intros r Hr. apply in_rev in Hr. eapply events_commit; eauto.
Qed.

(** * What is stored *)

(** The content of a dictionary: of the open one, or of the newest version on disk. *)
Definition stored (s : sys) (nm : fname) : mlist :=
  match find (fun p => of_name (snd p) =? nm) (y_files s) with
  | Some p => of_msgs (snd p)
  | None => match newest (y_disk s) nm with Some (_, m) => m | None => [] end
  end.

Lemma stored_ok s I nm : Core s I -> stored s nm = i_cont I nm.
Proof.
  intros Co. unfold stored. destruct (find _ (y_files s)) as [[fn f]|] eqn:F.
  - apply find_some in F. destruct F as [F1 F2]. cbn in F2. apply N.eqb_eq in F2. cbn [snd]. rewrite (c_fc _ _ Co fn f); [congruence|].
    apply flook_intro; [apply (c_fm _ _ Co)|auto].
  - destruct (c_disk _ _ Co nm) as (v & m & -> & _ & H). apply H. intros fn f L En. exfalso.
    apply flook_In in L. apply (find_none _ _ F) in L. cbn in L. rewrite En, N.eqb_refl in L. discriminate.
Qed.

(** A reader begun in state [s]: its snapshot is newer than every id given out, the live
    list begins with the transactions there are (ft/txn/txn_manager.cc:517-575, 637-660). *)
Definition new_reader (s : sys) (rd : reader) : Prop :=
  y_last s < rd_snapshot rd /\ y_last s < rd_root rd
  /\ exists l, rd_live rd = map pt_root (y_txns s) ++ l /\ Forall (fun x => y_last s < x) l.

Lemma new_reader_reads s I rd x : Core s I -> new_reader s rd -> In x (i_used I) ->
  txn_reads_txnid x rd = negb (memb x (map pt_root (i_txns I))).
Proof.
  intros Co (Hs & Hr & l & El & Hl) Hx. pose proof (Core_wf _ _ Co) as W. pose proof (c_used _ _ Co) as U. rewrite Forall_forall in U, Hl.
  pose proof (U _ Hx) as Ux. pose proof (iw_sorted _ W) as So. pose proof (iw_pos _ W) as Po. pose proof (iw_used _ W) as Iu. rewrite Forall_forall in Po, Iu.
  rewrite (c_txns _ _ Co) in El. unfold txn_reads_txnid. rewrite El.
  assert (N1 : (x =? rd_root rd) = false) by (apply N.eqb_neq; lia). assert (N2 : (rd_snapshot rd <? x) = false) by (apply N.ltb_ge; lia).
  rewrite N1, N2. destruct (i_txns I) as [|t ts] eqn:Et; cbn [map app].
  - destruct l as [|y l]; cbn [oldest_in_live hd].
    + rewrite N.eqb_refl. replace (x <? rd_snapshot rd) with true by (symmetry; apply N.ltb_lt; lia). reflexivity.
    + assert (y_last s < y) by (apply Hl; left; auto). replace (x <? y) with true by (symmetry; apply N.ltb_lt; lia). cbn [orb].
      destruct (_ && _); reflexivity.
  - cbn [oldest_in_live hd]. assert (Pt : 0 < pt_root t) by (apply Po, Iu; left; auto).
    replace (pt_root t =? TXNID_NONE) with false by (symmetry; apply N.eqb_neq; unfold TXNID_NONE; lia). cbn [andb orb].
    rewrite orb_false_r. unfold in_live_list. rewrite app_comm_cons, existsb_app.
    assert (Xl : existsb (N.eqb x) l = false).
    { destruct (existsb (N.eqb x) l) eqn:E; [|reflexivity]. apply existsb_exists in E. destruct E as (y & Hy & E). apply N.eqb_eq in E. subst y. apply Hl in Hy. lia. }
    setoid_rewrite Xl. rewrite orb_false_r. cbn [map] in So. assert (Eb : existsb (N.eqb x) (pt_root t :: map pt_root ts) = memb x (pt_root t :: map pt_root ts)) by reflexivity.
    setoid_rewrite Eb. destruct (N.ltb_spec x (pt_root t)) as [L|L]; [|destruct (memb _ _); reflexivity].
    destruct (memb x (pt_root t :: map pt_root ts)) eqn:M; [|reflexivity]. exfalso. apply existsb_exists in M. destruct M as (y & Hy & E). apply N.eqb_eq in E. subst y.
    apply StronglySorted_inv in So. destruct So as [_ So]. rewrite Forall_forall in So. destruct Hy as [Hy|Hy]; [lia|]. apply So in Hy. lia.
Qed.

(** * Transactions in doubt *)

(** Prepared and neither committed nor aborted. *)
Definition in_doubt (log : list lrec) (r : txnid) : Prop :=
  exists l1 l2, log = l1 ++ LPrepare r :: l2 /\ ~ In (LCommit r 0) l2 /\ ~ In (LAbort r 0) l2.

Lemma in_doubt_snoc log x r : in_doubt (log ++ [x]) r <->
  x = LPrepare r \/ (in_doubt log r /\ x <> LCommit r 0 /\ x <> LAbort r 0).
Proof.
  split.
  - intros (l1 & l2 & E & N1 & N2). destruct l2 as [|y l2] using rev_ind.
    + apply app_inj_tail in E. destruct E as [_ ->]. auto.
    + clear IHl2. rewrite app_comm_cons, app_assoc in E. apply app_inj_tail in E. destruct E as [-> ->]. right. split.
      * exists l1, l2. split; [auto|]. split; intros X; [apply N1|apply N2]; apply in_or_app; auto.
      * split; intros ->; [apply N1|apply N2]; apply in_or_app; right; left; auto.
  - intros [->|((l1 & l2 & -> & N1 & N2) & X1 & X2)].
    + exists log, []. split; [auto|]. split; intros [].
    + exists l1, (l2 ++ [x]). rewrite <- app_assoc. split; [reflexivity|]. split; intros X; apply in_app_or in X; destruct X as [X|[X|[]]]; auto.
Qed.

Definition prep_at (ts : list ptxn) (r : txnid) : Prop := exists u, In u ts /\ pt_root u = r /\ pt_prep u = true.
Lemma prep_set ts t u r : find_pt (pt_root t) ts = Some u -> StronglySorted N.lt (map pt_root ts) -> pt_prep t = pt_prep u -> prep_at (set_pt t ts) r <-> prep_at ts r.
Proof.
  intros F So Ep. split; intros (v & Hv & Er & Hp).
  - apply set_pt_In in Hv. destruct Hv as [->|[Hv _]]; [|exists v; auto]. apply find_pt_some in F. exists u. split; [tauto|]. split; [destruct F; congruence|congruence].
  - destruct (N.eq_dec (pt_root v) (pt_root t)) as [E|E].
    + exists t. split; [|split; [congruence|]].
      * unfold set_pt. apply in_map_iff. exists v. rewrite E, N.eqb_refl. auto.
      * rewrite Ep. rewrite <- E in F. rewrite (sorted_find _ v So Hv) in F. injection F as <-. auto.
    + exists v. split; [|auto]. unfold set_pt. apply in_map_iff. exists v. apply N.eqb_neq in E. rewrite E. auto.
Qed.
Lemma prep_del ts q r : prep_at (del_pt q ts) r <-> prep_at ts r /\ r <> q.
Proof.
  split.
  - intros (v & Hv & Er & Hp). apply del_pt_In in Hv. destruct Hv. subst r. split; [exists v|]; auto.
  - intros [(v & Hv & Er & Hp) Hr]. exists v. rewrite del_pt_In. subst r. auto.
Qed.

Lemma in_doubt_ok log : forall K, irun ist_init log = Some K -> forall r, prep_at (i_txns K) r <-> in_doubt log r.
Proof.
  induction log as [|x log IH] using rev_ind; intros K E r.
  - injection E as <-. split; [intros (u & [] & _)|intros (l1 & l2 & H & _); destruct l1; discriminate].
  - rewrite irun_snoc in E. destruct (irun ist_init log) as [J|] eqn:EJ; [|discriminate]. specialize (IH J eq_refl r).
    assert (W : IWf J) by (eapply irun_wf; [apply IWf_init|exact EJ]). pose proof (iw_sorted _ W) as So. rewrite in_doubt_snoc, <- IH. clear IH.
    assert (Easy : i_txns K = i_txns J -> (forall q, x <> LPrepare q) -> (forall q c, x <> LCommit q c) -> (forall q c, x <> LAbort q c) ->
       (prep_at (i_txns K) r <-> x = LPrepare r \/ prep_at (i_txns J) r /\ x <> LCommit r 0 /\ x <> LAbort r 0)).
    { intros -> H1 H2 H3. split; [intros H; right; auto|]. intros [->|[H _]]; [destruct (H1 r eq_refl)|auto]. }
    assert (Tok : forall q t, find_pt q (i_txns J) = Some t -> txn_ok J t /\ pt_root t = q).
    { intros q t F. apply find_pt_some in F. pose proof (iw_txns _ W) as Wt. rewrite Forall_forall in Wt. split; [apply Wt|]; tauto. }
    destruct x as [last|b nf nx|fn nm'| |q c par has fts|q has fts|q c [p|]|q c|q c|q|fn nm'|fn nm'|fn q c k' w|[]]; cbn [istep] in E.
    + destruct (_ <=? _); [|discriminate]. destruct (forallb _ _); [|discriminate]. injection E as <-. apply Easy; [reflexivity|intros; discriminate..].
    + injection E as <-. apply Easy; [reflexivity|intros; discriminate..].
    + destruct (nlook _ _); [destruct (_ =? _); [|discriminate]|]; injection E as <-; (apply Easy; [reflexivity|intros; discriminate..]).
    + injection E as <-. apply Easy; [reflexivity|intros; discriminate..].
    + injection E as <-. apply Easy; [reflexivity|intros; discriminate..].
    + destruct (find_pt _ _); [|discriminate]. destruct (pt_prep _); [|discriminate]. injection E as <-. apply Easy; [reflexivity|intros; discriminate..].
    + destruct (find_inner _ _ _) as [t|] eqn:F; [|discriminate]. destruct (pt_prep t) eqn:Pt; [discriminate|]. cbn [negb] in E.
      destruct (_ <? c); [|discriminate]. destruct (c =? q); [discriminate|]. cbn [negb] in E.
      destruct (_ <? _)%nat; [|discriminate]. destruct (_ <? _); [|discriminate]. injection E as <-. cbn [i_txns].
      apply find_inner_some in F. destruct F as (F & _). rewrite (prep_set _ _ t) by (cbn; auto). split; [intros H; right; repeat split; auto; discriminate|].
      intros [X|[X _]]; [discriminate|auto].
    + destruct (c =? _); [|discriminate]. destruct (memb _ _); [discriminate|]. cbn [negb] in E.
      destruct (0 <? q); [|discriminate]. destruct (q <? _); [|discriminate]. injection E as <-. cbn [i_txns]. split.
      * intros (u & Hu & Er & Hp). apply ins_pt_In in Hu. destruct Hu as [->|Hu]; [discriminate Hp|]. right. split; [exists u; auto|split; discriminate].
      * intros [X|[(u & Hu & Er & Hp) _]]; [discriminate|]. exists u. rewrite ins_pt_In. auto.
    + destruct (find_inner _ _ _) as [t|] eqn:F; [|discriminate]. apply find_inner_some in F. destruct F as (F & _ & Er & Ec). destruct (Tok _ _ F) as [Tk _].
      pose proof (child_zero _ _ Tk) as Cz. destruct (pt_levels t) as [|l1 [|l2 ls]] eqn:El; [discriminate| |]; injection E as <-; cbn [iwith i_txns].
      * apply N.eqb_eq in Cz. rewrite Cz in Ec. subst c. rewrite prep_del. split.
        -- intros [H Hr]. right. split; [auto|]. split; [intros [= X]; auto|discriminate].
        -- intros [X|[H [H1 _]]]; [discriminate|]. split; [auto|]. intros ->. auto.
      * rewrite (prep_set _ _ t) by (auto; unfold merge_child; rewrite El; cbn; rewrite ?Er; auto).
        apply N.eqb_neq in Cz. split; [intros H; right; split; [auto|split; [intros [= _ X]; rewrite Ec in Cz; auto|discriminate]]|intros [X|[H _]]; [discriminate|auto]].
    + destruct (find_inner _ _ _) as [t|] eqn:F; [|discriminate]. apply find_inner_some in F. destruct F as (F & _ & Er & Ec). destruct (Tok _ _ F) as [Tk _].
      pose proof (child_zero _ _ Tk) as Cz. destruct (pt_levels t) as [|l1 [|l2 ls]] eqn:El; [discriminate| |]; injection E as <-; cbn [iwith i_txns is_nil].
      * apply N.eqb_eq in Cz. rewrite Cz in Ec. subst c. rewrite prep_del. split.
        -- intros [H Hr]. right. split; [auto|]. split; [discriminate|intros [= X]; auto].
        -- intros [X|[H [_ H1]]]; [discriminate|]. split; [auto|]. intros ->. auto.
      * rewrite (prep_set _ _ t) by (auto; unfold pop_level; cbn; rewrite ?Er; auto).
        apply N.eqb_neq in Cz. split; [intros H; right; split; [auto|split; [discriminate|intros [= _ X]; rewrite Ec in Cz; auto]]|intros [X|[H _]]; [discriminate|auto]].
    + destruct (find_inner _ _ _) as [t|] eqn:F; [|discriminate]. apply find_inner_some in F. destruct F as (F & Hin & Er & Ec). destruct (pt_prep t) eqn:Pt; [discriminate|]. cbn [negb] in E. injection E as <-.
      cbn [iwith i_txns]. split.
      * intros (u & Hu & Eu & Hp). apply set_pt_In in Hu. destruct Hu as [->|[Hu Hn]]; [left; cbn in Eu; congruence|]. right. split; [exists u; auto|split; discriminate].
      * intros [[= X]|[(u & Hu & Eu & Hp) _]].
        -- exists (mkPt q (pt_levels t) true). split; [|auto]. unfold set_pt. apply in_map_iff. exists t. cbn [pt_root]. rewrite Er, N.eqb_refl. auto.
        -- exists u. split; [|auto]. unfold set_pt. apply in_map_iff. exists u. cbn [pt_root]. destruct (N.eqb_spec (pt_root u) q) as [X|X]; [|auto].
           exfalso. rewrite <- X in F. rewrite (sorted_find _ u So Hu) in F. injection F as <-. congruence.
    + destruct (nlook _ _); [discriminate|]. cbn in E. destruct (existsb _ _); [discriminate|]. injection E as <-. apply Easy; [reflexivity|intros; discriminate..].
    + destruct (nlook _ _) as [n|]; [|discriminate]. destruct (n =? _); [|discriminate]. destruct (used_by _ _); [discriminate|]. injection E as <-. apply Easy; [reflexivity|intros; discriminate..].
    + destruct (find_inner _ _ _) as [t|] eqn:F; [|discriminate]. apply find_inner_some in F. destruct F as (F & Hin & Er & Ec). destruct (nlook _ _) as [n|]; [|discriminate]. destruct (pt_prep t) eqn:Pt; [discriminate|]. cbn [negb] in E.
      destruct (lock_free _ _ _ _); [|discriminate]. injection E as <-. cbn [iwith i_txns].
      rewrite (prep_set _ _ t) by (auto; unfold push_rent; destruct (pt_levels t); cbn; rewrite ?Er; auto).
      split; [intros H; right; repeat split; auto; discriminate|]. intros [X|[X _]]; [discriminate|auto].
    + injection E as <-. apply Easy; [reflexivity|intros; discriminate..].
    + injection E as <-. apply Easy; [reflexivity|intros; discriminate..].
Qed.
