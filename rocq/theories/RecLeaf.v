(** The leaf entry of a row after the messages the log stands for. *)
From Coq Require Import Sorted.
From Verif Require Import Base UleModel UleSpec UleWf MgrModel MgrProofs MvccModel MvccSpec StackProofs MvccGc MvccRow MvccApply
  MvccSys MvccSync MvccRead RecModel RecSpec RecIdeal RecRow.
From Verif Require MvccAsync.
Open Scope N_scope.

(** A gc_info that collects and promotes nothing (ft/txn/txn.h txn_gc_info); what
    garbage collection may do to a leaf entry is the subject of MvccModel.v. *)
Definition gi_none : gc_info := mkGcInfo None 0 0 true.
(** A leaf entry takes its messages (ft/node.cc:1376-1590). *)
Fixpoint leaf_run (o : option ule) (ms : list rmsg) : option (option ule) :=
  match ms with [] => Some o | m :: ms' => do o' <- row_apply m o gi_none; leaf_run o' ms' end.

Lemma leaf_run_app ms : forall o ms', leaf_run o (ms ++ ms') = do o' <- leaf_run o ms; leaf_run o' ms'.
Proof. induction ms as [|m ms IH]; intros o ms'; [reflexivity|]. cbn. destruct (row_apply m o gi_none); auto. Qed.

(** * Senders take turns *)

Definition is_commit (m : rmsg) : bool := match rm_kind m with KCommit => true | _ => false end.
(** Finished senders, the last sender, whether it has begun to commit. *)
Record turns := mkTurns { tu_done : list txnid; tu_last : option txnid; tu_clos : bool }.
Definition turns_init := mkTurns [] None false.

Inductive tstep (s : turns) (m : rmsg) : turns -> Prop :=
| t_same q X : tu_last s = Some q -> rm_xids m = q :: X -> (tu_clos s = true -> rm_kind m = KCommit) ->
    (rm_kind m = KCommit -> X = []) ->
    tstep s m (mkTurns (tu_done s) (Some q) (tu_clos s || is_commit m))
| t_next q X : tu_last s <> Some q -> ~ In q (tu_done s) -> rm_xids m = q :: X -> (rm_kind m = KCommit -> X = []) ->
    tstep s m (mkTurns (match tu_last s with Some p => p :: tu_done s | None => tu_done s end) (Some q) (is_commit m)).

Inductive tsteps : list rmsg -> turns -> Prop :=
| ts_nil : tsteps [] turns_init
| ts_snoc ms m s s' : tsteps ms s -> tstep s m s' -> tsteps (ms ++ [m]) s'.

Definition msg_ok (m : rmsg) : Prop := chain_ok (rm_xids m) /\ MvccAsync.kind_ok (rm_kind m) /\ rm_kind m <> KOpt.

Definition all_f (f : txnid -> bool) : Prop := True.
Definition no_one (x : txnid) : Prop := False.
Definition tsrc (s : turns) (x : txnid) : Prop := In x (tu_done s) \/ tu_last s = Some x.
Definition tfin (s : turns) (x : txnid) : Prop := In x (tu_done s).
Definition tclo (s : turns) (x : txnid) : Prop := In x (tu_done s) \/ (tu_last s = Some x /\ tu_clos s = true).
Definition CRO (s : turns) := crowo all_f no_one (tsrc s) (tfin s) (tclo s).

Lemma leaf_step s m s' o a : CRO s o a -> tstep s m s' -> msg_ok m -> (forall x, tu_last s = Some x -> ~ In x (tu_done s)) ->
  exists o', row_apply m o gi_none = Some o' /\ CRO s' o' (astep a m) /\ (forall x, tu_last s' = Some x -> ~ In x (tu_done s')).
Proof.
  intros C T (Hch & Hkd & Hno) Hnd.
  assert (HH : exists q X, rm_xids m = q :: X /\ tu_last s' = Some q /\ (forall x, tsrc s x -> tsrc s' x)
     /\ (forall x, tsrc s x -> x <> q -> tfin s' x) /\ ~ tfin s q /\ (tclo s q -> rm_kind m = KCommit)
     /\ (rm_kind m = KCommit -> tclo s' q /\ rm_xids m = [q]) /\ (forall x, tfin s x -> tfin s' x) /\ (forall x, tclo s x -> tclo s' x)
     /\ (forall x, tu_last s' = Some x -> ~ In x (tu_done s'))).
  { destruct T as [q X E1 E2 E3 E4|q X E1 E2 E3 E4]; exists q, X; unfold tsrc, tfin, tclo; cbn [tu_last tu_done tu_clos];
      (split; [assumption|]); (split; [reflexivity|]).
    - rewrite E1. split; [auto|]. split; [intros x [H|[= ->]] Hne; [auto|tauto]|]. split; [auto|].
      split; [intros [H|[_ H]]; [exfalso; apply (Hnd q); auto|auto]|]. split; [|split; [auto|split; [|intros x [= <-]; auto]]].
      + intros Ek. rewrite (E4 Ek) in E2. split; [|auto]. right. split; [auto|]. unfold is_commit. rewrite Ek. apply orb_true_r.
      + intros x [H|[[= <-] H]]; [auto|]. right. rewrite H. auto.
    - assert (Hin : forall x, In x (tu_done s) \/ tu_last s = Some x -> In x (match tu_last s with Some p => p :: tu_done s | None => tu_done s end)).
      { intros x [H|H]; [destruct (tu_last s); [right|]; auto|]. rewrite H. left. auto. }
      split; [intros x Hx; left; auto|]. split; [intros x Hx _; auto|]. split; [auto|].
      split; [intros [H|[H _]]; tauto|]. split; [|split; [auto|split; [intros x [H|[H _]]; auto|]]].
      + intros Ek. rewrite (E4 Ek) in E3. split; [|auto]. right. split; [auto|]. unfold is_commit. now rewrite Ek.
      + intros x [= <-] Hi. destruct (tu_last s) as [p|]; [|auto]. destruct Hi as [Hi|Hi]; [congruence|auto]. }
  destruct HH as (q & X & EX & El & Hsrc & Hfin & Hnf & Hclq & Hcom & Hfm & Hcm & Hnd').
  cut (exists o', row_apply m o gi_none = Some o' /\ CRO s' o' (astep a m)).
  { intros (o' & Ho & Hc). exists o'. auto. }
  destruct m as [kd Y]. cbn [rm_kind rm_xids] in *.
  assert (Hq : hd_eq [q] Y = true) by (rewrite EX; cbn; apply N.eqb_refl).
  assert (Hsq : tsrc s' q) by (right; auto).
  destruct (crow_unrow _ _ _ _ _ _ _ C) as [Cu Hru].
  assert (Hgo : forall kd' t, kind_type kd' = Some t -> kind_small kd' ->
     astep a (mkRmsg kd Y) = astep a (mkRmsg kd' Y) -> (kd' = KCommit <-> kd = KCommit) ->
     exists o', (do (o', _) <- le_apply_msg (mkUmsg t Y) o gi_none; Some o') = Some o' /\ CRO s' o' (astep a (mkRmsg kd Y))).
  { intros kd' t Ht Hks Ea Hiff.
    destruct (modify_ok all_f I no_one (tsrc s) (tfin s) (tclo s) no_one (tsrc s') (tfin s') (tclo s') (unrow o) a Y q kd' t)
      as (u1 & z & E1 & C1 & Hr1); auto.
    - intros Hc. apply Hiff. auto.
    - intros Hc. apply Hcom. apply Hiff. auto.
    - unfold le_apply_msg. change (match o with Some u => ule_reload u | None => ule_init_empty end) with (unrow o).
      rewrite E1. destruct (post_ok all_f no_one (tsrc s') (tfin s') (tclo s') u1 _ gi_none C1) as (u2 & E2 & C2).
      { unfold room in *. lia. }
      { reflexivity. }
      { intros x _ Hx. cbn in Hx. lia. }
      { intros x _ Hx. cbn in Hx. lia. }
      { discriminate. }
      rewrite E2. destruct (pack_ok all_f no_one (tsrc s') (tfin s') (tclo s') u2 _ C2) as (r & Er & Cr).
      rewrite Er. exists r. split; [auto|]. rewrite Ea. exact Cr. }
  assert (Hnone : kd = KDel \/ kd = KAbort \/ kd = KCommit -> o = None -> CRO s' None (astep a (mkRmsg kd Y))).
  { intros Hor ->. cbn [unrow] in Cu. unfold CRO. cbn [crowo].
    eapply (none_ok all_f no_one (tsrc s) (tfin s) (tclo s)); eauto. }
  unfold row_apply. cbn [rm_kind rm_xids].
  destruct kd as [v|v| | | | |f]; try congruence.
  + apply (Hgo (KIns v)); [reflexivity|exact Hkd|reflexivity|tauto].
  + apply (Hgo (KInsNo v)); [reflexivity|exact Hkd|reflexivity|tauto].
  + destruct o as [u|]; cbn [is_some]; [|exists None; split; [reflexivity|apply Hnone; auto]].
    apply (Hgo KDel); [reflexivity|exact I|reflexivity|tauto].
  + destruct o as [u|]; cbn [is_some]; [|exists None; split; [reflexivity|apply Hnone; auto]].
    apply (Hgo KAbort); [reflexivity|exact I|reflexivity|tauto].
  + destruct o as [u|]; cbn [is_some]; [|exists None; split; [reflexivity|apply Hnone; auto]].
    apply (Hgo KCommit); [reflexivity|exact I|reflexivity|tauto].
  + assert (Hlv : latest_val o = Some (xval (cur a))).
    { destruct (cur_ok all_f I no_one (unrow o) a) as (i & Hi & Ei); try apply Cu.
      unfold latest_val. destruct o as [u|]; cbn [unrow] in Hi.
      - assert (Hi' : ule_innermost u = Some i) by exact Hi. rewrite Hi', Ei. reflexivity.
      - cbn in Hi. injection Hi as <-. cbn in Ei. rewrite <- Ei. reflexivity. }
    rewrite Hlv. unfold astep in Hgo, Hnone |- *. cbn [rm_kind rm_xids] in Hgo |- *.
    destruct (f (xval (cur a))) as [[w|]|] eqn:Ef.
    * apply (Hgo (KIns w)); [reflexivity|eapply Hkd; eauto|reflexivity|split; discriminate].
    * apply (Hgo KDel); [reflexivity|exact I|reflexivity|split; discriminate].
    * exists o. split; [auto|]. unfold CRO. eapply crowo_mono; [..|exact C]; auto.
Qed.

Lemma leaf_build ms s : tsteps ms s -> Forall msg_ok ms ->
  exists o, leaf_run None ms = Some o /\ CRO s o (arows ms) /\ (forall x, tu_last s = Some x -> ~ In x (tu_done s)).
Proof.
  intros H. induction H as [|ms m s s' H IH T]; intros F.
  - exists None. split; [reflexivity|]. split; [apply crow_init|]. discriminate.
  - apply Forall_app in F. destruct F as [F1 F2]. apply Forall_cons_iff in F2. destruct F2 as [F2 _].
    destruct (IH F1) as (o & Eo & C & Hnd). destruct (leaf_step s m s' o _ C T F2 Hnd) as (o' & Eo' & C' & Hnd').
    exists o'. rewrite leaf_run_app, Eo. cbn [leaf_run]. rewrite Eo'. split; [auto|]. rewrite arows_app. auto.
Qed.

Lemma leaf_any ms s o rd : tsteps ms s -> Forall msg_ok ms -> leaf_run None ms = Some o ->
  row_read C_READ_ANY rd o = Some (xval (cur (arows ms))).
Proof.
  intros H F E. destruct (leaf_build ms s H F) as (o' & E' & C & _). rewrite E in E'. injection E' as <-.
  rewrite row_read_any.
  assert (Hc' : exists i, ule_innermost (match o with Some u => u | None => ule_init_empty end) = Some i /\ ux_xr i = cur (arows ms)).
  { destruct o as [u|]; destruct C as [W Hw Hlen _ _ _ Hrel]; (eapply (cur_ok all_f); [exact I|exact W|exact Hw|exact Hlen|exact Hrel]). }
  destruct Hc' as (i & -> & ->). auto.
Qed.
Lemma leaf_snap ms s o rd : tsteps ms s -> Forall msg_ok ms -> leaf_run None ms = Some o ->
  exists b, row_read C_READ_SNAPSHOT rd o = Some (xval b)
    /\ accepted_committed (fun x => txn_reads_txnid x rd) (full (arows ms)) = Some b.
Proof.
  intros H F E. destruct (leaf_build ms s H F) as (o' & E' & C & _). rewrite E in E'. injection E' as <-.
  rewrite row_read_snap. destruct o as [u|]; destruct (crow_iter _ _ _ _ _ _ _ (fun x => txn_reads_txnid x rd) C I I) as (r & b & E1 & E2 & E3);
    rewrite E1; exists b; rewrite E3; auto.
Qed.

(** * The messages of a row come in turns *)

Definition wkinds_ok (log : list lrec) : Prop :=
  Forall (fun x => match x with LEnq _ _ _ _ w => wkind_ok w | _ => True end) log.

Section Turns.
Context (nm : fname) (k : rkey).

Record TI (ms : list rmsg) (ts : list ptxn) (lk : option txnid) (used : list txnid) : Prop := {
  ti_turns : exists s, tsteps ms s
     /\ (forall x, In x (tu_done s) -> In x used /\ ~ In x (map pt_root ts))
     /\ (forall x, tu_last s = Some x -> In x used /\ (In x (map pt_root ts) -> lk = Some x /\ tu_clos s = false));
  ti_msgs : Forall msg_ok ms;
  ti_chain : Forall (fun t => chain_ok (pt_chain t)) ts;
  ti_w : forall x, In x (nonbottom (ar_w (arows ms))) -> In x used /\ ~ In x (map pt_root ts)
}.

(** The writers below after one message. *)
Lemma below_step A m q X : awf A -> rm_xids m = q :: X -> forall x, In x (nonbottom (ar_w (astep A m))) ->
  In x (nonbottom (ar_w A)) \/ (exists X', ar_x A = x :: X' /\ x <> q) \/ (x = q /\ rm_kind m = KCommit).
Proof.
  intros Ha Em x.
  assert (Hfull : In x (nonbottom (full A)) -> In x (nonbottom (ar_w A)) \/ exists X', ar_x A = x :: X').
  { unfold full. destruct (ar_x A) as [|y Y]; [auto|]. destruct (lastnp (ar_l A)); auto;
      rewrite nonbottom_cons by apply Ha; cbn; intros [<-|H]; eauto. }
  assert (Ht : In x (nonbottom (ar_w (turn (rm_xids m) A))) -> In x (nonbottom (ar_w A)) \/ (exists X', ar_x A = x :: X' /\ x <> q)).
  { unfold turn. destruct (hd_eq (ar_x A) (rm_xids m)) eqn:Eh; cbn [ar_w]; [auto|]. intros H. apply Hfull in H.
    destruct H as [H|(X' & H)]; [auto|]. right. exists X'. split; [auto|]. intros ->. rewrite H, Em in Eh. cbn in Eh. rewrite N.eqb_refl in Eh. discriminate. }
  unfold astep. destruct (rm_kind m) as [v|v| | | | |f].
  - cbn [aput ar_w]. tauto.
  - destruct (is_ins _); cbn [aput ar_w]; tauto.
  - cbn [aput ar_w]. tauto.
  - cbn [aput ar_w]. tauto.
  - cbn [ar_w]. unfold full at 1. rewrite turn_x, Em. destruct (lastnp _); rewrite <- ?Em; try tauto;
      (rewrite nonbottom_cons by (apply turn_awf; auto)); cbn; intros [<-|H]; tauto.
  - auto.
  - destruct (f _) as [[w|]|]; cbn [aput ar_w]; tauto.
Qed.

Lemma arows_awf ms : Forall msg_ok ms -> awf (arows ms).
Proof.
  induction ms as [|m ms IH] using rev_ind; intros F; [apply awf_init|]. apply Forall_app in F. destruct F as [F1 F2].
  apply Forall_cons_iff in F2. destruct F2 as [((Hn & _) & _) _]. rewrite arows_app. cbn [fold_left]. specialize (IH F1).
  assert (Ht := turn_awf (rm_xids m) _ IH). assert (Hx : ar_x (turn (rm_xids m) (arows ms)) <> []) by (rewrite turn_x; auto).
  unfold astep. destruct (rm_kind m) as [v|v| | | | |f]; auto using awf_put.
  - destruct (is_ins _); auto using awf_put.
  - split; cbn; [apply full_nonempty; apply Ht|now rewrite repeat_length].
  - destruct (f _) as [[w|]|]; auto using awf_put.
Qed.

(** Messages from the holder of the row lock. *)
Lemma ti_send ms ts lk used t m : TI ms ts lk used -> In t ts -> In (pt_root t) used -> lk = Some (pt_root t) ->
  (forall x X, ar_x (arows ms) = x :: X -> In x used /\ (In x (map pt_root ts) -> lk = Some x)) ->
  rm_xids m = pt_chain t -> (exists D, pt_chain t = pt_root t :: D) -> MvccAsync.kind_ok (rm_kind m) -> rm_kind m <> KOpt -> rm_kind m <> KCommit ->
  TI (ms ++ [m]) ts lk used.
Proof.
  intros [(s & T1 & T2 & T3) F C W] Ht Hu Hl Hx Em (D & ED) Hk Ho Hc.
  assert (Hm : msg_ok m). { split; [|auto]. rewrite Em. apply (proj1 (Forall_forall _ _) C). auto. }
  assert (Hr : In (pt_root t) (map pt_root ts)) by (apply in_map; auto).
  constructor.
  - destruct (holds_dec (tu_last s) (pt_root t)) as [El|El].
    + eexists. split; [eapply ts_snoc; [exact T1|]; eapply t_same with (X := D); [exact El|congruence|..]|].
      * destruct (T3 _ El) as [_ H]. destruct (H Hr) as [_ ->]. discriminate.
      * tauto.
      * cbn [tu_done tu_last tu_clos]. split; [auto|]. intros x [= <-]. split; [auto|]. intros _. split; [auto|].
        destruct (T3 _ El) as [_ H]. destruct (H Hr) as [_ ->]. unfold is_commit. destruct (rm_kind m); auto; congruence.
    + eexists. split; [eapply ts_snoc; [exact T1|]; eapply t_next with (X := D); [exact El|..|congruence|tauto]|].
      * intros Hi. apply T2 in Hi. tauto.
      * cbn [tu_done tu_last tu_clos]. split.
        -- intros x Hi. destruct (tu_last s) as [p|] eqn:Ep; [|auto]. destruct Hi as [<-|Hi]; [|auto].
           destruct (T3 _ eq_refl) as [H1 H2]. split; [auto|]. intros H. apply H2 in H. destruct H. congruence.
        -- intros x [= <-]. split; [auto|]. intros _. split; [auto|]. unfold is_commit. destruct (rm_kind m); auto; congruence.
  - apply Forall_app. auto.
  - auto.
  - intros x. rewrite arows_app. cbn [fold_left]. intros Hi.
    apply (below_step _ m (pt_root t) D) in Hi; [|apply arows_awf; auto|congruence].
    destruct Hi as [Hi|[(X' & EX & Hne)|[_ Hi]]]; [auto| |tauto].
    destruct (Hx _ _ EX) as [H1 H2]. split; [auto|]. intros H. apply H2 in H. congruence.
Qed.

Lemma ti_aborts n ms ts lk used t : TI ms ts lk used -> In t ts -> In (pt_root t) used -> lk = Some (pt_root t) ->
  (forall x X, ar_x (arows ms) = x :: X -> In x used /\ (In x (map pt_root ts) -> lk = Some x)) ->
  (exists D, pt_chain t = pt_root t :: D) ->
  TI (ms ++ repeat (mkRmsg KAbort (pt_chain t)) n) ts lk used.
Proof.
  revert ms. induction n as [|n IH]; intros ms T Ht Hu Hl Hx HD; cbn [repeat]; [now rewrite app_nil_r|].
  replace (ms ++ mkRmsg KAbort (pt_chain t) :: repeat (mkRmsg KAbort (pt_chain t)) n)
    with ((ms ++ [mkRmsg KAbort (pt_chain t)]) ++ repeat (mkRmsg KAbort (pt_chain t)) n) by (now rewrite <- app_assoc).
  apply IH; auto.
  - eapply ti_send; eauto; cbn; auto; discriminate.
  - intros x X. rewrite arows_app. cbn [fold_left astep rm_kind rm_xids aput ar_x]. rewrite turn_x. destruct HD as (D & HD).
    rewrite HD. intros [= <- _]. auto.
Qed.

(** The commit messages of a root, which is then gone. *)
Lemma ti_commits n : forall ms s ts used r, tsteps ms s -> Forall msg_ok ms -> chain_ok [r] ->
  (forall x, In x (tu_done s) -> In x used /\ x <> r /\ ~ In x (map pt_root ts)) ->
  (forall x, tu_last s = Some x -> In x used /\ (In x (map pt_root ts) -> x = r)) ->
  (forall x, In x (nonbottom (ar_w (arows ms))) -> In x used /\ (In x (map pt_root ts) -> x = r)) ->
  (forall x X, ar_x (arows ms) = x :: X -> In x used /\ (In x (map pt_root ts) -> x = r)) -> In r used ->
  exists s', tsteps (ms ++ repeat (mkRmsg KCommit [r]) n) s' /\ Forall msg_ok (ms ++ repeat (mkRmsg KCommit [r]) n)
   /\ (forall x, In x (tu_done s') -> In x used /\ x <> r /\ ~ In x (map pt_root ts))
   /\ (forall x, tu_last s' = Some x -> In x used /\ (In x (map pt_root ts) -> x = r))
   /\ (forall x, In x (nonbottom (ar_w (arows (ms ++ repeat (mkRmsg KCommit [r]) n)))) -> In x used /\ (In x (map pt_root ts) -> x = r)).
Proof.
  induction n as [|n IH]; intros ms s ts used r T F Hch Hd Hl Hw Hx Hu; cbn [repeat].
  - rewrite app_nil_r. exists s. auto.
  - replace (ms ++ mkRmsg KCommit [r] :: repeat (mkRmsg KCommit [r]) n)
      with ((ms ++ [mkRmsg KCommit [r]]) ++ repeat (mkRmsg KCommit [r]) n) by (now rewrite <- app_assoc).
    assert (Hm : msg_ok (mkRmsg KCommit [r])) by (split; [exact Hch|split; [exact I|discriminate]]).
    assert (Hs : exists s', tstep s (mkRmsg KCommit [r]) s'
       /\ (forall x, In x (tu_done s') -> In x used /\ x <> r /\ ~ In x (map pt_root ts))
       /\ (forall x, tu_last s' = Some x -> In x used /\ (In x (map pt_root ts) -> x = r))).
    { destruct (holds_dec (tu_last s) r) as [El|El].
      - eexists. split; [eapply t_same with (X := []); [exact El|reflexivity|auto..]|]. cbn. split; [auto|]. intros x [= <-]. auto.
      - eexists. split; [eapply t_next with (X := []); [exact El| |reflexivity|auto]|].
        + intros Hi. apply Hd in Hi. tauto.
        + cbn. split; [|intros x [= <-]; auto]. intros x Hi. destruct (tu_last s) as [p|] eqn:Ep; [|auto].
          destruct Hi as [<-|Hi]; [|auto]. destruct (Hl p eq_refl) as [H1 H2]. assert (Hne : p <> r) by congruence. split; [auto|]. split; [auto|]. intros Hin. apply Hne. auto. }
    destruct Hs as (s' & S1 & S2 & S3). apply (IH _ s'); auto.
    + eapply ts_snoc; eauto.
    + apply Forall_app. auto.
    + intros x. rewrite arows_app. cbn [fold_left]. intros Hi. apply (below_step _ _ r []) in Hi; [|apply arows_awf; auto|reflexivity].
      destruct Hi as [Hi|[(X' & EX & Hne)|[-> _]]]; eauto.
    + intros x X. rewrite arows_app. cbn [fold_left astep rm_kind rm_xids ar_x]. rewrite turn_x. intros [= <- _]. auto.
Qed.

Definition TIok (I : ist) : Prop := TI (rmsgs k (i_cont I nm)) (i_txns I) (i_locks I nm k) (i_used I).

(** The transactions change but none begins or ends. *)
Lemma ti_txns ms ts ts' lk used : TI ms ts lk used -> map pt_root ts' = map pt_root ts ->
  Forall (fun t => chain_ok (pt_chain t)) ts' -> TI ms ts' lk used.
Proof. intros [T F C W] E C'. constructor; rewrite ?E; auto. Qed.

Lemma chain_ok_prefix Y c : Y <> [] -> chain_ok (Y ++ [c]) -> chain_ok Y.
Proof.
  intros HY (_ & H2 & H3 & H4). split; [auto|]. split; [|split].
  - apply NoDup_remove_1 in H2. now rewrite app_nil_r in H2.
  - apply Forall_app in H3. tauto.
  - rewrite app_length in H4. cbn in H4. lia.
Qed.

Lemma ti_lock ms ts used r : TI ms ts None used -> TI ms ts (Some r) used.
Proof.
  intros [(s & T1 & T2 & T3) F C W]. constructor; auto. exists s. split; [auto|]. split; [auto|].
  intros x Hx. destruct (T3 x Hx) as [H1 H2]. split; [auto|]. intros Hi. apply H2 in Hi. destruct Hi. discriminate.
Qed.

Lemma ti_del ms ts lk used r : TI ms ts lk used ->
  TI ms (del_pt r ts) (match lk with Some q => if q =? r then None else Some q | None => None end) used.
Proof.
  assert (Hinr : forall x, In x (map pt_root (del_pt r ts)) -> In x (map pt_root ts) /\ x <> r).
  { intros x H. apply in_map_iff in H. destruct H as (u & <- & Hu). unfold del_pt in Hu. apply filter_In in Hu. destruct Hu as [H1 H2].
    split; [apply in_map; auto|]. apply negb_true_iff, N.eqb_neq in H2. auto. }
  intros [(s & T1 & T2 & T3) F C W]. constructor.
  - exists s. split; [auto|]. split.
    + intros x Hx. destruct (T2 x Hx). split; [auto|]. intros Hi. apply Hinr in Hi. tauto.
    + intros x Hx. destruct (T3 x Hx) as [H1 H2]. split; [auto|]. intros Hi. apply Hinr in Hi. destruct Hi as [Hi Hne].
      destruct (H2 Hi) as [-> ->]. destruct (N.eqb_spec x r); [tauto|auto].
  - auto.
  - apply del_pt_Forall. auto.
  - intros x Hx. destruct (W x Hx). split; [auto|]. intros Hi. apply Hinr in Hi. tauto.
Qed.

Lemma turns_step I o sp x I' : IWf I -> RowOk nm k I o sp -> TIok I ->
  match x with LEnq _ _ _ _ w => wkind_ok w | _ => True end -> istep I x = Some I' -> TIok I'.
Proof.
  intros W [Ho R] T Hw E.
  assert (Hsame : forall J, i_txns J = i_txns I -> i_cont J = i_cont I -> i_locks J = i_locks I ->
     i_used J = i_used I -> TIok J).
  { intros J E2 E3 E4 E5. unfold TIok. rewrite E2, E3, E4, E5. exact T. }
  assert (Huse : forall t, In t (i_txns I) -> In (pt_root t) (i_used I)).
  { intros t Ht. apply (proj1 (Forall_forall _ _) (iw_used _ W)). auto. }
  assert (HD : forall t, In t (i_txns I) -> exists D, pt_chain t = pt_root t :: D).
  { intros t Ht. destruct (chain_ne' I t (proj1 (Forall_forall _ _) (iw_txns _ W) t Ht)) as (D & ED & _). eauto. }
  destruct x as [last|b nf nx|fn n| |r c par has fts|r has fts|r c [p|]|r c|r c|r|fn n|fn n|fn r c k' w|[|]].
  - cbn [istep] in *. destruct (_ <=? _); [|discriminate]. destruct (forallb _ _); [|discriminate]. injection E as <-. apply Hsame; reflexivity.
  - injection E as <-. exact T.
  - cbn [istep] in *. destruct (nlook _ _); [destruct (_ =? _); [|discriminate]|]; injection E as <-; exact T.
  - injection E as <-. exact T.
  - injection E as <-. exact T.
  - cbn [istep] in *. destruct (find_pt _ _) as [t|]; [|discriminate]. destruct (pt_prep t); [|discriminate]. injection E as <-. exact T.
  - cbn [istep] in E. destruct (find_inner r p (i_txns I)) as [t|] eqn:F; [|discriminate].
    apply find_inner_some in F. destruct F as (F & Ht & Hr & _).
    destruct (negb (pt_prep t)); [|discriminate]. destruct (N.ltb_spec (i_clast I r) c) as [Hc|]; [|discriminate].
    destruct (N.eqb_spec c r) as [|Hcr]; [discriminate|]. cbn [negb] in E. destruct (Nat.ltb_spec (length (pt_levels t)) MAX_NESTED_TRANSACTIONS) as [Hlen|]; [|discriminate].
    destruct (N.ltb_spec (c + 2) (2 ^ 64)) as [Hc2|]; [|discriminate]. injection E as <-. unfold TIok. cbn [i_txns i_cont i_locks i_used].
    eapply ti_txns; [exact T|apply set_pt_roots|]. apply set_pt_Forall; [apply T|].
    pose proof (proj1 (Forall_forall _ _) (ti_chain _ _ _ _ T) t Ht) as (C1 & C2 & C3 & C4). cbv beta in *.
    destruct (chain_ne' I t (proj1 (Forall_forall _ _) (iw_txns _ W) t Ht)) as (D & ED & HDc). rewrite Hr in *.
    change (pt_chain (mkPt r (mkRl c [] [] :: pt_levels t) false)) with (pt_chain t ++ [c]). split; [|split; [|split]].
    + rewrite ED. discriminate.
    + apply NoDup_app_one; [auto|]. rewrite ED. intros [Hi|Hi]; [congruence|].
      pose proof (proj1 (Forall_forall _ _) HDc c Hi). cbv beta in *. lia.
    + apply Forall_app. split; [auto|]. constructor; [|auto]. unfold TXNID_NONE. lia.
    + rewrite app_length. unfold pt_chain. rewrite rev_length, map_length. unfold MAX_NESTED_TRANSACTIONS in Hlen. cbn [length]. lia.
  - cbn [istep] in E. destruct (c =? TXNID_NONE); [|discriminate]. destruct (memb r (i_used I)) eqn:Hm; [discriminate|].
    cbn [negb] in E. destruct (N.ltb_spec 0 r) as [H0|]; [|discriminate]. destruct (N.ltb_spec r TXNID_MAX) as [H1|]; [|discriminate].
    apply memb_false in Hm. injection E as <-. unfold TIok. cbn [i_txns i_cont i_locks i_used].
    assert (Hroots : forall x, In x (map pt_root (ins_pt (mkPt r [mkRl r [] []] false) (i_txns I))) -> x = r \/ In x (map pt_root (i_txns I))).
    { intros x Hi. apply in_map_iff in Hi. destruct Hi as (t & Er & Ht). apply ins_pt_In in Ht. destruct Ht as [->|Ht]; [left; auto|right].
      rewrite <- Er. apply in_map. auto. }
    destruct T as [(s & T1 & T2 & T3) F C Wn]. constructor.
    + exists s. split; [auto|]. split.
      * intros x Hx. destruct (T2 x Hx) as [G1 G2]. split; [right; auto|]. intros Hi. apply Hroots in Hi. destruct Hi as [->|Hi]; auto.
      * intros x Hx. destruct (T3 x Hx) as [G1 G2]. split; [right; auto|]. intros Hi. apply Hroots in Hi. destruct Hi as [->|Hi]; [tauto|auto].
    + auto.
    + apply ins_pt_Forall; [|auto]. cbn. split; [discriminate|]. split; [repeat constructor; auto|]. split; [|cbn; lia].
      constructor; [|constructor]. unfold TXNID_NONE, TXNID_MAX in *. lia.
    + intros x Hx. destruct (Wn x Hx) as [G1 G2]. split; [right; auto|]. intros Hi. apply Hroots in Hi. destruct Hi as [->|Hi]; auto.
  - cbn [istep] in E. destruct (find_inner r c (i_txns I)) as [t|] eqn:F; [|discriminate].
    pose proof (find_inner_some _ _ _ _ F) as (_ & Ht & Hr & Hc).
    pose proof (proj1 (Forall_forall _ _) (ti_chain _ _ _ _ T) t Ht) as Ck. cbv beta in Ck.
    destruct (pt_levels t) as [|l [|y ls]] eqn:Elv; [discriminate|..]; injection E as <-.
    + unfold TIok, iwith, isend. cbn [i_txns i_cont i_locks i_used]. rewrite rmsgs_app, rmsgs_commit. unfold release.
      destruct (holds_dec (i_locks I nm k) r) as [El|El].
      * assert (Ech : pt_chain t = [r]).
        { destruct (HD t Ht) as (D & ED). rewrite ED, Hr. f_equal. unfold pt_chain in ED. rewrite Elv in ED. cbn in ED. congruence. }
        rewrite Ech in *. destruct T as [(s & T1 & T2 & T3) Fm C Wn].
        assert (Hinr : forall x, In x (map pt_root (del_pt r (i_txns I))) -> In x (map pt_root (i_txns I)) /\ x <> r).
        { intros x H. apply in_map_iff in H. destruct H as (u & <- & Hu). unfold del_pt in Hu. apply filter_In in Hu. destruct Hu as [H1 H2].
          split; [apply in_map; auto|]. apply negb_true_iff, N.eqb_neq in H2. auto. }
        assert (Hrin : In r (map pt_root (i_txns I))) by (rewrite <- Hr; apply in_map; auto).
        set (n := length (filter (fun e => hits (i_open I) nm k e && en_del e) (rl_ents l))).
        destruct (ti_commits n (rmsgs k (i_cont I nm)) s (i_txns I) (i_used I) r T1 Fm Ck) as (s' & S1 & S2 & S3 & S4 & S5).
        { intros x Hx. destruct (T2 x Hx). repeat split; auto. congruence. }
        { intros x Hx. destruct (T3 x Hx) as [G1 G2]. split; [auto|]. intros Hi. apply G2 in Hi. destruct Hi. congruence. }
        { intros x Hx. destruct (Wn x Hx). split; [auto|]. tauto. }
        { intros x X Hx. destruct (ro_top _ _ _ _ _ _ _ _ _ R x X Hx) as [G1 G2]. split; [auto|]. intros Hi. apply G2 in Hi. congruence. }
        { rewrite <- Hr. auto. }
        constructor.
        -- exists s'. split; [exact S1|]. split.
           ++ intros x Hx. destruct (S3 x Hx) as (G1 & G2 & G3). split; [auto|]. intros Hi. apply Hinr in Hi. tauto.
           ++ intros x Hx. destruct (S4 x Hx) as (G1 & G2). split; [auto|]. intros Hi. apply Hinr in Hi. destruct Hi as [Hi Hne]. apply G2 in Hi. tauto.
        -- exact S2.
        -- apply del_pt_Forall. auto.
        -- intros x Hx. destruct (S5 x Hx) as (G1 & G2). split; [auto|]. intros Hi. apply Hinr in Hi. destruct Hi as [Hi Hne]. apply G2 in Hi. tauto.
      * rewrite no_hits2.
        { cbn [length repeat]. rewrite app_nil_r. apply ti_del. exact T. }
        apply no_hits. intros e He Hh. apply El. rewrite <- Hr. apply (ro_ents _ _ _ _ _ _ _ _ _ R t l e); auto. rewrite Elv. left. auto.
    + unfold TIok, iwith. cbn [i_txns i_cont i_locks i_used]. eapply ti_txns; [exact T|apply set_pt_roots|].
      apply set_pt_Forall; [apply T|]. unfold merge_child. rewrite Elv. unfold pt_chain in Ck. rewrite Elv in Ck. cbn [map rev] in Ck.
      apply chain_ok_prefix in Ck; [exact Ck|]. destruct (rev (map rl_xid ls)); discriminate.
  - cbn [istep] in E. destruct (find_inner r c (i_txns I)) as [t|] eqn:F; [|discriminate].
    pose proof (find_inner_some _ _ _ _ F) as (_ & Ht & Hr & Hc).
    pose proof (proj1 (Forall_forall _ _) (ti_chain _ _ _ _ T) t Ht) as Ck. cbv beta in Ck.
    destruct (pt_levels t) as [|l ls] eqn:Elv; [discriminate|]. injection E as <-.
    unfold TIok, iwith, isend. cbn [i_txns i_cont i_locks i_used]. rewrite rmsgs_app, rmsgs_abort.
    assert (T' : TI (rmsgs k (i_cont I nm) ++ repeat (mkRmsg KAbort (pt_chain t)) (length (filter (hits (i_open I) nm k) (rl_ents l))))
              (i_txns I) (i_locks I nm k) (i_used I)).
    { destruct (holds_dec (i_locks I nm k) r) as [El|El].
      - apply ti_aborts; auto; [congruence|]. apply (ro_top _ _ _ _ _ _ _ _ _ R).
      - rewrite no_hits; [cbn; rewrite app_nil_r; exact T|]. intros e He Hh. apply El. rewrite <- Hr.
        apply (ro_ents _ _ _ _ _ _ _ _ _ R t l e); auto. rewrite Elv. left. auto. }
    destruct ls as [|l2 ls]; cbn [is_nil].
    + unfold release. apply ti_del. exact T'.
    + eapply ti_txns; [exact T'|apply set_pt_roots|]. apply set_pt_Forall; [apply T|]. unfold pop_level, pt_chain. cbn [pt_levels].
      unfold pt_chain in Ck. rewrite Elv in *. cbn [tl map rev] in *. apply chain_ok_prefix in Ck; [exact Ck|].
      destruct (rev (map rl_xid ls)); discriminate.
  - cbn [istep] in *. destruct (find_inner r TXNID_NONE (i_txns I)) as [t|] eqn:F; [|discriminate].
    pose proof (find_inner_some _ _ _ _ F) as (_ & Ht & Hr & _). destruct (negb (pt_prep t)); [|discriminate]. injection E as <-.
    unfold TIok, iwith. cbn [i_txns i_cont i_locks i_used]. eapply ti_txns; [exact T|apply set_pt_roots|].
    apply set_pt_Forall; [apply T|]. apply (proj1 (Forall_forall _ _) (ti_chain _ _ _ _ T) t Ht).
  - cbn [istep] in *. destruct (nlook fn (i_open I)); [discriminate|]. cbn [is_some negb] in E. destruct (negb _); [|discriminate].
    injection E as <-. apply Hsame; reflexivity.
  - cbn [istep] in *. destruct (nlook fn (i_open I)) as [m|]; [|discriminate]. destruct (m =? n); [|discriminate].
    destruct (used_by fn (i_txns I)); [discriminate|]. injection E as <-. apply Hsame; reflexivity.
  - cbn [istep] in E. destruct (find_inner r c (i_txns I)) as [t|] eqn:F; [|discriminate].
    apply find_inner_some in F. destruct F as (F & Ht & Hr & _). destruct (nlook fn (i_open I)) as [n|] eqn:En; [|discriminate].
    destruct (negb (pt_prep t)); [|discriminate]. destruct (lock_free r n k' (i_locks I)) eqn:Hlf; [|discriminate].
    injection E as <-. unfold TIok, iwith, isend. cbn [i_txns i_cont i_locks i_used]. rewrite rmsgs_app, rmsgs_one.
    assert (Et : to_row (i_open I) nm k fn k' = (n =? nm) && rkey_eqb k' k) by (unfold to_row; now rewrite En).
    rewrite Et. unfold take. rewrite (N.eqb_sym nm n).
    assert (Hsym : rkey_eqb k k' = rkey_eqb k' k) by (destruct (rkey_eqb_spec k k'), (rkey_eqb_spec k' k); congruence).
    rewrite Hsym.
    assert (Hch : Forall (fun t0 => chain_ok (pt_chain t0)) (set_pt (push_rent (mkEnt fn k' (went w)) t) (i_txns I))).
    { apply set_pt_Forall; [apply T|]. rewrite push_rent_chain. apply (proj1 (Forall_forall _ _) (ti_chain _ _ _ _ T) t Ht). }
    destruct ((n =? nm) && rkey_eqb k' k) eqn:Hit.
    + apply andb_prop in Hit. destruct Hit as [H1 H2]. apply N.eqb_eq in H1. destruct (rkey_eqb_spec k' k) as [->|]; [|discriminate].
      subst n. assert (Hlk : i_locks I nm k = None \/ i_locks I nm k = Some r).
      { unfold lock_free in Hlf. destruct (i_locks I nm k) as [q|]; [|auto]. right. f_equal. apply N.eqb_eq in Hlf. auto. }
      assert (T1 : TI (rmsgs k (i_cont I nm)) (i_txns I) (Some r) (i_used I)).
      { destruct Hlk as [El|El]; unfold TIok in T; rewrite El in T; [apply ti_lock|]; exact T. }
      assert (R1 : RI nm k (i_open I) (i_txns I) (row_of nm k I) (Some r) (i_used I) (i_clast I) sp).
      { rewrite <- Hr in *. apply (ri_lock nm k I); auto. }
      eapply ti_txns; [|apply set_pt_roots|exact Hch].
      apply (ti_send _ _ _ _ t); auto; try (destruct w; discriminate).
      * congruence.
      * apply (ro_top _ _ _ _ _ _ _ _ _ R1).
      * destruct w; exact Hw.
    + rewrite app_nil_r. eapply ti_txns; [exact T|apply set_pt_roots|exact Hch].
  - cbn [istep] in *. injection E as <-. apply Hsame; reflexivity.
  - injection E as <-. exact T.
Qed.

Theorem turns_run log : forall I, wkinds_ok log -> irun ist_init log = Some I -> TIok I.
Proof.
  induction log as [|x log IH] using rev_ind; intros I Hw E.
  - injection E as <-. constructor; cbn; try constructor; try tauto. exists turns_init. split; [constructor|]. split; [cbn; tauto|discriminate].
  - rewrite irun_snoc in E. destruct (irun ist_init log) as [J|] eqn:EJ; [|discriminate].
    apply Forall_app in Hw. destruct Hw as [Hw1 Hw2]. apply Forall_cons_iff in Hw2. destruct Hw2 as [Hw2 _].
    eapply turns_step; [|apply row_run; exact EJ|..]; eauto. apply (irun_wf log ist_init); auto using IWf_init.
Qed.

(** * Reading the row *)

(** The leaf entry exists; a reader of the newest value gets the committed one if
    nobody has the row locked; a snapshot reader that does not see the transactions
    still in progress gets it in any case. *)
Theorem leaf_reads log I : wkinds_ok log -> irun ist_init log = Some I ->
  exists o, leaf_run None (rmsgs k (i_cont I nm)) = Some o
   /\ (forall rd, i_locks I nm k = None -> row_read C_READ_ANY rd o = Some (committed nm k log))
   /\ (forall rd, (forall x, In x (i_used I) -> txn_reads_txnid x rd = negb (memb x (map pt_root (i_txns I)))) ->
         row_read C_READ_SNAPSHOT rd o = Some (committed nm k log)).
Proof.
  intros Hw E. pose proof (turns_run log I Hw E) as [(s & T1 & T2 & T3) F C Wn].
  destruct (leaf_build _ s T1 F) as (o & Eo & _). exists o. split; [exact Eo|]. split.
  - intros rd El. rewrite (leaf_any _ s o rd T1 F Eo). f_equal. apply row_free; auto.
  - intros rd Hrd. destruct (leaf_snap _ s o rd T1 F Eo) as (b & -> & Hb). f_equal.
    set (f := fun x => txn_reads_txnid x rd) in *. set (ms := rmsgs k (i_cont I nm)) in *.
    pose proof (arows_awf ms F) as Ha. destruct (row_run nm k log I E) as [_ R].
    fold ms in R. unfold row_of in R. fold ms in R.
    assert (Hdead : forall x, In x (nonbottom (ar_w (arows ms))) -> f x = true).
    { intros x Hx. destruct (Wn x Hx) as [G1 G2]. unfold f. rewrite Hrd by auto. apply negb_true_iff, memb_false. auto. }
    assert (Hf : forall x, In x (nonbottom (full (arows ms))) -> In x (nonbottom (ar_w (arows ms))) \/ exists X, ar_x (arows ms) = x :: X).
    { intros x. unfold full. destruct (ar_x (arows ms)) as [|y Y]; [auto|]. destruct (lastnp (ar_l (arows ms))); auto;
        (rewrite nonbottom_cons by apply Ha); cbn; intros [<-|H]; eauto. }
    assert (Hne : full (arows ms) <> []) by (apply full_nonempty; apply Ha).
    assert (Htop : forall x X, ar_x (arows ms) = x :: X -> i_locks I nm k <> Some x -> f x = true).
    { intros x X EX Hl. destruct (ro_top _ _ _ _ _ _ _ _ _ R x X EX) as [G1 G2]. unfold f. rewrite Hrd by auto.
      apply negb_true_iff, memb_false. intros Hi. apply G2 in Hi. tauto. }
    destruct (i_locks I nm k) as [r|] eqn:El.
    + pose proof (ro_live _ _ _ _ _ _ _ _ _ R r eq_refl) as Hi. apply in_map_iff in Hi. destruct Hi as (t & Hr & Ht).
      assert (El' : Some r = Some (pt_root t)) by congruence.
      destruct (ro_hold _ _ _ _ _ _ _ _ _ R t Ht El') as [G1 G2 G3 G4].
      pose proof (irun_wf log ist_init I IWf_init E) as W.
      destruct (chain_ne' I t (proj1 (Forall_forall _ _) (iw_txns _ W) t Ht)) as (D & ED & _).
      unfold turn in G3. destruct (hd_eq (ar_x (arows ms)) (pt_chain t)) eqn:Eh; cbn [ar_w] in G3.
      * rewrite ED in Eh. apply hd_eq_cons in Eh. destruct Eh as (X & EX).
        assert (Hfr : f (pt_root t) = false).
        { unfold f. rewrite Hrd; [|apply (proj1 (Forall_forall _ _) (iw_used _ W)); auto]. apply negb_false_iff, memb_In, in_map. auto. }
        assert (Hb' : accepted_committed f (ar_w (arows ms)) = Some b).
        { unfold full in Hb. rewrite EX in Hb. destruct (lastnp (ar_l (arows ms))); auto;
            (rewrite acc_cons in Hb by apply Ha); cbn [ux_xid] in Hb; rewrite Hfr in Hb; exact Hb. }
        rewrite acc_yes in Hb' by (auto; apply Ha). injection Hb' as <-. exact G3.
      * assert (Hall : forall x, In x (nonbottom (full (arows ms))) -> f x = true).
        { intros x Hx. apply Hf in Hx. destruct Hx as [Hx|(X & EX)]; [auto|]. apply (Htop x X EX). intros [= <-].
          rewrite EX, ED in Eh. cbn in Eh. rewrite Hr, N.eqb_refl in Eh. discriminate. }
        rewrite acc_yes in Hb by auto. injection Hb as <-. exact G3.
    + assert (Hall : forall x, In x (nonbottom (full (arows ms))) -> f x = true).
      { intros x Hx. apply Hf in Hx. destruct Hx as [Hx|(X & EX)]; [auto|]. apply (Htop x X EX). discriminate. }
      rewrite acc_yes in Hb by auto. injection Hb as <-. rewrite whead_full by auto. apply row_free; auto.
Qed.
End Turns.
