(** The message log of a row, and why every copy stays in step with it. *)
From Verif Require Import Base Bytes UleModel UleSpec LeCodecProofs LeAccProofs UleWf
  MgrModel MgrSpec MgrProofs MvccModel StackProofs MvccGc MvccRow MvccApply.
Open Scope N_scope.

Definition log := list (rmsg * list event).

Definition non_opt (k : kind) : bool := match k with KOpt => false | _ => true end.

(** The [i]th message was sent by root transaction [x]. *)
Definition sender (ms : log) (i : nat) (x : txnid) : Prop :=
  exists m h, nth_error ms i = Some (m, h) /\ non_opt (rm_kind m) = true /\ hd_eq [x] (rm_xids m) = true.

(** The history when the last of the first [k] messages was sent. *)
Definition hk (ms : log) (k : nat) : list event :=
  match k with O => [] | S i => match nth_error ms i with Some (_, h) => h | None => [] end end.

Definition src (ms : log) (k : nat) (x : txnid) : Prop := exists i, (i < k)%nat /\ sender ms i x.
Definition fin (ms : log) (k : nat) (x : txnid) : Prop := finished (hk ms k) x.
Definition gone (ms : log) (now : list event) (k : nat) (x : txnid) : Prop :=
  finished now x /\ forall j, (k <= j)%nat -> ~ sender ms j x.
Definition clos (ms : log) (clo : txnid -> Prop) (k : nat) (x : txnid) : Prop :=
  (forall j m h, (k <= j)%nat -> nth_error ms j = Some (m, h) -> sender ms j x -> rm_kind m = KCommit) /\ clo x.

Definition ideal (ms : log) (k : nat) : arow := fold_left astep (firstn k (map fst ms)) arow_init.

Definition kind_ok (k : kind) : Prop :=
  match k with
  | KIns v | KInsNo v => N.of_nat (length v) < 2 ^ 31
  | KUpd f => forall o v, f o = Some (Some v) -> N.of_nat (length v) < 2 ^ 31
  | _ => True
  end.

(** [clo x]: root transaction [x] is over or past the decision to commit. *)
Record loginv (ms : log) (now : list event) (clo : txnid -> Prop) : Prop := {
  l_fin : forall x, finished now x -> clo x;
  l_now : forall i m h, nth_error ms i = Some (m, h) -> before h now /\ before (hk ms i) h;
  l_send : forall i m h, nth_error ms i = Some (m, h) -> non_opt (rm_kind m) = true ->
     chain_ok (rm_xids m) /\ kind_ok (rm_kind m)
     /\ forall q, hd_eq [q] (rm_xids m) = true -> begun h q /\ wrote h q /\ ~ finished h q;
  l_serial : forall i j m h x q, (i < j)%nat -> sender ms i x -> sender ms j q -> x <> q ->
     nth_error ms j = Some (m, h) -> finished h x;
  l_commit : forall i m h q, nth_error ms i = Some (m, h) -> rm_kind m = KCommit -> sender ms i q ->
     rm_xids m = [q] /\ clos ms clo i q;
  l_opt : forall i m h, nth_error ms i = Some (m, h) -> rm_kind m = KOpt ->
     (rm_xids m = [] \/ exists o, rm_xids m = [o])
     /\ forall x, src ms i x ->
          (forall o, rm_xids m = [o] -> o = TXNID_NONE \/ x < o) -> finished h x
}.

Record obsinv (os : list obs) (ms : log) (now : list event) : Prop := {
  o_c : forall ob, In ob os -> cinv (ob_mgr ob) (ob_hist ob);
  o_now : forall ob, In ob os -> before (ob_hist ob) now;
  o_n : forall ob, In ob os -> (ob_n ob <= length ms)%nat /\ before (hk ms (ob_n ob)) (ob_hist ob);
  o_later : forall ob j m h, In ob os -> (ob_n ob <= j)%nat -> nth_error ms j = Some (m, h) -> before (ob_hist ob) h;
  o_ids : forall ob x, In ob os -> begun now x -> x <= m_last (ob_mgr ob) -> begun (ob_hist ob) x
}.

Definition copy_ok (ms : log) (now : list event) (clo : txnid -> Prop) (k : nat) (o : option ule) : Prop :=
  (k <= length ms)%nat
  /\ crowo (serves now) (gone ms now k) (src ms k) (fin ms k) (clos ms clo k) o (ideal ms k).

Lemma before_comparable (a b c : list event) : before a c -> before b c -> before a b \/ before b a.
Proof.
  intros (d & E1) (e & E2). subst c. revert e E2. induction d as [|x d IH]; intros [|y e] E; cbn in E.
  - left. subst. apply before_refl.
  - right. exists (y :: e). auto.
  - left. subst. exists (x :: d). auto.
  - injection E as -> E. eauto.
Qed.

Lemma sender_fun ms i x y : sender ms i x -> sender ms i y -> x = y.
Proof.
  intros (m & h & E & _ & H1) (m' & h' & E' & _ & H2). rewrite E in E'. injection E' as <- <-.
  destruct (rm_xids m); [discriminate|]. cbn in *. apply N.eqb_eq in H1, H2. congruence.
Qed.

Lemma sender_len ms i x : sender ms i x -> (i < length ms)%nat.
Proof. intros (m & h & E & _). apply nth_error_Some. congruence. Qed.

Lemma hk_mono ms now clo i j : loginv ms now clo -> (i <= j)%nat -> (j <= length ms)%nat -> before (hk ms i) (hk ms j).
Proof.
  intros L Hij Hj. induction Hij as [|j Hij IH]; [apply before_refl|].
  eapply before_trans; [apply IH; lia|]. cbn [hk].
  destruct (nth_error ms j) as [[m h]|] eqn:E; [|apply nth_error_None in E; lia].
  eapply l_now; eauto.
Qed.

Lemma src_hk ms now clo k x : loginv ms now clo -> (k <= length ms)%nat -> src ms k x ->
  begun (hk ms k) x /\ wrote (hk ms k) x.
Proof.
  intros L Hk (i & Hi & m & h & E & Hn & Hx).
  assert (B : before h (hk ms k)).
  { replace h with (hk ms (S i)) by (cbn; rewrite E; auto). eapply hk_mono; eauto. }
  destruct (l_send _ _ _ L i m h E Hn) as (_ & _ & Hq). destruct (Hq x Hx) as (Hb & Hw & _).
  split; eapply before_in; eauto.
Qed.

Lemma hk_now ms now clo k : loginv ms now clo -> (k <= length ms)%nat -> before (hk ms k) now.
Proof.
  intros L Hk. destruct k as [|i]; cbn.
  - exists now. rewrite app_nil_r. auto.
  - destruct (nth_error ms i) as [[m h]|] eqn:E; [|apply nth_error_None in E; lia]. eapply l_now; eauto.
Qed.

Lemma ideal_S ms k m h : nth_error ms k = Some (m, h) -> ideal ms (S k) = astep (ideal ms k) m.
Proof.
  intros E. unfold ideal.
  assert (El : firstn (S k) (map fst ms) = firstn k (map fst ms) ++ [m]).
  { clear - E. revert k E. induction ms as [|[m0 h0] ms IH]; intros [|k] E; cbn in *; try discriminate.
    - congruence.
    - f_equal. apply IH. auto. }
  rewrite El, fold_left_app. reflexivity.
Qed.

(** * What the chosen looks guarantee *)

Section Looks.
Context (ms : log) (now : list event) (clo : txnid -> Prop) (os : list obs).
Context (mnow : mgr) (Cn : cinv mnow now).
Context (L : loginv ms now clo) (O : obsinv os ms now).

Lemma src_now k x : (k <= length ms)%nat -> src ms k x -> begun now x /\ wrote now x.
Proof.
  intros Hk Hs. destruct (src_hk _ _ _ _ _ L Hk Hs). pose proof (hk_now _ _ _ _ L Hk).
  split; eapply before_in; eauto.
Qed.

Lemma old_finished ob k x : In ob os -> (k <= length ms)%nat -> src ms k x -> x < m_oldest (ob_mgr ob) ->
  begun (ob_hist ob) x /\ finished (ob_hist ob) x /\ wrote (ob_hist ob) x.
Proof.
  intros Ho Hk Hs Hx. pose proof (o_c _ _ _ O ob Ho) as C.
  destruct (src_now k x Hk Hs) as [Hb _].
  pose proof (c_oldest_last _ _ C) as Hl.
  assert (Hbo : begun (ob_hist ob) x) by (apply (o_ids _ _ _ O); auto; lia).
  destruct (c_oldest _ _ C x Hbo Hx) as [Hf _]. split; auto. split; auto.
  destruct Hs as (i & Hi & m & h & E & Hn & Hq).
  destruct (l_send _ _ _ L i m h E Hn) as (_ & _ & Hse). destruct (Hse x Hq) as (_ & Hw & Hnf).
  destruct (before_comparable h (ob_hist ob) now) as [B|B].
  - eapply l_now; eauto.
  - apply (o_now _ _ _ O). auto.
  - eapply before_in; eauto.
  - exfalso. apply Hnf. eapply before_in; eauto.
Qed.

Lemma promo_look ob k : In ob os -> (k <= length ms)%nat -> (ob_n ob <= k)%nat ->
  promo_ok (gone ms now k) (src ms k) (clos ms clo k) (m_oldest (ob_mgr ob)).
Proof.
  intros Ho Hk Hn x Hs Hx. destruct (old_finished ob k x Ho Hk Hs Hx) as (Hb & Hf & Hw).
  assert (Hns : forall j, (k <= j)%nat -> ~ sender ms j x).
  { intros j Hj (m & h & E & Hno & Hq). destruct (l_send _ _ _ L j m h E Hno) as (_ & _ & Hse).
    destruct (Hse x Hq) as (_ & _ & Hnf). apply Hnf.
    eapply before_in; [|exact Hf]. eapply (o_later _ _ _ O ob j); eauto. lia. }
  assert (Hfn : finished now x) by (eapply before_in; [apply (o_now _ _ _ O ob Ho)|auto]).
  split; [split; auto|]. split; [|apply (l_fin _ _ _ L); auto].
  intros j m h Hj _ Hse. exfalso. eapply Hns; eauto.
Qed.

Lemma simple_look ob k : In ob os -> (k <= length ms)%nat ->
  simple_ok (serves now) (src ms k) (m_oldest (ob_mgr ob)).
Proof.
  intros Ho Hk x Hs Hx f Hf. destruct (old_finished ob k x Ho Hk Hs Hx) as (Hb & Hfi & Hw).
  destruct (src_now k x Hk Hs) as [Hbn _].
  eapply (older_accepted (ob_mgr ob) (ob_hist ob) mnow now); eauto; [apply (o_c _ _ _ O)|apply (o_now _ _ _ O)]; auto.
Qed.

Lemma state_look ob k : In ob os -> (k <= ob_n ob)%nat ->
  state_ok (serves now) (src ms k) (fin ms k) (clone_for_gc (ob_mgr ob)).
Proof.
  intros Ho Hk. destruct (o_n _ _ _ O ob Ho) as [Hn Hb]. exists (ob_mgr ob), (ob_hist ob).
  assert (B : before (hk ms k) (ob_hist ob)).
  { eapply before_trans; [|exact Hb]. eapply hk_mono; eauto. }
  split; auto. split; [apply (o_c _ _ _ O); auto|]. split; [|split].
  - intros x Hx. destruct (src_hk ms now clo k x L ltac:(lia) Hx). split; eapply before_in; eauto.
  - intros x Hx. eapply before_in; eauto.
  - intros f Hf. eapply serves_before; [apply (o_c _ _ _ O); eauto|exact Cn|apply (o_now _ _ _ O); auto|auto].
Qed.

Lemma mk_gi_ok k s : (k <= length ms)%nat -> sel_legal os k s -> exists gi, mk_gi os s = Some gi
  /\ gi_mvcc gi = true
  /\ promo_ok (gone ms now k) (src ms k) (clos ms clo k) (gi_oldest_promo gi)
  /\ simple_ok (serves now) (src ms k) (gi_oldest_simple gi)
  /\ (forall i g, gi_state gi = Some (i, g) -> state_ok (serves now) (src ms k) (fin ms k) g)
  /\ (gs_state s <> None -> gi_state gi <> None).
Proof.
  intros Hk ((a & Ea) & (b & Eb & Hb) & Hst). unfold mk_gi. rewrite Ea, Eb.
  destruct (gs_state s) as [[ini i]|].
  - destruct Hst as (c & Ec & Hc). rewrite Ec. eexists. split; [reflexivity|]. cbn. split; auto.
    split; [apply promo_look; auto; eapply nth_error_In; eauto|].
    split; [apply simple_look; auto; eapply nth_error_In; eauto|]. split; [|discriminate].
    intros i0 g [= <- <-]. apply state_look; auto. eapply nth_error_In; eauto.
  - eexists. split; [reflexivity|]. cbn. split; auto.
    split; [apply promo_look; auto; eapply nth_error_In; eauto|].
    split; [apply simple_look; auto; eapply nth_error_In; eauto|]. split; [discriminate|congruence].
Qed.

Lemma clos_S k x : clos ms clo k x -> clos ms clo (S k) x.
Proof. intros [H1 H2]. split; auto. intros j m h Hj. apply H1. lia. Qed.
Lemma gone_S k x : gone ms now k x -> gone ms now (S k) x.
Proof. intros [H1 H2]. split; auto. intros j Hj. apply H2. lia. Qed.
Lemma src_S k x : src ms k x -> src ms (S k) x.
Proof. intros (i & Hi & H). exists i. split; auto. Qed.
Lemma fin_S k x : (k < length ms)%nat -> fin ms k x -> fin ms (S k) x.
Proof. intros Hk H. eapply before_in; [|exact H]. eapply hk_mono; eauto. Qed.

Lemma finish_apply o' k gi u1 a : crow (serves now) (gone ms now k) (src ms k) (fin ms k) (clos ms clo k) u1 a ->
  room 1 u1 -> gi_mvcc gi = true ->
  promo_ok (gone ms now k) (src ms k) (clos ms clo k) (gi_oldest_promo gi) ->
  simple_ok (serves now) (src ms k) (gi_oldest_simple gi) ->
  (forall i g, gi_state gi = Some (i, g) -> state_ok (serves now) (src ms k) (fin ms k) g) ->
  o' = u1 ->
  exists r, (do u2 <- ule_post_process o' gi; le_pack_check u2) = Some r
    /\ crowo (serves now) (gone ms now k) (src ms k) (fin ms k) (clos ms clo k) r a.
Proof.
  intros C Hr H1 H2 H3 H4 ->.
  destruct (post_ok (serves now) (gone ms now k) (src ms k) (fin ms k) (clos ms clo k) u1 a gi C Hr H1 H2 H3 H4)
    as (u2 & E2 & C2). rewrite E2.
  exact (pack_ok (serves now) (gone ms now k) (src ms k) (fin ms k) (clos ms clo k) u2 a C2).
Qed.

(** One message is absorbed. *)
Lemma apply_copy k o s m h : copy_ok ms now clo k o -> nth_error ms k = Some (m, h) -> sel_legal os (S k) s ->
  exists gi o', mk_gi os s = Some gi /\ row_apply m o gi = Some o' /\ copy_ok ms now clo (S k) o'.
Proof.
  intros [Hk C] E Hsel. assert (Hlt : (k < length ms)%nat) by (apply nth_error_Some; congruence).
  destruct (mk_gi_ok (S k) s ltac:(lia) Hsel) as (gi & Egi & Hm & Hpr & Hsi & Hst & _).
  exists gi. unfold copy_ok. rewrite (ideal_S ms k m h E).
  set (CRO := crowo (serves now) (gone ms now (S k)) (src ms (S k)) (fin ms (S k)) (clos ms clo (S k))) in *.
  assert (Hmono : CRO o (ideal ms k)).
  { unfold CRO. eapply crowo_mono; [..|exact C]; auto.
    - intros x. apply gone_S.
    - intros x. apply src_S.
    - intros x. apply fin_S. auto.
    - intros x. apply clos_S. }
  cut (exists o', row_apply m o gi = Some o' /\ CRO o' (astep (ideal ms k) m)).
  { intros (o' & Ho & Hc). exists o'. repeat split; auto. }
  destruct m as [kd Y]. cbn [rm_kind rm_xids] in *.
  destruct (crow_unrow _ _ _ _ _ _ _ C) as [Cu Hru].
  destruct (crow_unrow _ _ _ _ _ _ _ Hmono) as [Cu' _].
  destruct (non_opt kd) eqn:Hno.
  - (* sent by a transaction *)
    destruct (l_send _ _ _ L k _ h E Hno) as (Hch & Hkd & Hse). cbn [rm_kind rm_xids] in *.
    destruct Y as [|q Y0] eqn:EY; [destruct Hch; congruence|]. rewrite <- EY in *.
    assert (Hq : hd_eq [q] Y = true) by (rewrite EY; cbn; apply N.eqb_refl).
    assert (Hsend : sender ms k q) by (exists (mkRmsg kd Y), h; auto).
    destruct (Hse q Hq) as (Hbq & Hwq & Hfq).
    assert (Hsq : src ms (S k) q) by (exists k; split; auto).
    assert (Hfin' : forall x, src ms k x -> x <> q -> fin ms (S k) x).
    { intros x (i & Hi & Hx) Hne. unfold fin, hk. rewrite E.
      eapply (l_serial _ _ _ L i k _ h x q); eauto. }
    assert (Hgone : forall x, gone ms now k x -> x <> q).
    { intros x [_ Hg] ->. apply (Hg k); auto. }
    assert (Hnfq : ~ fin ms k q).
    { intros Hf. apply Hfq. eapply before_in; [|exact Hf]. eapply l_now; eauto. }
    assert (Hclq : clos ms clo k q -> kd = KCommit).
    { intros [Hc _]. apply (Hc k _ h) in E; auto. }
    assert (Hcom : kd = KCommit -> clos ms clo (S k) q /\ Y = [q]).
    { intros Ek. destruct (l_commit _ _ _ L k _ h q E Ek Hsend) as [EYq Hc]. split; auto. apply clos_S. auto. }
    assert (Hgo : forall kd' t, kind_type kd' = Some t -> kind_small kd' ->
       astep (ideal ms k) (mkRmsg kd Y) = astep (ideal ms k) (mkRmsg kd' Y) ->
       (kd' = KCommit <-> kd = KCommit) ->
       exists o', (do (o', _) <- le_apply_msg (mkUmsg t Y) o gi; Some o') = Some o'
         /\ CRO o' (astep (ideal ms k) (mkRmsg kd Y))).
    { intros kd' t Ht Hks Ea Hiff.
      destruct (modify_ok (serves now) (serves_all now) (gone ms now k) (src ms k) (fin ms k) (clos ms clo k)
        (gone ms now (S k)) (src ms (S k)) (fin ms (S k)) (clos ms clo (S k))
        (unrow o) (ideal ms k) Y q kd' t) as (u1 & z & E1 & C1 & Hr1); auto.
      - intros x. apply src_S.
      - intros Hc. apply Hiff. auto.
      - intros Hc. apply Hcom. apply Hiff. auto.
      - unfold le_apply_msg. change (match o with Some u => ule_reload u | None => ule_init_empty end) with (unrow o).
        rewrite E1. destruct (finish_apply u1 (S k) gi u1 _ C1) as (r & Er & Cr); auto.
        { unfold room in *. lia. }
        destruct (ule_post_process u1 gi) as [u2|]; [|discriminate]. rewrite Er. exists r. split; auto.
        rewrite Ea. exact Cr. }
    assert (Hnone : kd = KDel \/ kd = KAbort \/ kd = KCommit -> o = None ->
              CRO None (astep (ideal ms k) (mkRmsg kd Y))).
    { intros Hor ->. cbn [unrow] in Cu. unfold CRO. cbn [crowo].
      eapply (none_ok (serves now) (gone ms now k) (src ms k) (fin ms k) (clos ms clo k)); eauto. }
    unfold row_apply. cbn [rm_kind rm_xids].
    destruct kd as [v|v| | | | |f]; try discriminate Hno.
    + apply (Hgo (KIns v)); [reflexivity|exact Hkd|reflexivity|tauto].
    + apply (Hgo (KInsNo v)); [reflexivity|exact Hkd|reflexivity|tauto].
    + destruct o as [u|]; cbn [is_some]; [|exists None; split; [reflexivity|apply Hnone; auto]].
      apply (Hgo KDel); [reflexivity|exact I|reflexivity|tauto].
    + destruct o as [u|]; cbn [is_some]; [|exists None; split; [reflexivity|apply Hnone; auto]].
      apply (Hgo KAbort); [reflexivity|exact I|reflexivity|tauto].
    + destruct o as [u|]; cbn [is_some]; [|exists None; split; [reflexivity|apply Hnone; auto]].
      apply (Hgo KCommit); [reflexivity|exact I|reflexivity|tauto].
    + assert (Hlv : latest_val o = Some (xval (cur (ideal ms k)))).
      { destruct (cur_ok (serves now) (serves_all now) (gone ms now k) (unrow o) (ideal ms k)) as (i & Hi & Ei);
          try apply Cu.
        unfold latest_val. destruct o as [u|]; cbn [unrow] in Hi.
        - assert (Hi' : ule_innermost u = Some i) by exact Hi. rewrite Hi', Ei. reflexivity.
        - cbn in Hi. injection Hi as <-. cbn in Ei. rewrite <- Ei. reflexivity. }
      rewrite Hlv. unfold astep in Hgo, Hnone |- *. cbn [rm_kind rm_xids] in Hgo |- *.
      destruct (f (xval (cur (ideal ms k)))) as [[w|]|] eqn:Ef.
      * apply (Hgo (KIns w)); [reflexivity|eapply Hkd; eauto|reflexivity|split; discriminate].
      * apply (Hgo KDel); [reflexivity|exact I|reflexivity|split; discriminate].
      * exists o. auto.
  - (* optimize *)
    destruct kd; try discriminate Hno. unfold row_apply. cbn [rm_kind rm_xids].
    change (astep (ideal ms k) (mkRmsg KOpt Y)) with (ideal ms k).
    destruct o as [u|]; [|exists None; auto]. destruct (is_clean u); [exists (Some u); auto|].
    destruct (l_opt _ _ _ L k _ h E eq_refl) as [HY Hop]. cbn [rm_xids] in *.
    cbn [unrow] in Cu'. set (v := ule_reload u) in *.
    assert (Hrv : room 255 v) by apply reload_room.
    assert (Hpush : px v <> [] ->               (forall x X, ar_x (ideal ms k) = x :: X -> finished h x) ->
              crow (serves now) (gone ms now (S k)) (src ms (S k)) (fin ms (S k)) (clos ms clo (S k)) (pushed v) (ideal ms k)).
    { intros Hp Hf. apply pushed_crow; auto; [unfold room in *; lia|].
      intros x X EX. specialize (Hf x X EX).
      assert (Hg : gone ms now (S k) x).
      { split.
        - eapply before_in; [|exact Hf]. eapply l_now; eauto.
        - intros j Hj Hs'. destruct Hs' as (m' & h' & E' & Hn' & Hq').
          destruct (l_send _ _ _ L j m' h' E' Hn') as (_ & _ & Hse). destruct (Hse x Hq') as (_ & _ & Hnf).
          apply Hnf. assert (B : before h (hk ms j)).
          { replace h with (hk ms (S k)) by (cbn; rewrite E; auto).
            eapply hk_mono; eauto. apply Nat.lt_le_incl. apply nth_error_Some. congruence. }
          eapply before_in; [|exact Hf]. eapply before_trans; [exact B|]. eapply l_now; eauto. }
      split; auto. split; [|apply (l_fin _ _ _ L); apply Hg].
      intros j m' h' Hj _ Hs'. exfalso. eapply Hg; eauto. }
    assert (Hopt : exists u1, ule_optimize v Y = Some u1 /\ room 1 u1 /\
       crow (serves now) (gone ms now (S k)) (src ms (S k)) (fin ms (S k)) (clos ms clo (S k)) u1 (ideal ms k)).
    { unfold ule_optimize. destruct (px v) as [|o p] eqn:Ep.
      { exists v. refine (conj eq_refl (conj _ Cu')). unfold room in *; lia. }
      assert (Hpn : px v <> []) by congruence.
      assert (Hx0 : forall x X, ar_x (ideal ms k) = x :: X -> x = ux_xid o /\ src ms k x).
      { intros x X EX. split; [|eapply (cr_src _ _ _ _ _ _ _ Cu); eauto].
        assert (R1 : rel1 (serves now) v (ideal ms k)).
        { destruct (cr_rel _ _ _ _ _ _ _ Cu') as [|(Hpn' & _)]; [auto|congruence]. }
        destruct R1 as (LA & _ & Hpx & _). rewrite Ep in Hpx. symmetry in Hpx.
        destruct (zipx_head _ _ _ _ Hpx) as (x' & X' & EX' & Eo). congruence. }
      assert (Hprom : ule_promote_to_committed v = Some (pushed v)).
      { apply pushed_promote; auto; [apply Cu'|unfold room in *; lia]. }
      assert (Hrp : room 1 (pushed v)) by (apply pushed_room; unfold room in *; lia).
      destruct HY as [->|(ox & ->)].
      - exists (pushed v). split; auto. split; auto. apply Hpush; auto; [congruence|].
        intros x X EX. destruct (Hx0 x X EX). apply Hop; auto. discriminate.
      - destruct ((ox =? TXNID_NONE) || (ux_xid o <? ox)) eqn:Eo.
        + exists (pushed v). split; auto. split; auto. apply Hpush; auto; [congruence|].
          intros x X EX. destruct (Hx0 x X EX) as [-> Hs]. apply Hop; auto. intros o' [= <-].
          apply orb_true_iff in Eo. destruct Eo as [Eo|Eo]; [left; apply N.eqb_eq; auto|right; apply N.ltb_lt; auto].
        + exists v. refine (conj eq_refl (conj _ Cu')). unfold room in *; lia. }
    destruct Hopt as (u1 & E1 & Hr1 & C1).
    unfold le_apply_msg. fold v. unfold msg_modify_ule. cbn [um_xids um_type is_optimize].
    assert (HlY : (length Y <? MAX_TRANSACTION_RECORDS)%nat = true).
    { apply Nat.ltb_lt. unfold MAX_TRANSACTION_RECORDS. destruct HY as [->|(? & ->)]; cbn; lia. }
    rewrite HlY, E1. destruct (finish_apply u1 (S k) gi u1 _ C1) as (r & Er & Cr); auto.
    destruct (ule_post_process u1 gi) as [u2|]; [|discriminate]. rewrite Er. exists r. auto.
Qed.

(** A background garbage collection. *)
Lemma gc_copy k u s : copy_ok ms now clo k (Some u) -> sel_legal os k s -> gs_state s <> None ->
  exists gi o', mk_gi os s = Some gi /\ le_garbage_collect u gi = Some o' /\ copy_ok ms now clo k o'.
Proof.
  intros [Hk C] Hsel Hns. destruct (mk_gi_ok k s Hk Hsel) as (gi & Egi & Hm & Hpr & Hsi & Hst & Hsn).
  exists gi. specialize (Hsn Hns). unfold le_garbage_collect. destruct (gi_state gi) as [[i g]|]; [|congruence].
  specialize (Hst i g eq_refl). cbn [crowo] in C. apply crow_reload in C.
  destruct (try_promote_ok _ _ _ _ _ _ _ _ C ltac:(pose proof (reload_room u); unfold room in *; lia) Hpr)
    as (u1 & -> & C1 & _).
  destruct (1 <? length (cx u1))%nat.
  - destruct (gc_crow _ _ _ _ _ _ _ _ C1 Hst) as (u2 & -> & C2).
    destruct (pack_ok _ _ _ _ _ _ _ C2) as (r & Er & Cr). exists r. repeat split; auto.
  - destruct (pack_ok _ _ _ _ _ _ _ C1) as (r & Er & Cr). exists r. repeat split; auto.
Qed.
End Looks.
