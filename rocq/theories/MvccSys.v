(** The row system never gets stuck, and its log, looks and copies stay in order. *)
From Verif Require Import Base Bytes UleModel UleSpec LeCodecProofs LeAccProofs UleWf
  MgrModel MgrSpec MgrProofs MvccModel StackProofs MvccGc MvccRow MvccApply MvccAsync.
From Coq Require Import Sorted.
Open Scope N_scope.

(** * Time passes, messages are sent *)

Lemma log_quiet ms now now' (clo clo' : txnid -> Prop) : loginv ms now clo -> before now now' ->
  (forall x, clo x -> clo' x) -> (forall x, finished now' x -> clo' x) -> loginv ms now' clo'.
Proof.
  intros L B Hc Hf. constructor; auto; try apply L.
  - intros i m h E. destruct (l_now _ _ _ L i m h E) as [H1 H2]. split; auto. eapply before_trans; eauto.
  - intros i m h q E Hk Hs. destruct (l_commit _ _ _ L i m h q E Hk Hs) as [H1 [H2 H3]]. split; auto. split; auto.
Qed.

Lemma obs_quiet os ms now now' : obsinv os ms now -> before now now' ->
  (forall ob x, In ob os -> begun now' x -> begun now x \/ m_last (ob_mgr ob) < x) -> obsinv os ms now'.
Proof.
  intros O B Hb. constructor; try apply O.
  - intros ob H. eapply before_trans; [apply (o_now _ _ _ O); auto|auto].
  - intros ob x H Hx Hl. destruct (Hb ob x H Hx); [apply (o_ids _ _ _ O); auto|lia].
Qed.

Lemma copy_quiet m m' ms now now' (clo clo' : txnid -> Prop) k o : cinv m now -> cinv m' now' -> before now now' ->
  (forall x, clo x -> clo' x) -> copy_ok ms now clo k o -> copy_ok ms now' clo' k o.
Proof.
  intros C C' B Hc [Hk H]. split; auto. eapply crowo_mono; [..|exact H]; auto.
  - intros f Hf. eapply serves_before; eauto.
  - intros x [Hf Hg]. split; auto. eapply before_in; eauto.
  - intros x [H1 H2]. split; auto.
Qed.

Lemma nth_snoc {A} (l : list A) a i b : nth_error (l ++ [a]) i = Some b ->
  (nth_error l i = Some b /\ (i < length l)%nat) \/ (i = length l /\ b = a).
Proof.
  intros H. destruct (Nat.lt_ge_cases i (length l)) as [Hi|Hi].
  - rewrite nth_error_app1 in H by auto. auto.
  - rewrite nth_error_app2 in H by auto. right.
    assert (E : (i - length l = 0)%nat).
    { destruct (i - length l)%nat; auto. cbn in H. destruct n; discriminate. }
    rewrite E in H. cbn in H. split; [lia|congruence].
Qed.

Lemma sender_snoc ms m h i x : sender (ms ++ [(m, h)]) i x ->
  sender ms i x \/ (i = length ms /\ non_opt (rm_kind m) = true /\ hd_eq [x] (rm_xids m) = true).
Proof.
  intros (m' & h' & E & Hn & Hq). apply nth_snoc in E. destruct E as [[E _]|[E1 E2]].
  - left. exists m', h'. auto.
  - right. injection E2 as -> ->. auto.
Qed.

Lemma sender_ext ms e i x : sender ms i x -> sender (ms ++ [e]) i x.
Proof.
  intros (m & h & E & H). exists m, h. split; auto. rewrite nth_error_app1; auto.
  apply nth_error_Some. congruence.
Qed.

Lemma hk_ext ms e k : (k <= length ms)%nat -> hk (ms ++ [e]) k = hk ms k.
Proof. intros Hk. destruct k; cbn; auto. rewrite nth_error_app1 by lia. auto. Qed.

Lemma src_snoc ms m h k x : (k <= length ms)%nat -> src (ms ++ [(m, h)]) k x -> src ms k x.
Proof.
  intros Hk (i & Hi & Hs). exists i. split; auto. apply sender_snoc in Hs. destruct Hs as [|(-> & _)]; auto; lia.
Qed.

Lemma src_ext ms e k x : src ms k x -> src (ms ++ [e]) k x.
Proof. intros (i & Hi & Hs). exists i. split; auto. apply sender_ext. auto. Qed.

Lemma ideal_ext ms e k : (k <= length ms)%nat -> ideal (ms ++ [e]) k = ideal ms k.
Proof. intros H. unfold ideal. rewrite map_app, firstn_app, map_length. replace (k - length ms)%nat with 0%nat by lia.
  cbn [map firstn]. rewrite app_nil_r. auto. Qed.

(** The conditions on a message sent now. *)
Definition send_ok (ms : log) (now : list event) (clo : txnid -> Prop) (m : rmsg) : Prop :=
  if non_opt (rm_kind m)
  then chain_ok (rm_xids m) /\ kind_ok (rm_kind m)
       /\ (rm_kind m = KCommit -> length (rm_xids m) = 1%nat)
       /\ forall q, hd_eq [q] (rm_xids m) = true ->
            begun now q /\ wrote now q /\ ~ finished now q
            /\ (clo q <-> rm_kind m = KCommit)
            /\ forall x, src ms (length ms) x -> x <> q -> finished now x
  else (rm_xids m = [] \/ exists o, rm_xids m = [o])
       /\ forall x, src ms (length ms) x ->
            (forall o, rm_xids m = [o] -> o = TXNID_NONE \/ x < o) -> finished now x.

Lemma send_clo ms now clo m x : send_ok ms now clo m -> clo x -> non_opt (rm_kind m) = true ->
  hd_eq [x] (rm_xids m) = true -> rm_kind m = KCommit.
Proof.
  unfold send_ok. intros H Hc Hn Hq. rewrite Hn in H. destruct H as (_ & _ & _ & H). apply (H x Hq). auto.
Qed.

Lemma log_send ms now clo m : loginv ms now clo -> send_ok ms now clo m -> loginv (ms ++ [(m, now)]) now clo.
Proof.
  intros L Hs. assert (Hnew : nth_error (ms ++ [(m, now)]) (length ms) = Some (m, now)).
  { rewrite nth_error_app2, Nat.sub_diag; auto. }
  constructor.
  - apply L.
  - intros i m' h E. apply nth_snoc in E. destruct E as [[E Hi]|[-> E]].
    + rewrite hk_ext by lia. eapply l_now; eauto.
    + injection E as -> ->. split; [apply before_refl|]. rewrite hk_ext by lia. eapply hk_now; eauto.
  - intros i m' h E Hn. apply nth_snoc in E. destruct E as [[E Hi]|[-> E]].
    + eapply l_send; eauto.
    + injection E as -> ->. unfold send_ok in Hs. rewrite Hn in Hs. destruct Hs as (H1 & H2 & _ & H3).
      split; auto. split; auto. intros q Hq. destruct (H3 q Hq) as (? & ? & ? & _). auto.
  - intros i j m' h x q Hij Hi Hj Hne E. apply nth_snoc in E. destruct E as [[E Hj']|[-> E]].
    + apply sender_snoc in Hi. destruct Hi as [Hi|(-> & _)]; [|lia].
      apply sender_snoc in Hj. destruct Hj as [Hj|(-> & _)]; [|lia].
      eapply (l_serial _ _ _ L i j); eauto.
    + injection E as -> ->. apply sender_snoc in Hi. destruct Hi as [Hi|(-> & _)]; [|lia].
      destruct Hj as (m1 & h1 & E1 & Hn & Hq). rewrite Hnew in E1. injection E1 as <- <-.
      unfold send_ok in Hs. rewrite Hn in Hs. destruct Hs as (_ & _ & _ & H3). apply (H3 q Hq); auto.
      exists i. auto.
  - intros i m' h q E Hk Hse. apply nth_snoc in E. destruct E as [[E Hi]|[-> E]].
    + apply sender_snoc in Hse. destruct Hse as [Hse|(-> & _)]; [|lia].
      destruct (l_commit _ _ _ L i m' h q E Hk Hse) as [H1 [H2 H3]]. split; auto. split; auto.
      intros j m1 h1 Hj E1 Hs1. apply nth_snoc in E1. destruct E1 as [[E1 Hj']|[-> E1]].
      * apply sender_snoc in Hs1. destruct Hs1 as [Hs1|(-> & _)]; [|lia]. eapply H2; eauto.
      * injection E1 as -> ->. destruct Hs1 as (m2 & h2 & E2 & Hn2 & Hq2). rewrite Hnew in E2. injection E2 as <- <-.
        eapply send_clo; eauto.
    + injection E as -> ->. destruct Hse as (m2 & h2 & E2 & Hn2 & Hq2). rewrite Hnew in E2. injection E2 as <- <-.
      pose proof Hs as Hs0. unfold send_ok in Hs. rewrite Hn2 in Hs. destruct Hs as (H1 & _ & H2 & H3). specialize (H2 Hk).
      split.
      * destruct (rm_xids m) as [|a [|]]; try discriminate. cbn in Hq2. apply N.eqb_eq in Hq2. subst. auto.
      * split; [|apply (H3 q Hq2); auto]. intros j m1 h1 Hj E1 _. apply nth_snoc in E1.
        destruct E1 as [[E1 Hj']|[-> E1]]; [lia|]. injection E1 as -> ->. auto.
  - intros i m' h E Hk. apply nth_snoc in E. destruct E as [[E Hi]|[-> E]].
    + destruct (l_opt _ _ _ L i m' h E Hk) as [H1 H2]. split; auto. intros x Hx. apply H2.
      eapply src_snoc; eauto. lia.
    + injection E as -> ->. unfold send_ok in Hs. rewrite Hk in Hs. cbn in Hs. destruct Hs as [H1 H2].
      split; auto. intros x Hx. apply H2. eapply src_snoc; eauto.
Qed.

Lemma obs_send os ms now e : snd e = now -> obsinv os ms now -> obsinv os (ms ++ [e]) now.
Proof.
  intros He O. constructor; try apply O.
  - intros ob Ho. destruct (o_n _ _ _ O ob Ho) as [H1 H2]. rewrite app_length, hk_ext by auto. split; [lia|auto].
  - intros ob j m h Ho Hj E. apply nth_snoc in E. destruct E as [[E Hi]|[-> <-]]; [eapply (o_later _ _ _ O); eauto|].
    cbn in He. subst. apply (o_now _ _ _ O). auto.
Qed.

Lemma copy_send ms now clo m k o : loginv ms now clo -> send_ok ms now clo m -> copy_ok ms now clo k o ->
  copy_ok (ms ++ [(m, now)]) now clo k o.
Proof.
  intros L Hs [Hk H]. assert (Hnew : nth_error (ms ++ [(m, now)]) (length ms) = Some (m, now)).
  { rewrite nth_error_app2, Nat.sub_diag; auto. }
  split; [rewrite app_length; lia|]. rewrite ideal_ext by auto. eapply crowo_mono; [..|exact H]; auto.
  - intros x [H1 H2]. split; auto. intros j Hj Hse. apply sender_snoc in Hse. destruct Hse as [Hse|(-> & Hn & Hq)].
    + eapply H2; eauto.
    + unfold send_ok in Hs. rewrite Hn in Hs. destruct Hs as (_ & _ & _ & H3). apply (H3 x Hq). auto.
  - intros x Hx. apply src_ext. auto.
  - intros x. unfold fin. rewrite hk_ext by auto. auto.
  - intros x [H1 H2]. split; auto. intros j m1 h1 Hj E1 Hse. apply nth_snoc in E1. destruct E1 as [[E1 Hj']|[-> E1]].
    + apply sender_snoc in Hse. destruct Hse as [Hse|(-> & _)]; [|lia]. eapply H1; eauto.
    + injection E1 as -> ->. destruct Hse as (m2 & h2 & E2 & Hn2 & Hq2). rewrite Hnew in E2. injection E2 as <- <-.
      eapply send_clo; eauto.
Qed.

(** * The invariant *)

Definition closing (ts : list rtxn) (x : txnid) : Prop :=
  exists t todo, In t ts /\ t_root t = x /\ t_phase t = PCommit todo.
Definition over (h : list event) (ts : list rtxn) (x : txnid) : Prop := finished h x \/ closing ts x.

Definition phase_ok (t : rtxn) : Prop :=
  match t_phase t with
  | PActive => True
  | PAbort n => exists l ls, t_levels t = l :: ls /\ (n <= length (lv_ents l))%nat
  | PCommit todo => exists l, t_levels t = [l] /\ (length todo <= length (lv_ents l))%nat
  end.

Record txn_ok (lk : option txnid) (h : list event) (t : rtxn) : Prop := {
  k_chain : exists C, chain t = t_root t :: C /\ forall c, In c C -> c <> TXNID_NONE /\ c <= t_last t;
  k_nd : NoDup (chain t);
  k_max : (length (t_levels t) <= 253)%nat;
  k_last : t_last t < 2 ^ 64;
  k_phase : phase_ok t;
  k_ents : forall l, In l (t_levels t) -> lv_ents l <> [] -> lk = Some (t_root t) /\ wrote h (t_root t)
}.

Record tinv0 (ms : msys) (ts : list rtxn) (lk : option txnid) (msgs : log) : Prop := {
  t_m : minv ms;
  t_roots : map t_root ts = map r_xid (ms_roots ms);
  t_all : forall t, In t ts -> txn_ok lk (ms_hist ms) t;
  t_lock : forall r, lk = Some r -> In r (map t_root ts);
  t_src : forall x, src msgs (length msgs) x -> finished (ms_hist ms) x \/ lk = Some x
}.
Arguments t_m {_ _ _ _}. Arguments t_roots {_ _ _ _}. Arguments t_all {_ _ _ _}.
Arguments t_lock {_ _ _ _}. Arguments t_src {_ _ _ _}.

Record ainv0 (ms : msys) (ts : list rtxn) (msgs : log) (cs : list (nat * option ule)) (os : list obs) : Prop := {
  a_log : loginv msgs (ms_hist ms) (over (ms_hist ms) ts);
  a_obs : obsinv os msgs (ms_hist ms);
  a_last : forall ob, In ob os -> m_last (ob_mgr ob) <= m_last (ms_mgr ms);
  a_copies : forall k o, In (k, o) cs -> copy_ok msgs (ms_hist ms) (over (ms_hist ms) ts) k o
}.
Arguments a_log {_ _ _ _ _}. Arguments a_obs {_ _ _ _ _}. Arguments a_last {_ _ _ _ _}.
Arguments a_copies {_ _ _ _ _}.

Definition tinv (y : rsys) : Prop := tinv0 (y_ms y) (y_txns y) (y_lock y) (y_msgs y).
Definition ainv (y : rsys) : Prop := ainv0 (y_ms y) (y_txns y) (y_msgs y) (y_copies y) (y_obs y).

(** ** Transactions in the table *)

Lemma find_txn_some r ts t : find_txn r ts = Some t -> In t ts /\ t_root t = r.
Proof. intros H. apply find_some in H. destruct H as [H E]. apply N.eqb_eq in E. auto. Qed.

Lemma find_txn_in r ts : In r (map t_root ts) -> exists t, find_txn r ts = Some t.
Proof.
  intros H. unfold find_txn. destruct (find _ ts) as [t|] eqn:E; [eauto|]. exfalso.
  apply in_map_iff in H. destruct H as (t & <- & Ht). eapply find_none in E; eauto.
  rewrite N.eqb_refl in E. discriminate.
Qed.

Lemma find_txn_unique r ts t : NoDup (map t_root ts) -> In t ts -> t_root t = r -> find_txn r ts = Some t.
Proof.
  intros N H <-. induction ts as [|a ts IH]; [destruct H|]. unfold find_txn. cbn [find]. cbn in N. inversion N; subst.
  destruct H as [->|H]; [rewrite N.eqb_refl; auto|].
  destruct (N.eqb_spec (t_root a) (t_root t)) as [E|]; [|apply IH; auto].
  exfalso. apply H2. rewrite E. apply in_map. auto.
Qed.

Lemma set_txn_roots t ts : map t_root (set_txn t ts) = map t_root ts.
Proof.
  unfold set_txn. rewrite map_map. apply map_ext. intros a. destruct (N.eqb_spec (t_root a) (t_root t)); auto.
Qed.

Lemma set_txn_in t ts a : In a (set_txn t ts) -> a = t \/ (In a ts /\ t_root a <> t_root t).
Proof.
  unfold set_txn. intros H. apply in_map_iff in H. destruct H as (b & E & Hb).
  destruct (N.eqb_spec (t_root b) (t_root t)); subst; auto.
Qed.

Lemma set_txn_other t ts a : In a ts -> t_root a <> t_root t -> In a (set_txn t ts).
Proof.
  intros H Hn. unfold set_txn. apply in_map_iff. exists a. split; auto.
  destruct (N.eqb_spec (t_root a) (t_root t)); tauto.
Qed.

Lemma set_txn_new t ts : In (t_root t) (map t_root ts) -> In t (set_txn t ts).
Proof.
  intros H. apply in_map_iff in H. destruct H as (b & E & Hb). unfold set_txn. apply in_map_iff. exists b.
  rewrite E, N.eqb_refl. auto.
Qed.

Lemma del_txn_in r ts a : In a (del_txn r ts) <-> In a ts /\ t_root a <> r.
Proof. unfold del_txn. rewrite filter_In, negb_true_iff, N.eqb_neq. tauto. Qed.

Lemma del_txn_roots r ts rs : map t_root ts = map r_xid rs ->
  map t_root (del_txn r ts) = map r_xid (filter (fun a => negb (r_xid a =? r)) rs).
Proof.
  unfold del_txn. revert rs. induction ts as [|t ts IH]; intros [|a rs] E; cbn in *; try discriminate; auto.
  injection E as E1 E2. rewrite E1. destruct (r_xid a =? r); cbn; [|rewrite E1; f_equal]; auto.
Qed.

Section Inv.
Context (y : rsys) (T : tinv y).

Lemma roots_nd : NoDup (map t_root (y_txns y)).
Proof. rewrite (t_roots T). apply (i_roots_nd _ (t_m T)). Qed.

Lemma find_ok r t : find_txn r (y_txns y) = Some t ->
  In t (y_txns y) /\ t_root t = r /\ txn_ok (y_lock y) (ms_hist (y_ms y)) t
  /\ exists rt, find_root r (ms_roots (y_ms y)) = Some rt /\ In rt (ms_roots (y_ms y)) /\ r_xid rt = r
       /\ ~ finished (ms_hist (y_ms y)) r.
Proof.
  intros H. apply find_txn_some in H. destruct H as [H E]. split; auto. split; auto. split; [apply (t_all T); auto|].
  assert (Hr : In r (map r_xid (ms_roots (y_ms y)))) by (rewrite <- (t_roots T), <- E; apply in_map; auto).
  apply in_map_iff in Hr. destruct Hr as (rt & Ert & Hrt).
  destruct (find_root r (ms_roots (y_ms y))) as [rt'|] eqn:Ef.
  - destruct (find_root_some _ _ _ Ef) as [H1 H2]. exists rt'. split; auto. split; auto. split; auto.
    rewrite <- H2. apply (i_roots _ (t_m T)). auto.
  - exfalso. eapply find_root_in; eauto.
Qed.

Lemma root_id t : In t (y_txns y) -> t_root t <> TXNID_NONE /\ t_root t < 2 ^ 64.
Proof.
  intros H. assert (Hr : In (t_root t) (map r_xid (ms_roots (y_ms y)))) by (rewrite <- (t_roots T); apply in_map; auto).
  apply in_map_iff in Hr. destruct Hr as (rt & E & Hrt). destruct (i_roots _ (t_m T) rt Hrt) as (Hb & _).
  apply begin_in_ids in Hb. rewrite E in Hb. pose proof (c_pos _ _ (i_c _ (t_m T)) _ Hb).
  pose proof (c_last _ _ (i_c _ (t_m T)) _ Hb). pose proof (i_max _ (t_m T)) as Hm.
  unfold TXNID_MAX in Hm. unfold TXNID_NONE. split; lia.
Qed.

Lemma chain_len t : length (chain t) = length (t_levels t).
Proof. unfold chain. rewrite rev_length, map_length. auto. Qed.

Lemma chain_good t : In t (y_txns y) -> chain_ok (chain t) /\ hd_eq [t_root t] (chain t) = true.
Proof.
  intros H. pose proof (t_all T t H) as K. destruct (k_chain _ _ _ K) as (C & E & HC).
  destruct (root_id t H) as [R1 R2]. split.
  - split; [rewrite E; discriminate|]. split; [apply K|]. split; [|rewrite chain_len; apply K].
    unfold xids_ok. rewrite E. constructor; [auto|]. apply Forall_forall. intros c Hc. destruct (HC c Hc).
    pose proof (k_last _ _ _ K). split; auto. lia.
  - rewrite E. cbn. apply N.eqb_refl.
Qed.
End Inv.

(** ** Pieces of a step *)

Definition later (ms ms' : msys) : Prop :=
  before (ms_hist ms) (ms_hist ms') /\ m_last (ms_mgr ms) <= m_last (ms_mgr ms')
  /\ forall x, begun (ms_hist ms') x -> begun (ms_hist ms) x \/ m_last (ms_mgr ms) < x.

Lemma later_refl ms : later ms ms.
Proof. split; [apply before_refl|]. split; [lia|auto]. Qed.

Lemma remove_snapshot_last m s m' : remove_snapshot m s = Some m' -> m_last m' = m_last m.
Proof. unfold remove_snapshot. intros H. inv_do H. apply Some_inj in H. subst. reflexivity. Qed.

Lemma set_oldest_last m m' : set_oldest m = Some m' -> m_last m' = m_last m.
Proof. unfold set_oldest. cbv zeta. intros H. inv_do H. apply Some_inj in H. subst. reflexivity. Qed.

Lemma next_xid_last m x m' : next_xid m = Some (x, m') -> x = m_last m + 1 /\ m_last m' = m_last m + 1.
Proof. unfold next_xid. cbv zeta. intros H. inv_do H. apply Some_inj in H. inversion H. auto. Qed.

Lemma mstep_later ms o ms' : mstep ms o = Some ms' -> later ms ms'.
Proof.
  destruct o as [ro rec|x|s|x|x]; cbn [mstep]; intros H.
  - unfold start_txn in H. destruct (next_xid (ms_mgr ms)) as [[x m1]|] eqn:E1; [|discriminate].
    destruct (set_oldest _) as [m3|] eqn:E3; [|discriminate].
    destruct (next_xid_last _ _ _ E1) as [Hx Hl]. apply set_oldest_last in E3.
    assert (Hl3 : m_last m3 = m_last (ms_mgr ms) + 1) by (rewrite E3; destruct ro; auto).
    destruct rec.
    + unfold create_snapshot in H. destruct (next_xid m3) as [[i m4]|] eqn:E4; [|discriminate].
      destruct (next_xid_last _ _ _ E4) as [_ Hl4]. apply Some_inj in H. subst ms'.
      split; [eexists [_; _]; reflexivity|]. cbn [ms_mgr ms_hist m_last app]. split; [lia|].
      intros z [H|[H|H]]; [discriminate| |auto]. injection H as <- _. right. lia.
    + apply Some_inj in H. subst ms'. split; [eexists [_]; reflexivity|]. cbn [ms_mgr ms_hist app].
      split; [lia|]. intros z [H|H]; [|auto]. injection H as <- _. right. lia.
  - unfold create_snapshot in H. destruct (next_xid (ms_mgr ms)) as [[i m4]|] eqn:E4; [|discriminate].
    destruct (next_xid_last _ _ _ E4) as [_ Hl4]. apply Some_inj in H. subst ms'.
    split; [eexists [_]; reflexivity|]. cbn [ms_mgr ms_hist m_last app]. split; [lia|].
    intros z [H|H]; [discriminate|auto].
  - destruct (find _ _) as [p|]; [|discriminate]. destruct (remove_snapshot _ _) as [m|] eqn:E; [|discriminate].
    apply Some_inj in H. subst ms'. apply remove_snapshot_last in E.
    split; [eexists [_]; reflexivity|]. cbn [ms_mgr ms_hist m_last app]. split; [lia|].
    intros z [H|H]; [discriminate|auto].
  - apply Some_inj in H. subst ms'. split; [eexists [_]; reflexivity|]. cbn [ms_mgr ms_hist m_last app]. split; [lia|].
    intros z [H|H]; [discriminate|auto].
  - destruct (find_root _ _) as [r|]; [|discriminate]. destruct (finish_txn _ _ _ _ _) as [m|] eqn:E; [|discriminate].
    apply Some_inj in H. subst ms'. split; [eexists (EFinish x :: _); reflexivity|]. cbn [ms_mgr ms_hist]. split.
    + unfold finish_txn in E. destruct (match r_snap r with Some s => _ | None => _ end) as [m1|] eqn:E1; [|discriminate].
      assert (Hl1 : m_last m1 = m_last (ms_mgr ms)).
      { destruct (r_snap r); [eapply remove_snapshot_last; eauto|congruence]. }
      destruct (r_ro r); [apply Some_inj in E; subst; lia|].
      destruct (remove_live _ _) as [lv|]; [|discriminate]. destruct (r_wrote r); [|apply Some_inj in E; subst; cbn; lia].
      destruct (0 <? _); [|apply Some_inj in E; subst; cbn; lia].
      destruct (next_xid _) as [[e m3]|] eqn:E3; [|discriminate]. destruct (next_xid_last _ _ _ E3) as [_ Hl3].
      destruct (insert_ref _ _); [|discriminate]. apply Some_inj in E. subst. cbn [m_last] in *. lia.
    + intros z [H|H]; [discriminate|]. apply in_app_iff in H. destruct H as [H|H]; [|auto].
      destruct (r_snap r); [destruct H as [H|[]]; discriminate|destruct H].
Qed.

Lemma ainv_quiet ms ts ms' ts' msgs cs os : ainv0 ms ts msgs cs os -> minv ms -> minv ms' -> later ms ms' ->
  (forall x, over (ms_hist ms) ts x -> over (ms_hist ms') ts' x) -> ainv0 ms' ts' msgs cs os.
Proof.
  intros A M M' (B & Hl & Hb) Ho. constructor.
  - eapply log_quiet; [apply A|auto|auto|]. intros x Hx. left. auto.
  - eapply obs_quiet; [apply A|auto|]. intros ob x Hi Hx. destruct (Hb x Hx); auto. right.
    pose proof (a_last A ob Hi). lia.
  - intros ob Hi. pose proof (a_last A ob Hi). lia.
  - intros k o Hi. eapply copy_quiet; [apply (i_c _ M)|apply (i_c _ M')|auto|exact Ho|]. apply (a_copies A). auto.
Qed.

Lemma ainv_send ms ts msgs cs os m : ainv0 ms ts msgs cs os ->
  send_ok msgs (ms_hist ms) (over (ms_hist ms) ts) m -> ainv0 ms ts (msgs ++ [(m, ms_hist ms)]) cs os.
Proof.
  intros A Hs. constructor.
  - apply log_send; auto. apply A.
  - apply obs_send; auto. apply A.
  - apply A.
  - intros k o Hi. apply copy_send; auto; [apply A|apply (a_copies A); auto].
Qed.

Lemma tinv_mgr ms ts lk msgs ms' : tinv0 ms ts lk msgs -> minv ms' -> map r_xid (ms_roots ms') = map r_xid (ms_roots ms) ->
  later ms ms' -> tinv0 ms' ts lk msgs.
Proof.
  intros T M E (B & _). constructor; auto.
  - rewrite E. apply T.
  - intros t Ht. destruct (t_all T t Ht). constructor; auto. intros l Hl He. destruct (k_ents0 l Hl He). split; auto.
    eapply before_in; eauto.
  - apply T.
  - intros x Hx. destruct (t_src T x Hx); auto. left. eapply before_in; eauto.
Qed.

Lemma tinv_set ms ts lk msgs t : tinv0 ms ts lk msgs -> txn_ok lk (ms_hist ms) t ->
  tinv0 ms (set_txn t ts) lk msgs.
Proof.
  intros T K. constructor; rewrite ?set_txn_roots; try apply T.
  intros a Ha. apply set_txn_in in Ha. destruct Ha as [->|[Ha _]]; auto. apply (t_all T). auto.
Qed.

Lemma tinv_lock ms ts lk msgs r : tinv0 ms ts lk msgs -> In r (map t_root ts) -> lk = None \/ lk = Some r ->
  tinv0 ms ts (Some r) msgs.
Proof.
  intros T Hr Hl. constructor; try apply T.
  - intros t Ht. destruct (t_all T t Ht). constructor; auto. intros l Hi He. destruct (k_ents0 l Hi He). split; auto.
    destruct Hl; congruence.
  - intros q [= <-]. auto.
  - intros x Hx. destruct (t_src T x Hx); auto. right. destruct Hl; congruence.
Qed.

Lemma tinv_send ms ts lk msgs m h : tinv0 ms ts lk msgs ->
  (non_opt (rm_kind m) = true -> forall q, hd_eq [q] (rm_xids m) = true -> lk = Some q) ->
  tinv0 ms ts lk (msgs ++ [(m, h)]).
Proof.
  intros T Hm. constructor; try apply T. intros x (i & Hi & Hs). apply sender_snoc in Hs.
  destruct Hs as [Hs|(-> & Hn & Hq)].
  - apply (t_src T). exists i. split; auto. eapply sender_len; eauto.
  - right. apply Hm; auto.
Qed.

Lemma over_set h ts t : (forall a, In a ts -> t_root a = t_root t -> forall todo, t_phase a = PCommit todo ->
    exists todo', t_phase t = PCommit todo') ->
  forall x, over h ts x -> over h (set_txn t ts) x.
Proof.
  intros H x [Hx|(a & todo & Ha & <- & Hp)]; [left; auto|]. right.
  destruct (N.eq_dec (t_root a) (t_root t)) as [E|E].
  - destruct (H a Ha E todo Hp) as (todo' & Hp'). exists t, todo'. split; auto. apply set_txn_new. rewrite <- E.
    apply in_map. auto.
  - exists a, todo. split; auto. apply set_txn_other; auto.
Qed.

Lemma over_mono h h' ts : before h h' -> forall x, over h ts x -> over h' ts x.
Proof. intros B x [H|H]; [left; eapply before_in; eauto|right; auto]. Qed.

Lemma over_not ms ts lk msgs t : tinv0 ms ts lk msgs -> In t ts -> ~ finished (ms_hist ms) (t_root t) ->
  (over (ms_hist ms) ts (t_root t) <-> exists todo, t_phase t = PCommit todo).
Proof.
  intros T Ht Hn. split.
  - intros [H|(a & todo & Ha & E & Hp)]; [tauto|]. exists todo. rewrite <- Hp. f_equal.
    assert (N : NoDup (map t_root ts)) by (rewrite (t_roots T); apply (i_roots_nd _ (t_m T))).
    pose proof (find_txn_unique (t_root t) ts t N Ht eq_refl).
    pose proof (find_txn_unique (t_root t) ts a N Ha E). congruence.
  - intros (todo & Hp). right. exists t, todo. auto.
Qed.

Lemma unfinished ms ts lk msgs t : tinv0 ms ts lk msgs -> In t ts -> ~ finished (ms_hist ms) (t_root t).
Proof.
  intros T H. assert (Hr : In (t_root t) (map r_xid (ms_roots ms))) by (rewrite <- (t_roots T); apply in_map; auto).
  apply in_map_iff in Hr. destruct Hr as (rt & E & Hrt). rewrite <- E. apply (i_roots _ (t_m T) rt Hrt).
Qed.

(** The lock holder sends a message. *)
Lemma holder_send ms ts msgs t k : tinv0 ms ts (Some (t_root t)) msgs -> In t ts ->
  kind_ok k -> wrote (ms_hist ms) (t_root t) -> non_opt k = true ->
  (k = KCommit <-> exists todo, t_phase t = PCommit todo) -> (k = KCommit -> length (t_levels t) = 1%nat) ->
  send_ok msgs (ms_hist ms) (over (ms_hist ms) ts) (mkRmsg k (chain t)).
Proof.
  intros T Ht Hk Hw Hn Hc Hlen. unfold send_ok. cbn [rm_kind rm_xids]. rewrite Hn.
  assert (T' : tinv (mkRsys ms ts (Some (t_root t)) msgs [] [] [])) by exact T.
  destruct (chain_good _ T' t Ht) as [G1 G2]. split; auto. split; auto. split; [intros E; rewrite chain_len; auto|].
  intros q Hq. assert (q = t_root t).
  { destruct (chain t); [discriminate|]. cbn in Hq, G2. apply N.eqb_eq in Hq, G2. congruence. }
  subst q. split; [apply (c_wrote _ _ (i_c _ (t_m T))); auto|]. split; auto.
  pose proof (unfinished _ _ _ _ _ T Ht) as Hu. split; auto. split.
  - rewrite (over_not _ _ _ _ _ T Ht Hu). symmetry. auto.
  - intros x Hx Hne. destruct (t_src T x Hx) as [|E]; auto. congruence.
Qed.

Definition snap_events (os : option snap) : list event := match os with Some s => [ESnap (s_id s)] | None => [] end.

Lemma begin_fx ms (ro rec : bool) ms' : mstep ms (MBegin ro rec) = Some ms' ->
  exists x os, ms_roots ms' = ms_roots ms ++ [mkRoot x ro os false] /\ ms_child ms' = ms_child ms
    /\ ms_hist ms' = snap_events os ++ EBegin x ro :: ms_hist ms /\ x = m_last (ms_mgr ms) + 1
    /\ (forall s, os = Some s -> s_id s = m_last (ms_mgr ms) + 2).
Proof.
  cbn [mstep]. unfold start_txn. intros H. destruct (next_xid (ms_mgr ms)) as [[x m1]|] eqn:E1; [|discriminate].
  destruct (set_oldest _) as [m3|] eqn:E3; [|discriminate].
  destruct (next_xid_last _ _ _ E1) as [Hx Hl]. apply set_oldest_last in E3.
  assert (Hl3 : m_last m3 = m_last (ms_mgr ms) + 1) by (rewrite E3; destruct ro; auto).
  destruct rec.
  - unfold create_snapshot in H. destruct (next_xid m3) as [[i m4]|] eqn:E4; [|discriminate].
    destruct (next_xid_last _ _ _ E4) as [Hi _]. apply Some_inj in H. subst ms'. eexists _, (Some _). cbn. repeat split; auto.
    intros s [= <-]. cbn. lia.
  - apply Some_inj in H. subst ms'. eexists _, None. cbn. repeat split; auto. discriminate.
Qed.

Lemma childsnap_fx ms x ms' : mstep ms (MChildSnap x) = Some ms' ->
  exists s, ms_roots ms' = ms_roots ms /\ ms_child ms' = ms_child ms ++ [(x, s)]
    /\ ms_hist ms' = ESnap (s_id s) :: ms_hist ms /\ s_id s = m_last (ms_mgr ms) + 1.
Proof.
  cbn [mstep]. unfold create_snapshot. intros H. destruct (next_xid (ms_mgr ms)) as [[i m1]|] eqn:E1; [|discriminate].
  destruct (next_xid_last _ _ _ E1) as [Hx Hl]. apply Some_inj in H. subst ms'. eexists. cbn. repeat split; auto.
Qed.

Lemma childend_fx ms s ms' : mstep ms (MChildSnapEnd s) = Some ms' ->
  ms_roots ms' = ms_roots ms /\ ms_child ms' = filter (fun p => negb (s_id (snd p) =? s)) (ms_child ms)
    /\ ms_hist ms' = ESnapEnd s :: ms_hist ms.
Proof.
  cbn [mstep]. intros H. destruct (find _ _); [|discriminate]. destruct (remove_snapshot _ _); [|discriminate].
  apply Some_inj in H. subst ms'. auto.
Qed.

Lemma finish_fx ms x ms' : mstep ms (MFinish x) = Some ms' ->
  ms_roots ms' = filter (fun r => negb (r_xid r =? x)) (ms_roots ms) /\ ms_child ms' = ms_child ms
    /\ exists r, In r (ms_roots ms) /\ r_xid r = x
         /\ ms_hist ms' = EFinish x :: match r_snap r with Some s => [ESnapEnd (s_id s)] | None => [] end ++ ms_hist ms.
Proof.
  cbn [mstep]. intros H. destruct (find_root _ _) as [r|] eqn:E; [|discriminate]. destruct (finish_txn _ _ _ _ _); [|discriminate].
  apply Some_inj in H. subst ms'. apply find_root_some in E. destruct E as [Hi E]. repeat split; auto. exists r. auto.
Qed.

Lemma set_wrote_ids x rs : map r_xid (set_wrote x rs) = map r_xid rs.
Proof. unfold set_wrote. rewrite map_map. apply map_ext. intros r. destruct (r_xid r =? x); auto. Qed.

Lemma chain_pop lk h t l l2 ls : txn_ok lk h t -> t_levels t = l :: l2 :: ls ->
  (exists C, rev (map lv_xid (l2 :: ls)) = t_root t :: C /\ forall c, In c C -> c <> TXNID_NONE /\ c <= t_last t)
  /\ NoDup (rev (map lv_xid (l2 :: ls))).
Proof.
  intros K E. destruct (k_chain _ _ _ K) as (C & EC & HC). pose proof (k_nd _ _ _ K) as N.
  assert (Es : chain t = rev (map lv_xid (l2 :: ls)) ++ [lv_xid l]) by (unfold chain; rewrite E; reflexivity).
  rewrite Es in N, EC. split.
  - destruct (rev (map lv_xid (l2 :: ls))) as [|a D] eqn:ED.
    + exfalso. cbn in ED. destruct (rev (map lv_xid ls)); discriminate.
    + cbn in EC. injection EC as -> EC. exists D. split; auto. intros c Hc. apply HC. rewrite <- EC. apply in_or_app. auto.
  - apply NoDup_remove_1 in N. rewrite app_nil_r in N. auto.
Qed.

Lemma retire_ok y r : tinv y -> ainv y -> ids_left (y_ms y) -> In r (map t_root (y_txns y)) -> no_child_snaps y r ->
  exists y', retire y r = Some y' /\ tinv y' /\ ainv y'
    /\ mstep (y_ms y) (MFinish r) = Some (y_ms y') /\ y_txns y' = del_txn r (y_txns y)
    /\ y_lock y' = (match y_lock y with Some q => if q =? r then None else Some q | None => None end)
    /\ y_msgs y' = y_msgs y /\ y_copies y' = y_copies y /\ y_obs y' = y_obs y /\ y_trace y' = y_trace y.
Proof.
  intros T A Hids Hr Hc. pose proof (t_m T) as M.
  assert (Hleg : mop_legal (y_ms y) (MFinish r)).
  { split; auto. apply find_root_in. rewrite (t_roots T) in Hr. apply in_map_iff in Hr. destruct Hr as (rt & E & H). eauto. }
  destruct (minv_step _ _ M Hleg Hids) as (ms' & E & M' & _). unfold retire. rewrite E.
  pose proof (mstep_later _ _ _ E) as La. destruct (finish_fx _ _ _ E) as (Er & Ec & rt & _ & _ & Eh).
  assert (Hfin : finished (ms_hist ms') r) by (rewrite Eh; left; auto).
  destruct La as (B & Hl & Hb).
  eexists. split; [reflexivity|].
  split; [|split; [|repeat split; auto]].
  - constructor; cbn; auto.
    + rewrite Er. apply del_txn_roots. apply T.
    + intros t Ht. apply del_txn_in in Ht. destruct Ht as [Ht Hn]. destruct (t_all T t Ht). constructor; auto.
      intros l Hi He. destruct (k_ents0 l Hi He) as [H1 H2]. split; [|eapply before_in; eauto].
      rewrite H1. destruct (N.eqb_spec (t_root t) r); [tauto|auto].
    + intros q Hq. destruct (y_lock y) as [q'|] eqn:El; [|discriminate]. destruct (N.eqb_spec q' r); [discriminate|].
      injection Hq as <-. pose proof (t_lock T q' El) as Hi. apply in_map_iff in Hi. destruct Hi as (t & Et & Hi).
      apply in_map_iff. exists t. split; auto. apply del_txn_in. split; auto. congruence.
    + intros x Hx. destruct (t_src T x Hx) as [H|H]; [left; eapply before_in; eauto|].
      rewrite H. destruct (N.eqb_spec x r); [left; subst; auto|auto].
  - eapply ainv_quiet; [exact A|exact M|exact M'|repeat split; auto|].
    intros x [H|(t & todo & Ht & Ex & Hp)]; [left; eapply before_in; eauto|].
    destruct (N.eq_dec x r) as [->|Hn]; [left; auto|]. right. exists t, todo. split; auto. apply del_txn_in.
    split; auto. congruence.
Qed.

Lemma active_find y r : active y r -> exists t, find_txn r (y_txns y) = Some t /\ t_phase t = PActive.
Proof. auto. Qed.

Lemma wkind_kind w : wkind_ok w -> kind_ok (wmsg w).
Proof. destruct w; cbn; auto. Qed.

Lemma push_ent_chain b ls : map lv_xid (push_ent b ls) = map lv_xid ls.
Proof. destruct ls; auto. Qed.

Theorem sys_step y o : tinv y -> ainv y -> rop_legal y o -> ids_left (y_ms y) ->
  exists y', rstep y o = Some y' /\ tinv y' /\ ainv y'.
Proof.
  intros T A Hleg Hids. pose proof (t_m T) as M.
  destruct o as [ro rec|r|s|r|r|r|r w|r|r|r|r|r|r|r| |i|j s|j s]; cbn [rstep rop_legal] in *.
  - (* begin *)
    destruct (minv_step _ (MBegin ro rec) M I Hids) as (ms' & E & M' & _). rewrite E.
    pose proof (mstep_later _ _ _ E) as La. destruct (begin_fx _ _ _ _ E) as (x & os & Er & Ec & Eh & Ex & _).
    rewrite Er. rewrite rev_app_distr. cbn [rev app r_xid r_snap]. eexists. split; [reflexivity|].
    set (nt := mkRtxn x [mkLevel x []] TXNID_NONE PActive).
    assert (T' : tinv0 ms' (y_txns y ++ [nt]) (y_lock y) (y_msgs y)).
    { destruct La as (B & _). constructor; auto.
      - rewrite Er, !map_app, (t_roots T). reflexivity.
      - intros t Ht. apply in_app_iff in Ht. destruct Ht as [Ht|[<-|[]]].
        + destruct (t_all T t Ht). constructor; auto. intros l Hi He. destruct (k_ents0 l Hi He). split; auto.
          eapply before_in; eauto.
        + constructor; cbn.
          * exists []. split; auto. intros c [].
          * constructor; [intros []|constructor].
          * lia.
          * unfold TXNID_NONE. lia.
          * exact I.
          * intros l [<-|[]] He. cbn in He. congruence.
      - intros q Hq. rewrite map_app. apply in_or_app. left. apply (t_lock T). auto.
      - intros z Hz. destruct (t_src T z Hz); auto. left. eapply before_in; eauto. }
    assert (A' : ainv0 ms' (y_txns y ++ [nt]) (y_msgs y) (y_copies y) (y_obs y)).
    { eapply ainv_quiet; [exact A|exact M|exact M'|auto|]. destruct La as (B & _).
      intros z [H|(t & todo & Ht & Ez & Hp)]; [left; eapply before_in; eauto|]. right. exists t, todo. split; auto.
      apply in_or_app. auto. }
    destruct os; split; auto.
  - (* child snapshot *)
    destruct Hleg as (t & Hf & Hp). destruct (find_ok _ T _ _ Hf) as (Ht & Hr & K & rt & Hrt & _).
    destruct (minv_step _ (MChildSnap r) M ltac:(cbn; congruence) Hids) as (ms' & E & M' & _). rewrite E.
    pose proof (mstep_later _ _ _ E) as La. destruct (childsnap_fx _ _ _ E) as (s & Er & Ec & Eh & _).
    rewrite Ec, rev_app_distr. cbn [rev app snd]. eexists. split; [reflexivity|]. split.
    + eapply tinv_mgr; eauto. cbn. rewrite Er. auto.
    + eapply ainv_quiet; [exact A|exact M|exact M'|auto|]. apply over_mono. apply La.
  - (* child snapshot ends *)
    destruct (minv_step _ (MChildSnapEnd s) M Hleg Hids) as (ms' & E & M' & _). rewrite E.
    pose proof (mstep_later _ _ _ E) as La. destruct (childend_fx _ _ _ E) as (Er & Ec & Eh).
    eexists. split; [reflexivity|]. split.
    + eapply tinv_mgr; eauto. cbn. rewrite Er. auto.
    + eapply ainv_quiet; [exact A|exact M|exact M'|auto|]. apply over_mono. apply La.
  - (* touch *)
    destruct Hleg as [Ha Hw].
    destruct (minv_step _ (MWrite r) M Hw Hids) as (ms' & E & M' & _). rewrite E.
    pose proof (mstep_later _ _ _ E) as La. cbn [mstep] in E. apply Some_inj in E. subst ms'.
    eexists. split; [reflexivity|]. split.
    + eapply tinv_mgr; eauto. apply set_wrote_ids.
    + eapply ainv_quiet; [exact A|exact M|exact M'|auto|]. apply over_mono. apply La.
  - (* child begins *)
    destruct Hleg as (t & Hf & Hp & Hlen & Hl). rewrite Hf. eexists. split; [reflexivity|].
    destruct (find_ok _ T _ _ Hf) as (Ht & Hr & K & _).
    assert (Hc : t_last t < next_child t /\ next_child t <> t_root t /\ next_child t <= t_last t + 2).
    { unfold next_child. destruct (N.eqb_spec (t_last t + 1) (t_root t)); lia. }
    destruct Hc as (Hc1 & Hc2 & Hc3). split.
    + apply tinv_set; auto. destruct K as [(C & EC & HC) N Hm Hl64 _ He]. constructor; cbn [t_root t_levels t_last t_phase].
      * exists (C ++ [next_child t]). split.
        { unfold chain in *. cbn [map rev t_levels lv_xid]. rewrite EC, Hr. reflexivity. }
        intros c Hi. apply in_app_iff in Hi. destruct Hi as [Hi|[<-|[]]].
        -- destruct (HC c Hi). split; auto. lia.
        -- split; [unfold TXNID_NONE; lia|lia].
      * unfold chain in *. cbn [map rev t_levels lv_xid]. apply NoDup_app_one; auto. rewrite EC. intros [H|H]; [congruence|].
        destruct (HC _ H). lia.
      * unfold MAX_NESTED_TRANSACTIONS in Hlen. cbn. lia.
      * lia.
      * unfold phase_ok. cbn. rewrite Hp. exact I.
      * intros l [<-|Hi] Hn; [cbn in Hn; congruence|]. rewrite <- Hr. eauto.
    + eapply ainv_quiet; [exact A|exact M|exact M|apply later_refl|]. apply over_set. cbn [t_root t_phase].
      intros a Ha E todo Hpa. exists todo. rewrite <- Hpa. f_equal.
      pose proof (find_txn_unique _ _ _ (roots_nd _ T) Ha E). congruence.
  - (* read lock *)
    destruct Hleg as [(t & Hf & Hp) Hlk]. eexists. split; [reflexivity|].
    destruct (find_ok _ T _ _ Hf) as (Ht & Hr & K & _). split; [|exact A].
    eapply tinv_lock; [exact T| |exact Hlk]. rewrite <- Hr. apply in_map. auto.
  - (* write *)
    destruct Hleg as ((t & Hf & Hp) & Hw & Hlk & Hwk). destruct (find_ok _ T _ _ Hf) as (Ht & Hr & K & _).
    destruct (minv_step _ (MWrite r) M Hw Hids) as (ms' & E & M' & _). rewrite E, Hf.
    pose proof (mstep_later _ _ _ E) as La.
    assert (Hwr : wrote (ms_hist ms') r) by (cbn [mstep] in E; apply Some_inj in E; subst ms'; left; auto).
    assert (Eroots : map r_xid (ms_roots ms') = map r_xid (ms_roots (y_ms y))).
    { cbn [mstep] in E. apply Some_inj in E. subst ms'. apply set_wrote_ids. }
    eexists. split; [reflexivity|]. set (t' := mkRtxn r (push_ent (went w) (t_levels t)) (t_last t) (t_phase t)).
    assert (Ech : chain t' = chain t) by (unfold chain, t'; cbn [t_levels]; rewrite push_ent_chain; auto).
    assert (T1 : tinv0 ms' (y_txns y) (Some r) (y_msgs y)).
    { eapply tinv_lock; [eapply tinv_mgr; eauto|rewrite <- Hr; apply in_map; auto|exact Hlk]. }
    assert (T2 : tinv0 ms' (set_txn t' (y_txns y)) (Some r) (y_msgs y)).
    { apply tinv_set; auto. destruct (t_all T1 t Ht) as [(C & EC & HC) N Hm Hl64 Hph He].
      constructor; unfold t'; cbn [t_root t_levels t_last t_phase]; auto.
      - exists C. fold t'. rewrite Ech, EC, Hr. split; auto.
      - fold t'. rewrite Ech. auto.
      - rewrite <- (map_length lv_xid), push_ent_chain, map_length. auto.
      - unfold phase_ok. cbn. rewrite Hp. exact I. }
    assert (Ht' : In t' (set_txn t' (y_txns y))) by (apply set_txn_new; cbn; rewrite <- Hr; apply in_map; auto).
    split.
    + unfold tinv. cbn [y_ms y_txns y_lock y_msgs y_copies y_obs note send lock with_txn with_ms]. eapply tinv_send; [exact T2|]. cbn [rm_xids]. intros _ q Hq. f_equal.
      destruct (k_chain _ _ _ K) as (C & EC & _). rewrite EC in Hq. cbn in Hq. apply N.eqb_eq in Hq. congruence.
    + unfold ainv. cbn [y_ms y_txns y_lock y_msgs y_copies y_obs note send lock with_txn with_ms]. eapply ainv_send.
      * eapply ainv_quiet; [exact A|exact M|exact M'|exact La|]. intros x Hx. apply over_set.
        -- cbn [t_root t_phase t']. intros a Ha Ea todo Hpa.
           pose proof (find_txn_unique _ _ _ (roots_nd _ T) Ha Ea). congruence.
        -- eapply over_mono; eauto. apply La.
      * rewrite <- Ech. apply holder_send; auto; cbn [t_root t' t_phase]; auto.
        -- apply wkind_kind. auto.
        -- destruct w; reflexivity.
        -- rewrite Hp. split; [destruct w; discriminate|intros (? & ?); discriminate].
        -- destruct w; discriminate.
  - (* child commits *)
    destruct Hleg as (t & Hf & Hp & Hlen). rewrite Hf. destruct (find_ok _ T _ _ Hf) as (Ht & Hr & K & _).
    destruct (t_levels t) as [|c [|p ls]] eqn:El; [cbn in Hlen; lia|cbn in Hlen; lia|].
    eexists. split; [reflexivity|]. cbn [merge_ents]. split.
    + apply tinv_set; auto. destruct (chain_pop _ _ _ _ _ _ K El) as ((C & EC & HC) & N).
      destruct K as [_ _ Hm Hl64 _ He]. constructor; cbn [t_root t_levels t_last t_phase]; auto.
      * exists C. rewrite <- Hr. unfold chain. cbn [t_levels map lv_xid] in *. auto.
      * rewrite El in Hm. cbn in *. lia.
      * unfold phase_ok. cbn. rewrite Hp. exact I.
      * intros l [<-|Hi] Hn.
        -- cbn [lv_ents] in Hn. rewrite <- Hr. destruct (lv_ents c) as [|e es] eqn:Ec.
           ++ apply (He p); [rewrite El; right; left; auto|auto].
           ++ apply (He c); [rewrite El; left; auto|congruence].
        -- rewrite <- Hr. apply (He l); auto. rewrite El. right. right. auto.
    + eapply ainv_quiet; [exact A|exact M|exact M|apply later_refl|]. apply over_set. cbn [t_root t_phase].
      intros a Ha E todo Hpa. pose proof (find_txn_unique _ _ _ (roots_nd _ T) Ha E). congruence.
  - (* abort starts *)
    destruct Hleg as (t & Hf & Hp). rewrite Hf. destruct (find_ok _ T _ _ Hf) as (Ht & Hr & K & _).
    destruct (t_levels t) as [|l ls] eqn:El.
    { exfalso. destruct (k_chain _ _ _ K) as (C & EC & _). unfold chain in EC. rewrite El in EC. discriminate. }
    cbn [hd_error]. eexists. split; [reflexivity|]. split.
    + apply tinv_set; auto. destruct K as [(C & EC & HC) N Hm Hl64 _ He].
      constructor; cbn [t_root t_levels t_last t_phase]; auto.
      * exists C. rewrite <- Hr. unfold chain in *. cbn [t_levels]. rewrite <- El. auto.
      * unfold chain in *. cbn [t_levels]. rewrite <- El. auto.
      * rewrite <- El. auto.
      * unfold phase_ok. cbn. eauto.
      * rewrite <- Hr, <- El. auto.
    + eapply ainv_quiet; [exact A|exact M|exact M|apply later_refl|]. apply over_set. cbn [t_root t_phase].
      intros a Ha E todo Hpa. pose proof (find_txn_unique _ _ _ (roots_nd _ T) Ha E). congruence.
  - (* abort message *)
    destruct Hleg as (t & n & Hf & Hp). rewrite Hf, Hp. destruct (find_ok _ T _ _ Hf) as (Ht & Hr & K & _).
    eexists. split; [reflexivity|]. set (t' := mkRtxn r (t_levels t) (t_last t) (PAbort n)).
    pose proof (k_phase _ _ _ K) as Hph. unfold phase_ok in Hph. rewrite Hp in Hph.
    destruct Hph as (l & ls & El & Hle).
    assert (Hne : y_lock y = Some r /\ wrote (ms_hist (y_ms y)) r).
    { rewrite <- Hr. apply (k_ents _ _ _ K l); [rewrite El; left; auto|]. intros E0. rewrite E0 in Hle. cbn in Hle. lia. }
    destruct Hne as [Hlk Hwr].
    assert (T2 : tinv0 (y_ms y) (set_txn t' (y_txns y)) (y_lock y) (y_msgs y)).
    { apply tinv_set; auto. destruct K as [(C & EC & HC) N Hm Hl64 _ He].
      constructor; unfold t'; cbn [t_root t_levels t_last t_phase]; auto.
      - exists C. rewrite <- Hr. auto.
      - unfold phase_ok. cbn. exists l, ls. split; auto. lia. }
    assert (Ht' : In t' (set_txn t' (y_txns y))) by (apply set_txn_new; cbn; rewrite <- Hr; apply in_map; auto).
    split.
    + unfold tinv. cbn [y_ms y_txns y_lock y_msgs y_copies y_obs note send lock with_txn with_ms]. eapply tinv_send; [exact T2|]. cbn [rm_xids]. intros _ q Hq. rewrite Hlk. f_equal.
      destruct (k_chain _ _ _ K) as (C & EC & _). rewrite EC in Hq. cbn in Hq. apply N.eqb_eq in Hq. congruence.
    + unfold ainv. cbn [y_ms y_txns y_lock y_msgs y_copies y_obs note send lock with_txn with_ms]. eapply ainv_send.
      * eapply ainv_quiet; [exact A|exact M|exact M|apply later_refl|]. apply over_set.
        cbn [t_root t_phase t']. intros a Ha Ea todo Hpa.
        pose proof (find_txn_unique _ _ _ (roots_nd _ T) Ha Ea). congruence.
      * change (chain t) with (chain t'). rewrite Hlk in T2. apply holder_send; auto; cbn [t_root t' t_phase]; auto; try exact I.
        -- split; [discriminate|intros (? & ?); discriminate].
        -- discriminate.
  - (* abort done *)
    destruct Hleg as (t & Hf & Hp & Hor). rewrite Hf. destruct (find_ok _ T _ _ Hf) as (Ht & Hr & K & _).
    destruct (t_levels t) as [|l [|l2 ls]] eqn:El.
    { exfalso. destruct (k_chain _ _ _ K) as (C & EC & _). unfold chain in EC. rewrite El in EC. discriminate. }
    + destruct Hor as [Hor|Hno]; [cbn in Hor; lia|].
      destruct (retire_ok y r T A Hids) as (y' & Ey & T' & A' & _); auto.
      { rewrite <- Hr. apply in_map. auto. }
      rewrite Ey. eexists. split; [reflexivity|]. split; auto.
    + eexists. split; [reflexivity|]. split.
      * apply tinv_set; auto. destruct (chain_pop _ _ _ _ _ _ K El) as ((C & EC & HC) & N).
        destruct K as [_ _ Hm Hl64 _ He]. constructor; cbn [t_root t_levels t_last t_phase]; auto.
        -- exists C. rewrite <- Hr. auto.
        -- rewrite El in Hm. cbn in *. lia.
        -- exact I.
        -- intros l0 Hi Hn. rewrite <- Hr. apply (He l0); auto. rewrite El. right. auto.
      * eapply ainv_quiet; [exact A|exact M|exact M|apply later_refl|]. apply over_set. cbn [t_root t_phase].
        intros a Ha E todo Hpa. pose proof (find_txn_unique _ _ _ (roots_nd _ T) Ha E). congruence.
  - (* commit starts *)
    destruct Hleg as (t & Hf & Hp & Hlen). rewrite Hf. destruct (find_ok _ T _ _ Hf) as (Ht & Hr & K & _).
    destruct (t_levels t) as [|l [|]] eqn:El; try discriminate.
    cbn [hd_error]. eexists. split; [reflexivity|]. split.
    + apply tinv_set; auto. destruct K as [(C & EC & HC) N Hm Hl64 _ He].
      constructor; cbn [t_root t_levels t_last t_phase]; auto.
      * exists C. rewrite <- Hr. unfold chain in *. cbn [t_levels]. rewrite <- El. auto.
      * unfold chain in *. cbn [t_levels]. rewrite <- El. auto.
      * rewrite <- El. auto.
      * unfold phase_ok. cbn. eauto.
      * rewrite <- Hr, <- El. auto.
    + eapply ainv_quiet; [exact A|exact M|exact M|apply later_refl|]. apply over_set. cbn [t_root t_phase].
      intros a Ha E todo Hpa. eauto.
  - (* commit message *)
    destruct Hleg as (t & b & todo & Hf & Hp). rewrite Hf, Hp. destruct (find_ok _ T _ _ Hf) as (Ht & Hr & K & _).
    eexists. split; [reflexivity|]. set (t' := mkRtxn r (t_levels t) (t_last t) (PCommit todo)).
    pose proof (k_phase _ _ _ K) as Hph. unfold phase_ok in Hph. rewrite Hp in Hph.
    destruct Hph as (l & El & Hle). cbn [length] in Hle.
    assert (Hne : y_lock y = Some r /\ wrote (ms_hist (y_ms y)) r).
    { rewrite <- Hr. apply (k_ents _ _ _ K l); [rewrite El; left; auto|]. intros E0. rewrite E0 in Hle. cbn in Hle. lia. }
    destruct Hne as [Hlk Hwr].
    assert (T2 : tinv0 (y_ms y) (set_txn t' (y_txns y)) (y_lock y) (y_msgs y)).
    { apply tinv_set; auto. destruct K as [(C & EC & HC) N Hm Hl64 _ He].
      constructor; unfold t'; cbn [t_root t_levels t_last t_phase]; auto.
      - exists C. rewrite <- Hr. auto.
      - unfold phase_ok. cbn. exists l. split; auto. lia. }
    assert (A2 : ainv0 (y_ms y) (set_txn t' (y_txns y)) (y_msgs y) (y_copies y) (y_obs y)).
    { eapply ainv_quiet; [exact A|exact M|exact M|apply later_refl|]. apply over_set.
      cbn [t_root t_phase t']. intros a Ha Ea todo' Hpa. eauto. }
    assert (Ht' : In t' (set_txn t' (y_txns y))) by (apply set_txn_new; cbn; rewrite <- Hr; apply in_map; auto).
    destruct b; [|split; auto]. split.
    + unfold tinv. cbn [y_ms y_txns y_lock y_msgs y_copies y_obs note send lock with_txn with_ms]. eapply tinv_send; [exact T2|]. cbn [rm_xids]. intros _ q Hq. rewrite Hlk. f_equal.
      destruct (k_chain _ _ _ K) as (C & EC & _). rewrite EC in Hq. cbn in Hq. apply N.eqb_eq in Hq. congruence.
    + unfold ainv. cbn [y_ms y_txns y_lock y_msgs y_copies y_obs note send lock with_txn with_ms]. eapply ainv_send; auto.
      change (chain t) with (chain t'). rewrite Hlk in T2. apply holder_send; auto; cbn [t_root t' t_phase]; auto; try exact I.
      * split; eauto.
      * intros _. unfold t'. cbn [t_levels]. rewrite El. reflexivity.
  - (* commit done *)
    destruct Hleg as ((t & Hf & Hp) & Hno). destruct (find_ok _ T _ _ Hf) as (Ht & Hr & K & _).
    destruct (retire_ok y r T A Hids) as (y' & Ey & T' & A' & _); auto.
    { rewrite <- Hr. apply in_map. auto. }
    rewrite Ey. eexists. split; [reflexivity|]. split; auto.
  - (* a look *)
    eexists. split; [reflexivity|]. split; [exact T|]. constructor; cbn.
    + apply A.
    + pose proof (a_obs A) as O. constructor.
      * intros ob Ho. apply in_app_iff in Ho. destruct Ho as [Ho|[<-|[]]]; [apply (o_c _ _ _ O); auto|apply M].
      * intros ob Ho. apply in_app_iff in Ho. destruct Ho as [Ho|[<-|[]]]; [apply (o_now _ _ _ O); auto|apply before_refl].
      * intros ob Ho. apply in_app_iff in Ho. destruct Ho as [Ho|[<-|[]]]; [apply (o_n _ _ _ O); auto|].
        cbn. split; auto. eapply hk_now; [apply A|auto].
      * intros ob j m h Ho Hj E. apply in_app_iff in Ho. destruct Ho as [Ho|[<-|[]]]; [eapply (o_later _ _ _ O); eauto|].
        cbn in Hj. exfalso. assert (j < length (y_msgs y))%nat by (apply nth_error_Some; congruence). lia.
      * intros ob x Ho. apply in_app_iff in Ho. destruct Ho as [Ho|[<-|[]]]; [apply (o_ids _ _ _ O); auto|auto].
    + intros ob Ho. apply in_app_iff in Ho. destruct Ho as [Ho|[<-|[]]]; [apply (a_last A); auto|cbn; lia].
    + apply A.
  - (* optimize *)
    destruct Hleg as (ob & Eo & Hor). rewrite Eo. eexists. split; [reflexivity|].
    assert (Ho : In ob (y_obs y)) by (eapply nth_error_In; eauto). split.
    + unfold tinv. cbn [y_ms y_txns y_lock y_msgs y_copies y_obs note send lock with_txn with_ms]. eapply tinv_send; [exact T|]. discriminate.
    + unfold ainv. cbn [y_ms y_txns y_lock y_msgs y_copies y_obs note send lock with_txn with_ms]. eapply ainv_send; [exact A|]. unfold send_ok. cbn [rm_kind non_opt rm_xids].
      pose proof (o_c _ _ _ (a_obs A) ob Ho) as C. pose proof (o_now _ _ _ (a_obs A) ob Ho) as B.
      assert (Hmain : forall x, src (y_msgs y) (length (y_msgs y)) x -> begun (ob_hist ob) x ->
                (forall z, In z (m_live (ob_mgr ob)) -> x <> z) -> finished (ms_hist (y_ms y)) x).
      { intros x _ Hb Hz. destruct (finished_dec (ob_hist ob) x) as [Hf|Hf]; [eapply before_in; eauto|].
        exfalso. apply (Hz x); auto. rewrite (c_live _ _ C). apply (c_live_iff _ _ C). auto. }
      unfold optimize_xids. destruct (m_live (ob_mgr ob)) as [|z zs] eqn:El.
      * split; [left; auto|]. intros x Hx _. apply Hmain; auto.
        destruct Hor as [Hor|En]; [congruence|].
        pose proof (src_hk _ _ _ _ _ (a_log A) (Nat.le_refl _) Hx) as [Hb _].
        eapply before_in; [|exact Hb]. rewrite <- En. apply (o_n _ _ _ (a_obs A)). auto.
      * split; [right; eauto|]. intros x Hx Hlt. specialize (Hlt z eq_refl).
        assert (Hz : In z (m_live (ob_mgr ob))) by (rewrite El; left; auto).
        rewrite (c_live _ _ C) in Hz. apply (c_live_iff _ _ C) in Hz. destruct Hz as [Hbz _].
        pose proof (cinv_begun_le _ _ _ C Hbz) as Hzl.
        assert (Hz0 : 0 < z) by (apply (c_pos _ _ C); eapply begin_in_ids; eauto).
        unfold TXNID_NONE in Hlt.
        pose proof (src_hk _ _ _ _ _ (a_log A) (Nat.le_refl _) Hx) as [Hb _].
        apply Hmain; auto.
        -- apply (o_ids _ _ _ (a_obs A)); auto; [|lia]. eapply before_in; [|exact Hb]. eapply hk_now; [apply A|auto].
        -- intros z' Hz' ->. pose proof (c_live_sorted _ _ C) as Hs. rewrite <- (c_live _ _ C), El in Hs.
           inversion Hs; subst. rewrite Forall_forall in H2. destruct Hz' as [->|Hz']; [lia|]. apply H2 in Hz'. lia.
  - (* apply *)
    destruct Hleg as (k & le & Ej & Hk & Hsel). rewrite Ej.
    destruct (nth_error (y_msgs y) k) as [[m h]|] eqn:Em; [|apply nth_error_None in Em; lia].
    destruct (apply_copy (y_msgs y) _ _ (y_obs y) _ (i_c _ M) (a_log A) (a_obs A) k le s m h) as (gi & o' & E1 & E2 & C'); auto.
    { apply (a_copies A). eapply nth_error_In; eauto. }
    rewrite E1, E2. eexists. split; [reflexivity|]. split; [exact T|].
    constructor; cbn; try apply A. intros k0 o0 Hi. apply in_app_iff in Hi. destruct Hi as [Hi|[Hi|[]]].
    + apply (a_copies A). auto.
    + injection Hi as <- <-. auto.
  - (* collect *)
    destruct Hleg as (k & u & Ej & Hsel & Hst). rewrite Ej.
    destruct (gc_copy (y_msgs y) _ _ (y_obs y) _ (i_c _ M) (a_log A) (a_obs A) k u s) as (gi & o' & E1 & E2 & C'); auto.
    { apply (a_copies A). eapply nth_error_In; eauto. }
    rewrite E1, E2. eexists. split; [reflexivity|]. split; [exact T|].
    constructor; cbn; try apply A. intros k0 o0 Hi. apply in_app_iff in Hi. destruct Hi as [Hi|[Hi|[]]].
    + apply (a_copies A). auto.
    + injection Hi as <- <-. auto.
Qed.

Lemma crow_init S gone src fin clos : crow S gone src fin clos ule_init_empty arow_init.
Proof.
  constructor.
  - apply init_wf.
  - discriminate.
  - reflexivity.
  - cbn. lia.
  - intros x X E. discriminate.
  - split; intros x [].
  - left. apply init_rel; cbn; auto. intros l [].
Qed.

Lemma sys_init last : last < TXNID_MAX -> tinv (rsys_init last) /\ ainv (rsys_init last).
Proof.
  intros H. pose proof (minv_init last H) as M. split.
  - constructor; cbn; auto; try tauto; try discriminate. intros x (i & Hi & _). lia.
  - constructor; cbn.
    + constructor; cbn; try (intros i m h E; destruct i; discriminate).
      * left. auto.
      * intros i j m h x q _ (m1 & h1 & E & _). destruct i; discriminate.
    + constructor.
      * intros ob [<-|[]]. apply cinv_init.
      * intros ob [<-|[]]. apply before_refl.
      * intros ob [<-|[]]. cbn. split; auto. apply before_refl.
      * intros ob j m h _ _ E. destruct j; discriminate.
      * intros ob x [<-|[]]. auto.
    + intros ob [<-|[]]. cbn. lia.
    + intros k o [[= <- <-]|[]]. split; auto. apply crow_init.
Qed.

Theorem rreach_inv last y : rreach last y -> tinv y /\ ainv y.
Proof.
  induction 1 as [H|y o y' _ [T A] Hl Hi E].
  - apply sys_init. auto.
  - destruct (sys_step y o T A Hl Hi) as (y1 & E1 & T1 & A1). rewrite E in E1. injection E1 as <-. auto.
Qed.
