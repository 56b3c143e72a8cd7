(** Every key of the dictionary, by itself, goes through a run of the row system
    of MvccModel.v. *)
From Verif Require Import Base Bytes LtSpec KOrd UleModel MgrModel MgrProofs MvccModel MvccSpec MvccSys MvccRead PropsMvcc.
From Verif Require Import FtModel FtSpec OrkModel DbModel DbSpec DbSpecProofs.
Open Scope nat_scope.

Section P.
Context {c : bytes -> bytes -> comparison} (ok : cmp_ok c) (last : txnid).
Local Notation dmsg := (gmsg rmsg).
Local Notation db := (db c).
Implicit Types (k : bytes) (d : db).

Definition mine k (e : rentry) : bool := keqb c k (fst e).
Definition pents k (l : list rentry) : list bool := map snd (filter (mine k) l).
Definition plevel k (l : dlevel) : level := mkLevel (dl_xid l) (pents k (dl_ents l)).
Definition pphase k (p : dphase) : phase :=
  match p with QActive => PActive | QCommit todo => PCommit (pents k todo) | QAbort todo => PAbort (length (pents k todo)) end.
Definition ptxn k (t : dtxn) : rtxn := mkRtxn (d_root t) (map (plevel k) (d_levels t)) (d_last t) (pphase k (d_phase t)).
Definition for_key k (m : dmsg) : bool := negb (once (E:=EV c) m) || keqb c k (m_key m).
Definition psent k (l : list (dmsg * list event)) : list (rmsg * list event) :=
  map (fun x => (m_arg (fst x), snd x)) (filter (fun x => for_key k (fst x)) l).
Definition plook k (sent : list (dmsg * list event)) (l : look) : obs :=
  mkObs (length (psent k (firstn (lk_n l) sent))) (lk_mgr l) (lk_hist l).
Definition proj k d : rsys :=
  mkRsys (d_ms d) (map (ptxn k) (d_txns d)) (d_lock d k) (psent k (d_sent d)) [(O, None)]
         (map (plook k (d_sent d)) (d_looks d)) (ptrace c k (d_trace d)).

Lemma pents_app k a b : pents k (a ++ b) = pents k a ++ pents k b.
Proof. unfold pents. rewrite filter_app, map_app. reflexivity. Qed.
Lemma psent_app k a b : psent k (a ++ b) = psent k a ++ psent k b.
Proof. unfold psent. rewrite filter_app, map_app. reflexivity. Qed.

Lemma find_proj k r ts : find_txn r (map (ptxn k) ts) = option_map (ptxn k) (dfind r ts).
Proof.
  unfold find_txn, dfind. induction ts as [|t ts IH]; [reflexivity|]. cbn [map find ptxn t_root]. destruct (d_root t =? r)%N; [reflexivity|exact IH].
Qed.
Lemma set_proj k t ts : map (ptxn k) (dset t ts) = set_txn (ptxn k t) (map (ptxn k) ts).
Proof.
  unfold dset, set_txn. rewrite !map_map. apply map_ext. intros a. cbn [ptxn t_root]. destruct (d_root a =? d_root t)%N; reflexivity.
Qed.
Lemma del_proj k r ts : map (ptxn k) (ddel r ts) = del_txn r (map (ptxn k) ts).
Proof.
  unfold ddel, del_txn. induction ts as [|t ts IH]; [reflexivity|]. cbn [map filter ptxn t_root]. destruct (d_root t =? r)%N; cbn [negb]; [exact IH|cbn [map]; rewrite IH; reflexivity].
Qed.
Lemma dfind_in r ts t : dfind r ts = Some t -> In t ts /\ d_root t = r.
Proof. intros F. apply find_some in F. destruct F as (F & Q). apply N.eqb_eq in Q. auto. Qed.
Lemma set_same k r t t' ts : NoDup (map d_root ts) -> dfind r ts = Some t -> d_root t' = r -> ptxn k t' = ptxn k t ->
  map (ptxn k) (dset t' ts) = map (ptxn k) ts.
Proof.
  intros ND F R Q. destruct (dfind_in _ _ _ F) as (I & Rt). unfold dset. rewrite map_map. apply map_ext_in. intros a Ia.
  destruct (d_root a =? d_root t')%N eqn:K; [|reflexivity]. apply N.eqb_eq in K. rewrite Q. f_equal.
  clear - ND I Ia K R Rt. assert (K' : d_root a = d_root t) by congruence. revert I Ia. induction ts as [|x ts IH]; [intros []|].
  cbn [map] in ND. apply NoDup_cons_iff in ND. destruct ND as (N1 & N2). intros [->|I] [->|Ia]; auto.
  - exfalso. apply N1. rewrite <- K'. apply in_map. exact Ia.
  - exfalso. apply N1. rewrite K'. apply in_map. exact I.
Qed.
Lemma plooks_app k sent l looks : Forall (fun x => lk_n x <= length sent) looks -> map (plook k (sent ++ l)) looks = map (plook k sent) looks.
Proof.
  intros F. apply map_ext_in. intros a Ia. rewrite Forall_forall in F. specialize (F a Ia). unfold plook. rewrite firstn_app.
  replace (lk_n a - length sent) with 0 by lia. cbn [firstn]. rewrite app_nil_r. reflexivity.
Qed.
Lemma chain_proj k t : chain (ptxn k t) = dchain t.
Proof. unfold chain, dchain. cbn [ptxn t_levels]. rewrite map_map. reflexivity. Qed.
Lemma next_proj k t : next_child (ptxn k t) = dnext_child t.
Proof. reflexivity. Qed.

Record dinv d : Prop := {
  p_rows : forall k, rreach last (proj k d);
  p_looks : Forall (fun l => lk_n l <= length (d_sent d)) (d_looks d);
  p_lock : forall k k', keqb c k k' = true -> d_lock d k = d_lock d k';
  p_msgs : Forall (fun x => m_type (fst x) = mtype_of (rm_kind (m_arg (fst x)))) (d_sent d)
}.

Lemma d_nodup d : dinv d -> NoDup (map d_root (d_txns d)).
Proof.
  intros I. destruct (rreach_inv _ _ (p_rows d I [])) as (T & _). pose proof (roots_nd _ T) as K. cbn [proj y_txns] in K. rewrite map_map in K. exact K.
Qed.

(** The state after a client's action. *)
Definition after d (x : clients) (om : option dmsg) : db :=
  mkDb c (c_ms x) (c_txns x) (c_lock x) (d_sent d ++ match om with Some m => [(m, ms_hist (c_ms x))] | None => [] end)
    (d_looks d) (c_trace x) (d_tree d) (d_ork d).

Definition moves k d d' : Prop :=
  proj k d' = proj k d \/ exists o, rop_legal (proj k d) o /\ rstep (proj k d) o = Some (proj k d').

Lemma for_key_msg k k' m : once (E:=EV c) (key_msg k' m) = true -> for_key k (key_msg k' m) = keqb c k k'.
Proof. intros Q. unfold for_key. rewrite Q. reflexivity. Qed.
Lemma keqb_refl k : keqb c k k = true.
Proof. unfold keqb. rewrite (cmp_refl _ ok). reflexivity. Qed.

Lemma psent_one k k' m h : once (E:=EV c) (key_msg k' m) = true -> psent k [(key_msg k' m, h)] = if keqb c k k' then [(m, h)] else [].
Proof. intros Q. unfold psent. cbn [filter fst]. rewrite (for_key_msg k k' m Q). destruct (keqb c k k'); reflexivity. Qed.
Lemma pents_cons k k' b l : pents k ((k', b) :: l) = if keqb c k k' then b :: pents k l else pents k l.
Proof. unfold pents. cbn [filter]. unfold mine at 1. cbn [fst]. destruct (keqb c k k'); reflexivity. Qed.

Lemma retire_moves k d r e x : dretire c d r e = Some x ->
  option_map (fun y => note y (match e with DvAbort r => VAbort r | _ => VCommit r end)) (retire (proj k d) r)
  = Some (mkRsys (c_ms x) (map (ptxn k) (c_txns x)) (c_lock x k) (psent k (d_sent d)) [(O, None)] (map (plook k (d_sent d)) (d_looks d))
       ((match e with DvAbort r => VAbort r | _ => VCommit r end) :: ptrace c k (d_trace d))) /\ c_trace x = e :: d_trace d.
Proof.
  intros Q. unfold dretire in Q. unfold retire. cbn [proj y_ms]. destruct (mstep (d_ms d) (MFinish r)) as [ms|]; [|discriminate]. injection Q as <-.
  cbn [c_ms c_txns c_lock c_trace option_map note y_ms y_txns y_lock y_msgs y_copies y_obs y_trace proj]. rewrite del_proj. split; reflexivity.
Qed.

Lemma client_moves d o x om k : dinv d -> cop_legal c d o -> cstep c d o = Some (x, om) -> moves k d (after d x om).
Proof.
  intros I LG ST. pose proof (d_nodup d I) as ND. pose proof (plooks_app k (d_sent d)) as PL. specialize (fun l => PL l _ (p_looks d I)).
  assert (PL0 : map (plook k (d_sent d ++ [])) (d_looks d) = map (plook k (d_sent d)) (d_looks d)) by (rewrite app_nil_r; reflexivity).
  unfold moves. destruct o; cbn [cstep cop_legal] in *.
  - (* begin *)
    right. exists (OBegin read_only records). split; [exact Logic.I|]. destruct (mstep (d_ms d) (MBegin read_only records)) as [ms|] eqn:M; [|discriminate].
    cbn [rstep proj y_ms]. rewrite M. destruct (rev (ms_roots ms)) as [|nr rs]; [discriminate|]. injection ST as <- <-.
    unfold after, proj. cbn [d_ms d_txns d_lock d_sent d_looks d_trace c_ms c_txns c_lock c_trace]. rewrite !app_nil_r.
    destruct (r_snap nr); cbn [note y_ms y_txns y_lock y_msgs y_copies y_obs y_trace app]; do 2 f_equal; rewrite map_app; reflexivity.
  - right. exists (OChildSnap r). split.
    { destruct LG as (t & F & P). exists (ptxn k t). cbn [proj y_txns]. rewrite find_proj, F. cbn [option_map]. split; [reflexivity|]. cbn [ptxn t_phase]. rewrite P. reflexivity. }
    destruct (mstep (d_ms d) (MChildSnap r)) as [ms|] eqn:M; [|discriminate]. cbn [rstep proj y_ms]. rewrite M. destruct (rev (ms_child ms)) as [|p ps]; [discriminate|]. injection ST as <- <-.
    unfold after, proj. cbn [d_ms d_txns d_lock d_sent d_looks d_trace c_ms c_txns c_lock c_trace]. rewrite !app_nil_r. reflexivity.
  - right. exists (OChildSnapEnd s). split; [exact LG|]. destruct (mstep (d_ms d) (MChildSnapEnd s)) as [ms|] eqn:M; [|discriminate]. cbn [rstep proj y_ms]. rewrite M. injection ST as <- <-.
    unfold after, proj. cbn [d_ms d_txns d_lock d_sent d_looks d_trace c_ms c_txns c_lock c_trace]. rewrite !app_nil_r. reflexivity.
  - right. exists (OChild r). destruct LG as (t & F & P & LV & LS). split.
    { exists (ptxn k t). cbn [proj y_txns]. rewrite find_proj, F. cbn [option_map ptxn t_phase t_levels t_last]. rewrite P, map_length. auto. }
    rewrite F in ST. injection ST as <- <-. cbn [rstep proj y_txns]. rewrite find_proj, F. cbn [option_map].
    unfold after, proj. cbn [d_ms d_txns d_lock d_sent d_looks d_trace c_ms c_txns c_lock c_trace app]. rewrite !app_nil_r, set_proj. reflexivity.
  - (* lock *)
    injection ST as <- <-. unfold after, proj. cbn [d_ms d_txns d_lock d_sent d_looks d_trace c_ms c_txns c_lock c_trace]. rewrite !app_nil_r. unfold take_lock.
    destruct (keqb c k k0) eqn:Q; [|left; reflexivity]. right. exists (OReadLock r). destruct LG as ((t & F & P) & LK). split; [split|].
    + exists (ptxn k t). cbn [y_txns]. rewrite find_proj, F. cbn [option_map ptxn t_phase]. rewrite P. auto.
    + unfold lockable. cbn [y_lock]. rewrite (p_lock d I k k0 Q). exact LK.
    + reflexivity.
  - (* write *)
    destruct (mstep (d_ms d) (MWrite r)) as [ms|] eqn:M; [|discriminate]. destruct LG as ((t & F & P) & WR & LK & WK). rewrite F in ST. injection ST as <- <-.
    assert (AC : active (proj k d) r).
    { exists (ptxn k t). cbn [proj y_txns]. rewrite find_proj, F. cbn [option_map ptxn t_phase]. rewrite P. auto. }
    assert (ON : once (E:=EV c) (key_msg k0 (mkRmsg (wmsg w) (dchain t))) = true) by (destruct w; reflexivity).
    unfold after, proj. cbn [d_ms d_txns d_lock d_sent d_looks d_trace c_ms c_txns c_lock c_trace ptrace flat_map pev]. rewrite PL, psent_app.
    rewrite (psent_one k k0 _ _ ON). unfold take_lock.
    destruct (keqb c k k0) eqn:Q.
    + right. exists (OWrite r w). split; [split; [exact AC|split; [exact WR|split; [|exact WK]]]|].
      { unfold lockable. cbn [y_lock]. rewrite (p_lock d I k k0 Q). exact LK. }
      cbn [rstep y_ms y_txns]. rewrite M, find_proj, F. cbn [option_map]. rewrite set_proj.
      rewrite chain_proj.
      unfold note, send, MvccModel.lock, with_txn, with_ms. cbn [y_ms y_txns y_lock y_msgs y_copies y_obs y_trace ptxn t_levels t_last t_phase].
      do 3 f_equal. unfold ptxn. cbn [d_root d_levels d_last d_phase]. f_equal.
      destruct (d_levels t) as [|l ls]; cbn [dpush push_ent map]; [reflexivity|].
      unfold plevel at 1 2 4. cbn [dl_xid dl_ents lv_xid lv_ents]. rewrite pents_cons, Q. reflexivity.
    + right. exists (OTouch r). split; [split; [exact AC|exact WR]|]. cbn [rstep y_ms]. rewrite M. cbn [map app]. rewrite app_nil_r.
      unfold with_ms. cbn [y_txns y_lock y_msgs y_copies y_obs y_trace]. do 2 f_equal.
      symmetry. apply (set_same k r t); auto. unfold ptxn. cbn [d_root d_levels d_last d_phase]. destruct (dfind_in _ _ _ F) as (_ & ->). f_equal.
      destruct (d_levels t) as [|l ls]; cbn [dpush map]; [reflexivity|]. unfold plevel at 1 3. cbn [dl_xid dl_ents]. rewrite pents_cons, Q. reflexivity.
  - right. exists (OChildCommit r). destruct LG as (t & F & P & LV). split.
    { exists (ptxn k t). cbn [proj y_txns]. rewrite find_proj, F. cbn [option_map ptxn t_phase t_levels]. rewrite P, map_length. auto. }
    rewrite F in ST. injection ST as <- <-. cbn [rstep proj y_txns]. rewrite find_proj, F. cbn [option_map].
    unfold after, proj. cbn [d_ms d_txns d_lock d_sent d_looks d_trace c_ms c_txns c_lock c_trace app]. rewrite !app_nil_r, set_proj.
    unfold note, with_txn. cbn [y_ms y_txns y_lock y_msgs y_copies y_obs y_trace ptxn t_levels t_last t_phase ptrace flat_map pev app]. do 4 f_equal.
    unfold ptxn. cbn [d_root d_levels d_last d_phase]. f_equal. destruct (d_levels t) as [|a [|p ls]]; cbn [dmerge merge_ents map plevel lv_xid lv_ents dl_xid dl_ents]; try reflexivity.
    unfold plevel at 2. cbn [dl_xid dl_ents]. rewrite pents_app. reflexivity.
  - right. exists (OAbort r). destruct LG as (t & F & P). split.
    { exists (ptxn k t). cbn [proj y_txns]. rewrite find_proj, F. cbn [option_map ptxn t_phase]. rewrite P. auto. }
    rewrite F in ST. destruct (d_levels t) as [|l ls] eqn:DL; [discriminate|]. cbn [hd_error] in ST. injection ST as <- <-. cbn [rstep proj y_txns]. rewrite find_proj, F. cbn [option_map ptxn t_levels].
    rewrite DL. cbn [map hd_error]. unfold after, proj. cbn [d_ms d_txns d_lock d_sent d_looks d_trace c_ms c_txns c_lock c_trace app]. rewrite !app_nil_r, set_proj. reflexivity.
  - (* abort message *)
    destruct LG as (t & [k0 b] & todo & F & P). rewrite F, P in ST. injection ST as <- <-.
    unfold after, proj. cbn [d_ms d_txns d_lock d_sent d_looks d_trace c_ms c_txns c_lock c_trace app]. rewrite PL, psent_app.
    rewrite psent_one by reflexivity. destruct (keqb c k k0) eqn:Q.
    + right. exists (OAbortMsg r). assert (PP : pphase k (d_phase t) = PAbort (S (length (pents k todo)))).
      { rewrite P. cbn [pphase]. rewrite pents_cons, Q. reflexivity. }
      split. { exists (ptxn k t), (length (pents k todo)). cbn [y_txns]. rewrite find_proj, F. cbn [option_map ptxn t_phase]. auto. }
      cbn [rstep y_txns]. rewrite find_proj, F. cbn [option_map]. unfold ptxn at 1. cbn [t_phase]. rewrite PP. rewrite set_proj, chain_proj. reflexivity.
    + left. cbn [map app]. rewrite app_nil_r. f_equal. apply (set_same k r t); auto. unfold ptxn. cbn [d_root d_levels d_last d_phase]. destruct (dfind_in _ _ _ F) as (_ & ->). f_equal.
      rewrite P. cbn [pphase]. rewrite pents_cons, Q. reflexivity.
  - right. exists (OAbortDone r). destruct LG as (t & F & P & LV). split.
    { exists (ptxn k t). cbn [proj y_txns]. rewrite find_proj, F. cbn [option_map ptxn t_phase t_levels]. rewrite P, map_length. split; [reflexivity|]. split; [reflexivity|]. exact LV. }
    rewrite F in ST. cbn [rstep proj y_txns]. rewrite find_proj, F. cbn [option_map ptxn t_levels].
    destruct (d_levels t) as [|l [|l2 ls]]; [discriminate| |].
    + cbn [map]. destruct (dretire c d r (DvAbort r)) as [x'|] eqn:RT; [|discriminate]. injection ST as -> <-. destruct (retire_moves k _ _ _ _ RT) as (RM & TR).
      change (option_map (fun y => note y (VAbort r)) (retire (proj k d) r) = Some (proj k (after d x None))). rewrite RM.
      unfold after, proj. cbn [d_ms d_txns d_lock d_sent d_looks d_trace]. rewrite app_nil_r, TR. reflexivity.
    + injection ST as <- <-. cbn [map]. unfold after, proj. cbn [d_ms d_txns d_lock d_sent d_looks d_trace c_ms c_txns c_lock c_trace app]. rewrite !app_nil_r, set_proj. reflexivity.
  - right. exists (OCommit r). destruct LG as (t & F & P & LV). split.
    { exists (ptxn k t). cbn [proj y_txns]. rewrite find_proj, F. cbn [option_map ptxn t_phase t_levels]. rewrite P, map_length. auto. }
    rewrite F in ST. destruct (d_levels t) as [|l ls] eqn:DL; [discriminate|]. cbn [hd_error] in ST. injection ST as <- <-. cbn [rstep proj y_txns]. rewrite find_proj, F. cbn [option_map ptxn t_levels].
    rewrite DL. cbn [map hd_error]. unfold after, proj. cbn [d_ms d_txns d_lock d_sent d_looks d_trace c_ms c_txns c_lock c_trace app]. rewrite !app_nil_r, set_proj. reflexivity.
  - (* commit message *)
    destruct LG as (t & [k0 b] & todo & F & P). rewrite F, P in ST. injection ST as <- <-.
    assert (PS : psent k (d_sent d ++ match (if b then Some (key_msg k0 (mkRmsg KCommit (dchain t))) else None) with Some m => [(m, ms_hist (d_ms d))] | None => [] end)
      = psent k (d_sent d) ++ (if b && keqb c k k0 then [(mkRmsg KCommit (dchain t), ms_hist (d_ms d))] else [])).
    { rewrite psent_app. f_equal. destruct b; [|reflexivity]. unfold psent. cbn [filter fst]. rewrite for_key_msg by reflexivity. cbn [andb]. destruct (keqb c k k0); reflexivity. }
    unfold after, proj. cbn [d_ms d_txns d_lock d_sent d_looks d_trace c_ms c_txns c_lock c_trace app]. rewrite PL, PS.
    destruct (keqb c k k0) eqn:Q.
    + right. exists (OCommitMsg r). assert (PP : pphase k (d_phase t) = PCommit (b :: pents k todo)).
      { rewrite P. cbn [pphase]. rewrite pents_cons, Q. reflexivity. }
      split. { exists (ptxn k t), b, (pents k todo). cbn [y_txns]. rewrite find_proj, F. cbn [option_map ptxn t_phase]. auto. }
      cbn [rstep y_txns]. rewrite find_proj, F. cbn [option_map]. unfold ptxn at 1. cbn [t_phase]. rewrite PP. rewrite set_proj, chain_proj, Bool.andb_true_r.
      destruct b; [reflexivity|]. rewrite app_nil_r. reflexivity.
    + left. rewrite Bool.andb_false_r, app_nil_r. f_equal. apply (set_same k r t); auto. unfold ptxn. cbn [d_root d_levels d_last d_phase]. destruct (dfind_in _ _ _ F) as (_ & ->). f_equal.
      rewrite P. cbn [pphase]. rewrite pents_cons, Q. reflexivity.
  - right. exists (OCommitDone r). destruct LG as ((t & F & P) & NC). split.
    { split; [|exact NC]. exists (ptxn k t). cbn [proj y_txns]. rewrite find_proj, F. cbn [option_map ptxn t_phase]. rewrite P. auto. }
    destruct (dretire c d r (DvCommit r)) as [x'|] eqn:RT; [|discriminate]. injection ST as -> <-. destruct (retire_moves k _ _ _ _ RT) as (RM & TR).
    change (option_map (fun y => note y (VCommit r)) (retire (proj k d) r) = Some (proj k (after d x None))). rewrite RM.
    unfold after, proj. cbn [d_ms d_txns d_lock d_sent d_looks d_trace]. rewrite app_nil_r, TR. reflexivity.
  - right. exists (OOptimize i). destruct LG as (l & NL & LL). split.
    { exists (plook k (d_sent d) l). cbn [proj y_obs y_msgs]. rewrite nth_error_map, NL. split; [reflexivity|]. cbn [plook ob_mgr ob_n]. destruct LL as [LL|LL]; [left; exact LL|right]. rewrite LL, firstn_all. reflexivity. }
    rewrite NL in ST. injection ST as <- <-. cbn [rstep proj y_obs]. rewrite nth_error_map, NL. cbn [option_map].
    unfold after, proj. cbn [d_ms d_txns d_lock d_sent d_looks d_trace c_ms c_txns c_lock c_trace app]. rewrite PL, psent_app. reflexivity.
Qed.
End P.
