(** The dictionary never runs into an assertion; its invariant. *)
From Verif Require Import Base Bytes LtSpec KOrd UleModel MgrModel MgrProofs MvccModel MvccSpec MvccSys MvccRead PropsMvcc.
From Verif Require Import FtModel FtSpec FtSeg FtOps FtSys OrkModel OrkProofs DbModel DbSpec DbSpecProofs DbProj.
Open Scope nat_scope.

(** ** All bounds satisfy something *)
Section O.
Context {E : env} {X : Type} (P : X -> Prop).
Inductive oall : otree X -> Prop := oall_on v ch : P v -> Forall oall ch -> oall (ON v ch).
Lemma oall_val (o : otree X) : oall o -> P (oval o).
Proof. intros [v ch Hv _]. exact Hv. Qed.
Lemma oall_kids (o : otree X) : oall o -> Forall oall (okids o).
Proof. intros [v ch _ Hc]. exact Hc. Qed.
Lemma oall_set v (o : otree X) : P v -> oall o -> oall (oset v o).
Proof. intros Hv Ho. constructor; [exact Hv|apply oall_kids; exact Ho]. Qed.
Lemma oall_onode path : forall o o', oall o -> onode path o = Some o' -> oall o'.
Proof.
  induction path as [|i path IH]; intros o o' Ho; cbn [onode]; [intros Q; injection Q as <-; exact Ho|].
  destruct (nth_error (okids o) i) as [x|] eqn:Nx; [|discriminate]. apply IH. apply oall_kids in Ho. rewrite Forall_forall in Ho. apply Ho. eapply nth_error_In; eauto.
Qed.
Lemma repl_all {Y} (Q : Y -> Prop) f : (forall y, Q y -> Forall Q (f y)) -> forall l i, Forall Q l -> Forall Q (repl i f l).
Proof.
  intros HF. induction l as [|a l IH]; intros i F; [destruct i; constructor|]. inversion F; subst. destruct i; cbn [repl]; [apply Forall_app; auto|constructor; auto].
Qed.
Lemma repl2_all {Y} (Q : Y -> Prop) f : (forall x y, Q x -> Q y -> Forall Q (f x y)) -> forall l i, Forall Q l -> Forall Q (repl2 i f l).
Proof.
  intros HF. induction l as [|a l IH]; intros i F; [destruct i; constructor|]. inversion F; subst. destruct i; cbn [repl2].
  - destruct l as [|b l]; [exact F|]. inversion H2; subst. apply Forall_app; auto.
  - destruct l; constructor; auto.
Qed.
Lemma oat_all path f : (forall o, oall o -> oall (f o)) -> forall o, oall o -> oall (oat path f o).
Proof.
  intros HF. induction path as [|i path IH]; intros o Ho; cbn [oat]; [auto|]. constructor; [apply oall_val; exact Ho|].
  apply repl_all; [|apply oall_kids; exact Ho]. intros y Hy. constructor; [auto|constructor].
Qed.
Lemma ostep_all none newer (a : op E) t o : P none -> (forall v, P v -> P (newer v)) -> oall o -> oall (ostep none newer a t o).
Proof.
  intros P0 PN Ho. destruct a; cbn [ostep]; try exact Ho.
  - apply oat_all; [|exact Ho]. intros x Hx. apply oall_set; [apply PN, oall_val; exact Hx|exact Hx].
  - apply oat_all; [|exact Ho]. intros x Hx. constructor; [apply oall_val; exact Hx|]. apply repl_all; [|apply oall_kids; exact Hx].
    intros y Hy. constructor; [|constructor]. destruct (_ || _); [apply oall_set; [apply oall_val|]|]; auto.
  - apply oat_all; [|exact Ho]. intros x Hx. constructor; [apply oall_val; exact Hx|]. apply repl_all; [|apply oall_kids; exact Hx].
    intros y Hy. pose proof (oall_kids y Hy) as K. rewrite <- (firstn_skipn (Nat.div2 (length (okids y))) (okids y)) in K. apply Forall_app in K. destruct K.
    repeat constructor; auto; apply oall_val; exact Hy.
  - apply oat_all; [|exact Ho]. intros x Hx. constructor; [apply oall_val; exact Hx|]. apply repl2_all; [|apply oall_kids; exact Hx].
    intros y z Hy Hz.
    assert (Ya : forall b : bool, oall (if b then oset (oval x) y else y)) by (intros []; [apply oall_set; [apply oall_val|]|]; auto).
    assert (Za : forall b : bool, oall (if b then oset (oval x) z else z)) by (intros []; [apply oall_set; [apply oall_val|]|]; auto).
    destruct (at_leaf _); [destruct w|]; repeat constructor; auto; try (apply oall_val; auto; fail); try (apply Forall_app; split; apply oall_kids; auto).
    apply oall_kids. auto.
  - constructor; [exact P0|]. constructor; auto.
Qed.
End O.

Section P.
Context {c : bytes -> bytes -> comparison} (ok : cmp_ok c) (last : txnid).
Local Notation dmsg := (gmsg rmsg).
Local Notation db := (db c).
Local Notation E := (EV c).
Implicit Types (k : bytes) (d : db).

Definition n0 (l : look) : N := (MIN_MSN + N.of_nat (lk_n l))%N.
Definition known (LK : list look) (g : ginfo) : Prop := In (gi_state g) LK /\ In (gi_simple g) LK /\ In (gi_promo g) LK.

(** When the information was gathered. *)
Definition TM (LK : list look) : timing E :=
  Timing E (fun g n => known LK g /\ (n0 (gi_promo g) < n)%N) (fun g n => known LK g /\ (n <= n0 (gi_state g))%N)
    (fun g n n' (H : known LK g /\ (n0 (gi_promo g) < n)%N) L => conj (proj1 H) (N.lt_le_trans _ _ _ (proj2 H) L)).

Record tree_inv d : Prop := {
  q_tree : forall LK, incl (d_looks d) LK -> LInv (TM:=TM LK) (map fst (d_sent d)) (d_tree d);
  q_ork : okt n0 (s_top (d_tree d)) [] (d_ork d) (s_tree (d_tree d));
  q_in : oall (fun v => In v (d_looks d)) (d_ork d);
  q_none : In (none_of c d) (d_looks d) /\ lk_n (none_of c d) = 0;
  q_n : Forall (fun l => lk_n l <= length (d_sent d)) (d_looks d)
}.

Lemma q_top d : tree_inv d -> s_top (d_tree d) = (MIN_MSN + N.of_nat (length (d_sent d)))%N.
Proof. intros I. destruct (q_tree d I (d_looks d) (incl_refl _)) as (T & _). rewrite map_length in T. exact T. Qed.

Lemma info_known d z p g LK : tree_inv d -> incl (d_looks d ++ [now (length (d_sent d)) (d_ms d)]) LK -> info c d z p = Ok g -> known LK g.
Proof.
  intros I IN. unfold info. destruct (nth_error (d_looks d) (z_simple z)) as [a|] eqn:Na; [|discriminate]. destruct (onode p (d_ork d)) as [o|] eqn:No; [|discriminate].
  intros Q. injection Q as <-. split; [|split]; cbn [gi_state gi_simple gi_promo]; apply IN, in_or_app.
  - right. left. reflexivity.
  - left. eapply nth_error_In; eauto.
  - left. apply (oall_val (fun v => In v (d_looks d))). eapply oall_onode; eauto. apply (q_in d I).
Qed.
Lemma info_time d z p g LK : tree_inv d -> incl (d_looks d ++ [now (length (d_sent d)) (d_ms d)]) LK -> info c d z p = Ok g ->
  in_time_at (TM:=TM LK) g p (d_tree d).
Proof.
  intros I IN Q pend t N1 e Ie. pose proof (info_known _ _ _ _ _ I IN Q) as KN.
  destruct (okt_at n0 (s_top (d_tree d)) p [] [] (d_ork d) _ _ _ eq_refl (q_ork d I) N1) as (o & No & KO). apply okt_head in KO. destruct KO as (H1 & H2).
  specialize (H2 (e_msn e) (in_map _ _ _ Ie)). revert Q. unfold info. destruct (nth_error (d_looks d) (z_simple z)) as [a|]; [|discriminate]. rewrite No.
  intros Q. injection Q as <-. cbn [early late TM gi_promo gi_state]. split; (split; [exact KN|]); [lia|]. unfold n0. cbn [lk_n now]. rewrite <- (q_top d I). lia.
Qed.
Lemma info_gc d z p g LK : tree_inv d -> incl (d_looks d ++ [now (length (d_sent d)) (d_ms d)]) LK -> info_opt c d z p = Ok g ->
  gc_in_time (TM:=TM LK) g p (d_tree d).
Proof.
  intros I IN. unfold info_opt. destruct z as [z|]; [|intros Q; injection Q as <-; intros g' Q; discriminate]. destruct (info c d z p) as [g0| |] eqn:Q0; try discriminate.
  intros Q. injection Q as <-. intros g Q. injection Q as <-. pose proof (info_known _ _ _ _ _ I IN Q0) as KN. split; [|split; [|eapply info_time; eauto]].
  - split; [exact KN|]. revert Q0. unfold info. destruct (nth_error (d_looks d) (z_simple z)) as [a|]; [|discriminate]. destruct (onode p (d_ork d)) as [o|] eqn:No; [|discriminate].
    intros Q. injection Q as <-. cbn [gi_promo]. pose proof (oall_onode (fun v => In v (d_looks d)) _ _ _ (q_in d I) No) as K. apply oall_val in K.
    pose proof (q_n d I) as F. rewrite Forall_forall in F. specialize (F _ K). rewrite (q_top d I). unfold n0. lia.
  - intros n LE. split; [exact KN|]. revert Q0. unfold info. destruct (nth_error (d_looks d) (z_simple z)) as [a|]; [|discriminate]. destruct (onode p (d_ork d)) as [o|]; [|discriminate].
    intros Q. injection Q as <-. cbn [gi_state]. unfold n0. cbn [lk_n now]. rewrite <- (q_top d I). exact LE.
Qed.

Ltac rdone Q := match type of Q with match ?e with _ => _ end = Ok _ => let R := fresh "R" in destruct e eqn:R; try discriminate Q end.

Lemma tree_op_lawful d o op LK : tree_inv d -> incl (d_looks d ++ [now (length (d_sent d)) (d_ms d)]) LK -> tree_op c d o = Ok op ->
  lawful (TM:=TM LK) op (d_tree d) /\ injected op = [].
Proof.
  intros I IN Q. destruct o; cbn [tree_op] in Q; repeat rdone Q; injection Q as <-; cbn [lawful injected]; (split; [|reflexivity]); auto;
    try (eapply info_time; eauto; fail).
  - split; eapply info_time; eauto.
  - split; eapply info_gc; eauto.
Qed.

(** ** Clients *)
Lemma client_total d o : dinv (c:=c) last d -> cop_legal c d o -> ids_left (d_ms d) -> exists x om, cstep c d o = Some (x, om).
Proof.
  intros I LG LI. pose proof (p_rows last d I []) as R.
  assert (NA : forall op, rop_legal (proj (c:=c) [] d) op -> exists y', rstep (proj [] d) op = Some y').
  { intros op L. destruct (mvcc_no_abort last _ op R L LI) as (y' & Q & _). eauto. }
  assert (ACT : forall r, dactive c d r -> active (proj [] d) r).
  { intros r (t & F & P). exists (ptxn (c:=c) [] t). cbn [proj y_txns]. rewrite find_proj, F. cbn [option_map ptxn t_phase]. rewrite P. auto. }
  destruct o; cbn [cstep cop_legal] in *.
  - destruct (NA (OBegin read_only records) Logic.I) as (y' & Q). cbn [rstep proj y_ms] in Q. destruct (mstep (d_ms d) (MBegin read_only records)); [|discriminate]. destruct (rev _); [discriminate|]. eauto.
  - destruct (NA (OChildSnap r) (ACT r LG)) as (y' & Q). cbn [rstep proj y_ms] in Q. destruct (mstep (d_ms d) (MChildSnap r)); [|discriminate]. destruct (rev _); [discriminate|]. eauto.
  - destruct (NA (OChildSnapEnd s) LG) as (y' & Q). cbn [rstep proj y_ms] in Q. destruct (mstep (d_ms d) (MChildSnapEnd s)); [|discriminate]. eauto.
  - destruct LG as (t & F & _). rewrite F. eauto.
  - eauto.
  - destruct LG as (AC & WR & _). destruct (NA (OTouch r) (conj (ACT r AC) WR)) as (y' & Q). cbn [rstep proj y_ms] in Q. destruct (mstep (d_ms d) (MWrite r)); [|discriminate].
    destruct AC as (t & F & _). rewrite F. eauto.
  - destruct LG as (t & F & _). rewrite F. eauto.
  - destruct (NA (OAbort r) (ACT r LG)) as (y' & Q). destruct LG as (t & F & _). rewrite F. cbn [rstep proj y_txns] in Q. rewrite find_proj, F in Q. cbn [option_map ptxn t_levels] in Q.
    destruct (d_levels t); [discriminate|]. cbn [hd_error]. eauto.
  - destruct LG as (t & [k b] & todo & F & P). rewrite F, P. eauto.
  - destruct LG as (t & F & P & LV). rewrite F. destruct (NA (OAbortDone r)) as (y' & Q).
    { exists (ptxn (c:=c) [] t). cbn [proj y_txns]. rewrite find_proj, F. cbn [option_map ptxn t_phase t_levels]. rewrite P, map_length. split; [reflexivity|]. split; [reflexivity|]. exact LV. }
    cbn [rstep proj y_txns] in Q. rewrite find_proj, F in Q. cbn [option_map ptxn t_levels] in Q. destruct (d_levels t) as [|l [|l2 ls]]; [discriminate| |eauto].
    cbn [map] in Q. unfold retire in Q. cbn [proj y_ms] in Q. unfold dretire. destruct (mstep (d_ms d) (MFinish r)); [|discriminate]. eauto.
  - destruct (NA (OCommit r)) as (y' & Q).
    { destruct LG as (t & F & P & LV). exists (ptxn (c:=c) [] t). cbn [proj y_txns]. rewrite find_proj, F. cbn [option_map ptxn t_phase t_levels]. rewrite P, map_length. auto. }
    destruct LG as (t & F & _). rewrite F. cbn [rstep proj y_txns] in Q. rewrite find_proj, F in Q. cbn [option_map ptxn t_levels] in Q.
    destruct (d_levels t); [discriminate|]. cbn [hd_error]. eauto.
  - destruct LG as (t & [k b] & todo & F & P). rewrite F, P. eauto.
  - destruct LG as ((t & F & P) & NC). destruct (NA (OCommitDone r)) as (y' & Q).
    { split; [|exact NC]. exists (ptxn (c:=c) [] t). cbn [proj y_txns]. rewrite find_proj, F. cbn [option_map ptxn t_phase]. rewrite P. auto. }
    cbn [rstep] in Q. unfold retire in Q. cbn [proj y_ms] in Q. unfold dretire. destruct (mstep (d_ms d) (MFinish r)); [|discriminate]. eauto.
  - destruct LG as (l & NL & _). rewrite NL. eauto.
Qed.

Lemma after_inv d o x om : dinv last d -> cop_legal c d o -> ids_left (d_ms d) -> cstep c d o = Some (x, om) -> dinv last (after d x om).
Proof.
  intros I LG LI ST. constructor.
  - intros k. destruct (client_moves last d o x om k I LG ST) as [->|(op & L & S)]; [apply I|]. eapply rreach_step; [apply (p_rows last d I k)|exact L|exact LI|exact S].
  - cbn [after d_looks d_sent]. eapply Forall_impl; [|apply (p_looks last d I)]. intros a. rewrite app_length. cbn beta. lia.
  - cbn [after d_lock]. intros k k' Q. pose proof (p_lock last d I k k' Q) as PK.
    assert (TL : forall k0 r, take_lock c k0 r (d_lock d) k = take_lock c k0 r (d_lock d) k').
    { intros k0 r. unfold take_lock. rewrite PK. pose proof (keqb_same ok k k' Q k0) as Q'. rewrite Q'. reflexivity. }
    assert (DL : forall r, drop_locks r (d_lock d) k = drop_locks r (d_lock d) k') by (intros r; unfold drop_locks; rewrite PK; reflexivity).
    assert (RT : forall r e y, dretire c d r e = Some y -> c_lock y k = c_lock y k').
    { intros r e y. unfold dretire. destruct (mstep _ _); [|discriminate]. intros Q2. injection Q2 as <-. apply DL. }
    destruct o; cbn [cstep] in ST;
      repeat match type of ST with
      | match dretire ?a ?b ?r ?e with _ => _ end = _ => let RR := fresh "RR" in destruct (dretire a b r e) eqn:RR; [apply RT in RR|discriminate ST]
      | match ?e with _ => _ end = _ => destruct e; try discriminate ST
      end; injection ST as <- <-; auto; try apply TL.
  - cbn [after d_sent]. apply Forall_app. split; [apply (p_msgs last d I)|]. destruct om as [m|]; constructor; [|constructor]. cbn [fst].
    assert (KM : exists k m', m = key_msg k m'); [|destruct KM as (k & m' & ->); reflexivity].
    destruct o; cbn [cstep] in ST;
      repeat match type of ST with
      | match ?e with _ => _ end = _ => destruct e; try discriminate ST
      end; try discriminate ST; injection ST as _ Q; try (destruct b; [injection Q as Q|discriminate Q]); subst m; eauto.
Qed.

Definition looked d t o : db := mkDb c (d_ms d) (d_txns d) (d_lock d) (d_sent d) (d_looks d ++ [now (length (d_sent d)) (d_ms d)]) (d_trace d) t o.
Lemma looked_inv d t o : dinv last d -> ids_left (d_ms d) -> dinv last (looked d t o).
Proof.
  intros I LI. constructor.
  - intros k. eapply (rreach_step last (proj k d) OObserve); [apply I|exact Logic.I|exact LI|]. cbn [rstep]. unfold proj, looked. cbn [d_ms d_txns d_lock d_sent d_looks d_trace y_ms y_txns y_lock y_msgs y_copies y_obs y_trace].
    rewrite map_app. cbn [map]. unfold plook at 3. cbn [lk_n now lk_mgr lk_hist]. rewrite firstn_all. reflexivity.
  - cbn [looked d_looks d_sent]. apply Forall_app. split; [apply (p_looks last d I)|]. constructor; [cbn [lk_n now]; lia|constructor].
  - apply I.
  - apply I.
Qed.

(** ** Steps *)
Definition dreply d' (o : dop) (r : option (option stored)) : Prop :=
  match o with
  | DTree (TQuery _ k) => exists v gs, r = Some v /\ course (TM:=TM (d_looks d')) k (numbered MIN_MSN (map fst (d_sent d'))) v gs
  | _ => r = None
  end.

Lemma sent_ids d o x m : cstep c d o = Some (x, Some m) -> ms_mgr (c_ms x) = ms_mgr (d_ms d).
Proof.
  intros ST. destruct o; cbn [cstep] in ST;
      repeat match type of ST with
      | match mstep _ (MWrite _) with _ => _ end = _ => let M := fresh "M" in destruct (mstep _ (MWrite _)) eqn:M; [cbn [mstep] in M; injection M as M; subst|discriminate ST]
      | match ?e with _ => _ end = _ => destruct e; try discriminate ST
      end; try discriminate ST; injection ST as <- _; reflexivity.
Qed.

Lemma tree_inv_looks d t o LKS : tree_inv d ->
  (forall LK, incl LKS LK -> LInv (TM:=TM LK) (map fst (d_sent d)) t) -> okt n0 (s_top t) [] o (s_tree t) -> oall (fun v => In v LKS) o ->
  LKS = d_looks d ++ [now (length (d_sent d)) (d_ms d)] ->
  tree_inv (looked d t o).
Proof.
  intros T K1 K2 K3 ->. destruct T as [T1 T2 T3 T4 T5]. constructor; cbn [looked d_looks d_sent d_tree d_ork]; auto.
  - unfold none_of in *. cbn [looked d_looks]. destruct (d_looks d) as [|l ls]; [destruct T4 as ([] & _)|]. cbn [app] in *. split; [left; reflexivity|apply T4].
  - apply Forall_app. split; [exact T5|]. constructor; [cbn [lk_n now]; lia|constructor].
Qed.
Lemma oall_weak {X} (P Q : X -> Prop) : (forall x, P x -> Q x) -> forall o : otree X, oall P o -> oall Q o.
Proof.
  intros W. induction o as [v ch IH] using otree_ind'. intros H. inversion H as [? ? Hv Hc]; subst. constructor; [auto|].
  rewrite Forall_forall in *. auto.
Qed.

Lemma info_nofail d z p : info c d z p <> Fail.
Proof. unfold info. destruct (nth_error _ _); [|discriminate]. destruct (onode _ _); discriminate. Qed.
Lemma info_opt_nofail d z p : info_opt c d z p <> Fail.
Proof. unfold info_opt. destruct z as [z|]; [|discriminate]. pose proof (info_nofail d z p). destruct (info c d z p); congruence. Qed.
Lemma tree_op_nofail d o : tree_op c d o <> Fail.
Proof.
  destruct o; cbn [tree_op]; try discriminate;
    repeat match goal with
    | |- match info ?c ?d ?z ?p with _ => _ end <> _ => let K := fresh in pose proof (info_nofail d z p) as K; destruct (info c d z p); [|discriminate|congruence]
    | |- match info_opt ?c ?d ?z ?p with _ => _ end <> _ => let K := fresh in pose proof (info_opt_nofail d z p) as K; destruct (info_opt c d z p); [|discriminate|congruence]
    end; discriminate.
Qed.

Lemma dstep_ok d o : dinv last d -> tree_inv d -> dop_legal c d o -> ids_left (d_ms d) ->
  outc (dstep c d o) (fun y => dinv last (fst y) /\ tree_inv (fst y) /\ dreply (fst y) o (snd y)).
Proof.
  intros I T LG LI. destruct o as [|o j|o]; cbn [dstep dop_legal] in *.
  - cbn [outc fst snd dreply]. split; [apply looked_inv; auto|]. split; [|reflexivity]. pose proof T as [T1 T2 T3 T4 T5].
    eapply tree_inv_looks; [exact T| |exact T2| |reflexivity].
    + intros LK IN. apply T1. intros a Ia. apply IN, in_or_app. auto.
    + eapply oall_weak; [|exact T3]. intros v Iv. apply in_or_app. auto.
  - destruct (client_total d o I LG LI) as (x & om & ST). rewrite ST. cbn [must]. pose proof (after_inv d o x om I LG LI ST) as I'. destruct om as [m|].
    + destruct (nth_error (d_looks d) (z_simple (i_sel j))) as [a|] eqn:Na; [|exact Logic.I]. destruct (nth_error (d_looks d) (i_promo j)) as [b|] eqn:Nb; [|exact Logic.I].
      destruct (onode (i_path j) (d_ork d)) as [v|] eqn:Nv; [|exact Logic.I].
      set (l := now (S (length (d_sent d))) (c_ms x)). set (g := mkGinfo (z_ini (i_sel j)) l a (newer b (oval v))). set (op := OInject (E:=E) g m (i_keep j) (i_path j)).
      pose proof T as [T1 T2 T3 T4 T5]. pose proof (q_top d T) as TOP. pose proof T5 as T5'. rewrite Forall_forall in T5'.
      assert (NW : forall u, In u (d_looks d) -> In (newer b u) (d_looks d)).
      { intros u Iu. unfold newer. destruct (_ <? _)%N; [eapply nth_error_In; eauto|exact Iu]. }
      assert (Iv : In (oval v) (d_looks d)) by (apply (oall_val (fun v => In v (d_looks d))); eapply oall_onode; eauto).
      assert (LW : forall LK, incl (d_looks d ++ [l]) LK -> lawful (TM:=TM LK) op (d_tree d)).
      { intros LK IN. assert (KN : known LK g).
        { split; [|split]; cbn [g gi_state gi_simple gi_promo]; apply IN, in_or_app; [right; left; reflexivity|left; eapply nth_error_In; eauto|left; auto]. }
        cbn [op lawful]. split; (split; [exact KN|]); cbn [g gi_promo gi_state]; rewrite TOP; unfold n0; [specialize (T5' _ (NW _ Iv)); lia|cbn [l now lk_n]; lia]. }
      assert (LS : forall LK, incl (d_looks d ++ [l]) LK -> outc (step op (d_tree d)) (fun y => LInv (TM:=TM LK) (map fst (d_sent d) ++ [m]) (fst y) /\ snd y = None)).
      { intros LK IN. assert (TK : LInv (TM:=TM LK) (map fst (d_sent d)) (d_tree d)) by (apply T1; intros u Iu; apply IN, in_or_app; auto).
        exact (lstep_ok (TM:=TM LK) ok _ _ op TK (LW LK IN)). }
      assert (OK : forall s' r, step op (d_tree d) = Ok (s', r) -> okt n0 (s_top s') [] (ostep (none_of c d) (newer b) op (s_tree (d_tree d)) (d_ork d)) (s_tree s')).
      { intros s' r S1. eapply step_okt; [| |exact T2|exact S1].
        - destruct T4 as (_ & Z). unfold n0. rewrite Z, TOP. lia.
        - intros u Hu. unfold newer. destruct (_ <? _)%N; [|exact Hu]. apply nth_error_In, T5' in Nb. unfold n0. rewrite TOP. lia. }
      destruct (step op (d_tree d)) as [[t r]| |] eqn:S1; cbn [outc fst snd] in *; [|exact Logic.I|apply (LS _ (incl_refl _))].
      assert (LI' : ids_left (d_ms (after d x (Some m)))) by (unfold ids_left; cbn [after d_ms]; rewrite (sent_ids _ _ _ _ ST); exact LI).
      pose proof (looked_inv _ t (ostep (none_of c d) (newer b) op (s_tree (d_tree d)) (d_ork d)) I' LI') as I2.
      unfold looked in I2. cbn [after d_ms d_txns d_lock d_sent d_looks d_trace] in I2. rewrite app_length in I2. cbn [length] in I2. rewrite Nat.add_1_r in I2.
      split; [exact I2|]. split; [|cbn [dreply]; reflexivity].
      constructor; cbn [d_looks d_sent d_tree d_ork].
      * intros LK IN. rewrite map_app. apply (LS LK IN).
      * eapply OK. reflexivity.
      * eapply oall_weak with (P := fun v => In v (d_looks d)); [intros u Iu; apply in_or_app; auto|]. apply ostep_all; [apply T4|exact NW|exact T3].
      * unfold none_of in *. cbn [d_looks]. destruct (d_looks d) as [|l0 ls]; [destruct T4 as ([] & _)|]. cbn [app]. split; [left; reflexivity|apply T4].
      * rewrite app_length. cbn [length]. apply Forall_app. split; [eapply Forall_impl; [|exact T5]; intros u Hu; cbn beta in *; lia|]. constructor; [unfold l; cbn [now lk_n]; lia|constructor].
    + cbn [outc fst snd dreply]. unfold after in I'. rewrite app_nil_r in I'. split; [exact I'|]. split; [|reflexivity].
      destruct T as [T1 T2 T3 T4 T5]. constructor; cbn [d_looks d_sent d_tree d_ork]; auto.
  - destruct (tree_op c d o) as [op| |] eqn:TO; [|exact Logic.I|].
    2:{ exact (tree_op_nofail d o TO). }
    pose proof T as [T1 T2 T3 T4 T5]. set (l := now (length (d_sent d)) (d_ms d)).
    assert (LS : forall LK, incl (d_looks d ++ [l]) LK -> outc (step op (d_tree d)) (fun y => LInv (TM:=TM LK) (map fst (d_sent d)) (fst y) /\ lreply (TM:=TM LK) (map fst (d_sent d)) op (snd y))).
    { intros LK IN. assert (TK : LInv (TM:=TM LK) (map fst (d_sent d)) (d_tree d)) by (apply T1; intros u Iu; apply IN, in_or_app; auto).
      destruct (tree_op_lawful d o op LK T IN TO) as (LW & IJ). pose proof (lstep_ok (TM:=TM LK) ok _ _ op TK LW) as K. rewrite IJ, app_nil_r in K. exact K. }
    assert (OK : forall s' r, step op (d_tree d) = Ok (s', r) -> okt n0 (s_top s') [] (ostep (none_of c d) (fun v => v) op (s_tree (d_tree d)) (d_ork d)) (s_tree s')).
    { intros s' r S1. eapply step_okt; [| |exact T2|exact S1]; [|auto]. destruct T4 as (_ & Z). unfold n0. rewrite Z, (q_top d T). lia. }
    destruct (step op (d_tree d)) as [[t r]| |] eqn:S1; cbn [outc fst snd] in *; [|exact Logic.I|apply (LS _ (incl_refl _))].
    split; [apply looked_inv; auto|]. split.
    + eapply tree_inv_looks; [exact T| | | |reflexivity].
      * intros LK IN. apply (LS LK IN).
      * eapply OK. reflexivity.
      * eapply oall_weak with (P := fun v => In v (d_looks d)); [intros u Iu; apply in_or_app; auto|]. apply ostep_all; auto. apply T4.
    + destruct (LS _ (incl_refl _)) as (_ & RP). revert TO RP. destruct o; cbn [tree_op];
        repeat match goal with |- match ?e with _ => _ end = _ -> _ => destruct e; try discriminate end; intros Q; injection Q as <-; cbn [lreply dreply]; auto.
      intros (u & -> & gs & C). exists u, gs. split; [reflexivity|exact C].
Qed.

Lemma dinit_ok : (last < TXNID_MAX)%N -> dinv last (db_init c last) /\ tree_inv (db_init c last).
Proof.
  intros L. split.
  - constructor; cbn [db_init d_looks d_sent d_lock].
    + intros k. apply (rreach_init last L).
    + constructor; [cbn; lia|constructor].
    + reflexivity.
    + constructor.
  - constructor; cbn [db_init d_looks d_sent d_tree d_ork].
    + intros LK _. apply linit_ok.
    + apply init_okt. unfold n0. cbn. lia.
    + constructor; [left; reflexivity|constructor].
    + split; [left; reflexivity|reflexivity].
    + constructor; [cbn; lia|constructor].
Qed.

Lemma dreach_inv d : dreach c last d -> dinv last d /\ tree_inv d.
Proof.
  induction 1 as [L|d o d' r D IH LG LI ST]; [apply dinit_ok; exact L|]. destruct IH as (I & T). pose proof (dstep_ok d o I T LG LI) as K. rewrite ST in K. cbn [outc fst] in K. tauto.
Qed.
End P.
