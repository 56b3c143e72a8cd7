(** What is stored for a key in the tree is a copy of the row that a run of the row
    system of MvccModel.v makes, and so is read as that system reads it. *)
From Verif Require Import Base Bytes LtSpec KOrd UleModel MgrModel MgrProofs MvccModel MvccSpec MvccSys MvccRead PropsMvcc.
From Verif Require Import FtModel FtSpec FtSeg FtOps FtSys OrkModel OrkProofs DbModel DbSpec DbSpecProofs DbProj DbInv.
Open Scope nat_scope.

Section P.
Context {c : bytes -> bytes -> comparison} (ok : cmp_ok c) (last : txnid).
Local Notation dmsg := (gmsg rmsg).
Local Notation db := (db c).
Local Notation E := (EV c).
Implicit Types (k : bytes) (d : db).

Lemma concerns_for k (m : dmsg) : concerns (E:=E) k m <-> for_key (c:=c) k m = true.
Proof.
  unfold concerns, keyed, for_key, once, keq, keqb. cbn [kcmp EV A]. split.
  - destruct (m_type m); cbn [In negb orb]; intros K; try reflexivity; rewrite K by tauto; reflexivity.
  - intros F IN. destruct (c k (m_key m)); [reflexivity|exfalso|exfalso]; destruct (m_type m); cbn [negb orb In] in *; try discriminate F; intuition discriminate.
Qed.

Lemma entry_store A : entry (store (Some A)) = Some A.
Proof. destruct A; reflexivity. Qed.
Lemma effect_row g (m : dmsg) r A A' : m_type m = mtype_of (rm_kind (m_arg m)) -> entry r = Some A ->
  row_apply (m_arg m) A (gi_of g) = Some A' -> entry (effect (E:=E) g m r) = Some A'.
Proof.
  intros T ER RA.
  assert (LA : entry (le_apply E g m r) = Some A').
  { cbn [le_apply EV]. destruct r as [[u|]|]; cbn [entry] in ER; try discriminate ER; injection ER as <-; rewrite RA; apply entry_store. }
  unfold effect. change (@m_type (FtModel.A E) m) with (@m_type rmsg m). rewrite T. unfold row_apply in RA. destruct (rm_kind (m_arg m)); cbn [mtype_of]; try exact LA;
    destruct r as [[u|]|]; cbn [entry] in ER; try discriminate ER; injection ER as <-; cbn [is_some] in RA; try exact LA; try (injection RA as <-; reflexivity).
  cbn [le_is_clean EV]. destruct (is_clean u); [|exact LA]. injection RA as <-. reflexivity.
Qed.
Lemma gc_row g u A' : le_garbage_collect u (gi_of g) = Some A' -> entry (le_gc E g (Some u)) = Some A'.
Proof. intros Q. cbn [le_gc EV]. rewrite Q. apply entry_store. Qed.

Definition with_copies (y : rsys) cs : rsys := mkRsys (y_ms y) (y_txns y) (y_lock y) (y_msgs y) cs (y_obs y) (y_trace y).

Lemma psent_firstn k a b (l : list (dmsg * list event)) : a <= b -> length (psent (c:=c) k (firstn a l)) <= length (psent (c:=c) k (firstn b l)).
Proof.
  intros L. replace (firstn a l) with (firstn a (firstn b l)) by (rewrite firstn_firstn; f_equal; lia).
  rewrite <- (firstn_skipn a (firstn b l)) at 2. rewrite psent_app, app_length. lia.
Qed.
Lemma psent_cover k n (sp ss : list (dmsg * list event)) : (forall i x, nth_error sp i = Some x -> for_key (c:=c) k (fst x) = true -> i < n) ->
  length (psent (c:=c) k sp) <= length (psent (c:=c) k (firstn n (sp ++ ss))).
Proof.
  revert ss. induction sp as [|x sp IH] using rev_ind; intros ss K; [cbn; lia|]. destruct (for_key (c:=c) k (fst x)) eqn:F.
  - assert (L : length sp < n) by (apply (K (length sp) x); [rewrite nth_error_app2, Nat.sub_diag by lia; reflexivity|exact F]).
    rewrite firstn_app. replace (firstn n (sp ++ [x])) with (sp ++ [x]) by (symmetry; apply firstn_all2; rewrite app_length; cbn [length]; lia).
    rewrite (psent_app k (sp ++ [x])), app_length. lia.
  - rewrite psent_app. unfold psent at 2. cbn [filter]. rewrite F. cbn [map]. rewrite app_nil_r, <- app_assoc. apply IH.
    intros i y Ny. apply (K i y). rewrite nth_error_app1; [exact Ny|]. apply nth_error_Some. congruence.
Qed.

Lemma course_some (LK : list look) k H r gs : course (TM:=TM (c:=c) LK) k H r gs -> r <> None -> exists n m, In (n, m) H /\ concerns k m.
Proof.
  induction 1 as [|H n m r gs C IH NC|H n m r g gs C IH CC EA LA|H v g gs C IH LA]; intros NE.
  - congruence.
  - destruct (IH NE) as (n' & m' & I & K). exists n', m'. rewrite in_app_iff. auto.
  - exists n, m. rewrite in_app_iff. cbn [In]. auto.
  - apply IH. discriminate.
Qed.

Lemma numbered_snoc (sp : list (dmsg * list event)) H n m : numbered MIN_MSN (map fst sp) = H ++ [(n, m)] ->
  exists sp' h, sp = sp' ++ [(m, h)] /\ H = numbered MIN_MSN (map fst sp') /\ n = (MIN_MSN + N.of_nat (length sp') + 1)%N.
Proof.
  destruct sp as [|x sp _] using rev_ind; [intros Q; destruct H; discriminate Q|]. destruct x as [m' h]. rewrite map_app, numbered_app, map_length. cbn [map fst numbered].
  intros Q. apply app_inj_tail in Q. destruct Q as (Q1 & Q2). pose proof (f_equal fst Q2) as Q3. pose proof (f_equal snd Q2) as Q4. cbn [fst snd] in Q3, Q4. subst m'. exists sp, h. auto.
Qed.
Lemma numbered_nth (sp : list (dmsg * list event)) i m h : nth_error sp i = Some (m, h) -> In ((MIN_MSN + N.of_nat i + 1)%N, m) (numbered MIN_MSN (map fst sp)).
Proof.
  intros Nx. apply nth_error_split in Nx. destruct Nx as (l1 & l2 & -> & <-). rewrite map_app, numbered_app, map_length. apply in_or_app. right. cbn [map fst numbered]. left. reflexivity.
Qed.

Section R.
Context (d : db) (k : bytes) (I : dinv (c:=c) last d) (LI : ids_left (d_ms d)).

Lemma known_sel g : known (d_looks d) g -> exists s, mk_gi (y_obs (proj (c:=c) k d)) s = Some (gi_of g)
  /\ (exists a, nth_error (y_obs (proj (c:=c) k d)) (gs_simple s) = Some a)
  /\ nth_error (y_obs (proj (c:=c) k d)) (gs_promo s) = Some (plook (c:=c) k (d_sent d) (gi_promo g))
  /\ exists i, gs_state s = Some (gi_ini g, i) /\ nth_error (y_obs (proj (c:=c) k d)) i = Some (plook (c:=c) k (d_sent d) (gi_state g)).
Proof.
  intros (K1 & K2 & K3). apply In_nth_error in K1, K2, K3. destruct K1 as (i1 & K1), K2 as (i2 & K2), K3 as (i3 & K3).
  exists (mkSel (Some (gi_ini g, i1)) i2 i3). cbn [gs_state gs_simple gs_promo]. cbn [proj y_obs]. unfold mk_gi. cbn [gs_state gs_simple gs_promo].
  rewrite !nth_error_map, K1, K2, K3. cbn [option_map plook ob_mgr]. split; [reflexivity|]. split; [eauto|]. split; [reflexivity|]. exists i1. rewrite nth_error_map, K1. auto.
Qed.

Lemma replay H r gs : course (TM:=TM (c:=c) (d_looks d)) k H r gs -> forall sp ss, d_sent d = sp ++ ss -> H = numbered MIN_MSN (map fst sp) ->
  (forall x, In x gs -> length (psent (c:=c) k (firstn (lk_n (gi_promo x)) (d_sent d))) <= length (psent (c:=c) k sp)) ->
  exists cs A, rreach last (with_copies (proj (c:=c) k d) cs) /\ entry r = Some A /\ In (length (psent (c:=c) k sp), A) cs.
Proof.
  induction 1 as [|H n m r gs C IH NC|H n m r g gs C IH CC EA LA|H v g gs C IH LA]; intros sp ss QS QH PR; change (FtModel.A E) with rmsg in *.
  - destruct sp; [|discriminate QH]. exists [(0, None)], None. split; [apply (p_rows last d I k)|]. split; [reflexivity|]. left. reflexivity.
  - symmetry in QH. apply numbered_snoc in QH. destruct QH as (sp' & h & -> & QH & _). rewrite <- app_assoc in QS.
    assert (P1 : psent (c:=c) k (sp' ++ [(m, h)]) = psent (c:=c) k sp').
    { rewrite psent_app. unfold psent at 2. cbn [filter fst]. destruct (for_key (c:=c) k m) eqn:F; [exfalso; apply NC, concerns_for, F|]. apply app_nil_r. }
    rewrite P1. apply (IH sp' ([(m, h)] ++ ss) QS QH). intros x Ix. specialize (PR x Ix). rewrite P1 in PR. exact PR.
  - symmetry in QH. apply numbered_snoc in QH. destruct QH as (sp' & h & -> & QH & QN). rewrite <- app_assoc in QS.
    assert (P1 : psent (c:=c) k (sp' ++ [(m, h)]) = psent (c:=c) k sp' ++ [(m_arg m, h)]).
    { rewrite psent_app. unfold psent at 2. cbn [filter fst]. apply concerns_for in CC. rewrite CC. reflexivity. }
    assert (EB : forall x, In x (g :: gs) -> length (psent (c:=c) k (firstn (lk_n (gi_promo x)) (d_sent d))) <= length (psent (c:=c) k sp')).
    { intros x Ix. destruct (EA x Ix) as (_ & L). unfold n0 in L. rewrite QN in L.
      replace (psent (c:=c) k sp') with (psent (c:=c) k (firstn (length sp') (d_sent d))) by (rewrite QS, firstn_app, Nat.sub_diag, firstn_all; cbn [firstn]; rewrite app_nil_r; reflexivity).
      apply psent_firstn. lia. }
    destruct (IH sp' ([(m, h)] ++ ss) QS QH (fun x Ix => EB x (or_intror Ix))) as (cs & A & R & EN & IC).
    destruct (EA g (or_introl eq_refl)) as (KN & _). destruct (known_sel g KN) as (s & MG & S1 & S2 & i & S3 & S4). apply In_nth_error in IC. destruct IC as (j & NJ).
    assert (MS : y_msgs (with_copies (proj (c:=c) k d) cs) = psent (c:=c) k sp' ++ (m_arg m, h) :: psent (c:=c) k ss).
    { cbn [with_copies proj y_msgs]. rewrite QS, app_assoc, psent_app, P1, <- app_assoc. reflexivity. }
    destruct (mvcc_no_abort last _ (OApply j s) R) as (y' & ST & R').
    { exists (length (psent (c:=c) k sp')), A. split; [exact NJ|]. rewrite MS. split; [rewrite app_length; cbn [length]; lia|]. split; [exact S1|]. split.
      - eexists. split; [exact S2|]. cbn [plook ob_n]. specialize (EB g (or_introl eq_refl)). lia.
      - rewrite S3. eexists. split; [exact S4|]. cbn [plook ob_n]. destruct LA as (_ & L). unfold n0 in L. rewrite QN in L.
        replace (S (length (psent (c:=c) k sp'))) with (length (psent (c:=c) k (sp' ++ [(m, h)]))) by (rewrite P1, app_length; cbn [length]; lia).
        replace (sp' ++ [(m, h)]) with (firstn (S (length sp')) (d_sent d)).
        + apply psent_firstn. lia.
        + rewrite QS, firstn_app, firstn_all2 by lia. replace (S (length sp') - length sp') with 1 by lia. reflexivity. }
    { exact LI. }
    cbn [rstep] in ST. rewrite MS in ST. cbn [with_copies y_copies] in ST. rewrite NJ in ST. rewrite nth_error_app2, Nat.sub_diag in ST by lia. cbn [nth_error] in ST.
    change (y_obs (with_copies (proj k d) cs)) with (y_obs (proj (c:=c) k d)) in ST. rewrite MG in ST. destruct (row_apply (m_arg m) A (gi_of g)) as [A'|] eqn:RA; [|discriminate ST]. injection ST as <-.
    exists (cs ++ [(S (length (psent (c:=c) k sp')), A')]), A'. split; [|split].
    + unfold with_copies. change (y_msgs (proj (c:=c) k d)) with (y_msgs (with_copies (proj (c:=c) k d) cs)). rewrite MS. exact R'.
    + eapply effect_row; eauto. pose proof (p_msgs last d I) as F. rewrite QS in F. apply Forall_app in F. destruct F as (_ & F). inversion F; auto.
    + rewrite P1, app_length. cbn [length]. rewrite Nat.add_1_r. apply in_or_app. right. left. reflexivity.
  - destruct (IH sp ss QS QH (fun x Ix => PR x (or_intror Ix))) as (cs & A & R & EN & IC).
    assert (KN : known (d_looks d) g).
    { destruct (course_some _ _ _ _ _ C ltac:(discriminate)) as (n & m & I1 & CC). apply (LA n m I1 CC). }
    destruct (known_sel g KN) as (s & MG & S1 & S2 & i & S3 & S4). apply In_nth_error in IC. destruct IC as (j & NJ).
    destruct v as [u|]; cbn [entry] in EN; [|discriminate EN]. injection EN as <-.
    destruct (mvcc_no_abort last _ (OGc j s) R) as (y' & ST & R').
    { exists (length (psent (c:=c) k sp)), u. split; [exact NJ|]. split; [|rewrite S3; discriminate]. split; [exact S1|]. split.
      - eexists. split; [exact S2|]. cbn [plook ob_n]. apply PR. left. reflexivity.
      - rewrite S3. eexists. split; [exact S4|]. cbn [plook ob_n]. rewrite QS. apply psent_cover. intros a [m h] Na F.
        destruct (LA _ m ltac:(rewrite QH; eapply numbered_nth; exact Na)) as (_ & L); [apply concerns_for; exact F|]. unfold n0 in L. lia. }
    { exact LI. }
    cbn [rstep] in ST. change (y_obs (with_copies (proj k d) cs)) with (y_obs (proj (c:=c) k d)) in ST. cbn [with_copies y_copies] in ST. rewrite NJ in ST. rewrite MG in ST. destruct (le_garbage_collect u (gi_of g)) as [A'|] eqn:RA; [|discriminate ST]. injection ST as <-.
    exists (cs ++ [(length (psent (c:=c) k sp), A')]), A'. split; [exact R'|]. split; [apply gc_row; exact RA|]. apply in_or_app. right. left. reflexivity.
Qed.

(** In the end: a copy with all messages. *)
Lemma stored_copy r gs : course (TM:=TM (c:=c) (d_looks d)) k (numbered MIN_MSN (map fst (d_sent d))) r gs ->
  exists y A, rreach last y /\ current_copy y A /\ entry r = Some A /\ y_ms y = d_ms d /\ y_txns y = map (ptxn (c:=c) k) (d_txns d)
    /\ y_lock y = d_lock d k /\ y_trace y = ptrace c k (d_trace d).
Proof.
  intros C. destruct (replay _ _ _ C (d_sent d) [] (eq_sym (app_nil_r _)) eq_refl) as (cs & A & R & EN & IC).
  - intros x _. rewrite <- (firstn_all (d_sent d)) at 2. destruct (Nat.le_ge_cases (lk_n (gi_promo x)) (length (d_sent d))) as [L|L]; [apply psent_firstn; exact L|].
    rewrite firstn_all2 by lia. rewrite firstn_all. lia.
  - exists (with_copies (proj (c:=c) k d) cs), A. split; [exact R|]. split; [exact IC|]. repeat split; auto.
Qed.
End R.
End P.
