(** The invariant of the rollback logs: every node belongs to exactly one transaction's log
    or to the node cache. *)
From Verif Require Import Base Bytes LogModel RbModel RbSpec RbProofs.
Open Scope N_scope.

Inductive owner := ONone | OTx (u : nat) | OCache | OExt.

Fixpoint sizes (l : list rentry) : option N :=
  match l with
  | [] => Some 0
  | e :: l' => do a <- rb_fsize e; do b <- sizes l'; Some (a + b)
  end.
Lemma sizes_app a b x y : sizes a = Some x -> sizes b = Some y -> sizes (a ++ b) = Some (x + y).
Proof.
  revert x. induction a as [|e a IH]; cbn; intros x H1 H2; [injection H1 as <-; exact H2|].
  destruct (rb_fsize e) as [n|]; [|discriminate]. destruct (sizes a) as [m|]; [|discriminate].
  injection H1 as <-. rewrite (IH m eq_refl H2). f_equal. lia.
Qed.

Definition upd {A} (f : nat -> A) (u : nat) (x : A) : nat -> A := fun v => if Nat.eqb v u then x else f v.
Lemma upd_same {A} (f : nat -> A) u x : upd f u x u = x.
Proof. unfold upd. now rewrite Nat.eqb_refl. Qed.
Lemma upd_other {A} (f : nat -> A) u x v : v <> u -> upd f u x v = f v.
Proof. unfold upd. intros H. destruct (Nat.eqb_spec v u); [contradiction|reflexivity]. Qed.

Definition tx_rel (h : rheap) (ot : option rtxn) (oa : option atxn) (fp : list N) : Prop :=
  match ot, oa with
  | Some t, Some a => t_parent t = a_parent a /\ tx_ok h t (a_log a) fp
  | None, None => fp = []
  | _, _ => False
  end.

Record rinv (h : rheap) (c : list N) (cmax : N) (T : nat -> option rtxn) (A : astate)
    (fpf : nat -> list N) (own : N -> owner) (ext : list N) : Prop := {
  v_tx : forall u, tx_rel h (T u) (A u) (fpf u);
  v_own : forall u b, In b (fpf u) <-> own b = OTx u;
  v_cache : forall b, In b c <-> own b = OCache;
  v_ext : forall b, In b ext <-> own b = OExt;
  v_ndf : forall u, NoDup (fpf u);
  v_ndc : NoDup c;
  v_nde : NoDup ext;
  v_dom : forall b, h b <> None <-> own b <> ONone;
  v_unused : forall b, In b c -> exists nd, h b = Some nd /\ is_unused nd = true;
  v_small : forall b, h b <> None -> b <> 0 /\ b < 2 ^ 63;
  v_len : N.of_nat (length c) <= cmax;
  v_par : forall u t p, T u = Some t -> t_parent t = Some p -> T p <> None /\ p <> u;
  v_bytes : forall b nd, h b = Some nd -> sizes (n_ents nd) = Some (n_bytes nd)
}.

Definition hsame (h h' : rheap) (own : N -> owner) (u : nat) : Prop := forall b, own b = OTx u -> h' b = h b.

Lemma tx_frame h h' t l fp : tx_ok h t l fp -> agree fp h h' -> tx_ok h' t l fp.
Proof.
  intros (ns & ls & fps & lc & fpc & C & T0 & CU & -> & ->) AG.
  apply agree_app in AG as [AC AS].
  exists ns, ls, fps, lc, fpc. split; [eapply chain_frame; eauto|]. split; [exact T0|].
  split; [|auto]. unfold cur_ok in *. destruct (has_current t); [|exact CU].
  destruct CU as (nd & fp & HB & X & SQ & PV & E & -> & TN).
  apply agree_cons in AC as [AB AC].
  exists nd, fp. rewrite AB. split; [exact HB|]. split; [exact X|]. split; [exact SQ|]. split; [exact PV|].
  split; [eapply ents_frame; eauto|]. auto.
Qed.
Lemma rel_frame h h' t l fp : tx_rel h t l fp -> agree fp h h' -> tx_rel h' t l fp.
Proof. destruct t, l; cbn; auto. intros [P H] AG. split; [exact P|]. eapply tx_frame; eauto. Qed.

Lemma small_of h c cmax T A fpf own ext u : rinv h c cmax T A fpf own ext -> small (fpf u).
Proof.
  intros I. apply Forall_forall. intros b IN. apply (v_small _ _ _ _ _ _ _ _ I).
  apply (v_dom _ _ _ _ _ _ _ _ I). apply (v_own _ _ _ _ _ _ _ _ I) in IN. congruence.
Qed.

Lemma ents_app h es1 l1 fp1 es2 l2 fp2 : ents h es1 l1 fp1 -> ents h es2 l2 fp2 ->
  ents h (es1 ++ es2) (l2 ++ l1) (fp1 ++ fp2).
Proof.
  intros E1 E2. induction E1; cbn [app].
  - now rewrite app_nil_r.
  - rewrite app_assoc. constructor. exact IHE1.
  - match goal with |- ents h _ (?a ++ ?b ++ ?c) ((?d ++ ?e) ++ ?f) =>
      rewrite (app_assoc a b c), <- (app_assoc d e f) end. constructor; auto.
Qed.

(** * A node to write to *)

Lemma node_ok s t fresh id a cmax T A fpf own ext :
  rinv (heap s) (cache s) cmax T A fpf own ext -> T id = Some t -> A id = Some a -> fresh_ok s fresh ->
  exists s1 t1 b n fpf' own', node_for_entry s t fresh = Some (s1, t1, b, n) /\
    rinv (heap s1) (cache s1) cmax (upd T id (Some t1)) A fpf' own' ext /\
    heap s1 b = Some n /\ t_cur t1 = b /\ b <> 0 /\ txs s1 = txs s /\ wbs s1 = wbs s /\ cache_max s1 = cache_max s /\
    t_parent t1 = t_parent t /\ t_nents t1 = t_nents t /\
    (forall b', b' <> fresh -> heap s b' = None -> heap s1 b' = None) /\
    (forall b', In b' ext -> heap s1 b' = heap s b').
Proof.
  intros I TT AA (FZ & FB & FN). pose proof (v_tx _ _ _ _ _ _ _ _ I id) as REL. rewrite TT, AA in REL. cbn in REL.
  destruct REL as [PAR TX]. pose proof (small_of _ _ _ _ _ _ _ _ id I) as SM.
  pose proof (v_ndf _ _ _ _ _ _ _ _ I id) as ND.
  destruct TX as (ns & ls & fps & lc & fpc & C & T0 & CU & AL & FP).
  assert (NSL : ns < 2 ^ 63).
  { rewrite FP in ND, SM. apply NoDup_app' in ND as (_ & N1 & _). apply Forall_app in SM as [_ S1].
    pose proof (chain_len _ _ _ _ _ _ _ C). pose proof (pigeon fps (2 ^ 63) N1 S1).
    destruct (N.eq_dec ns (2 ^ 63)) as [->|]; [|lia]. exfalso.
    assert (L : N.of_nat (length (0 :: fps)) <= 2 ^ 63).
    { apply pigeon; [|constructor; [lia|exact S1]]. constructor; [|exact N1]. intros Z.
      assert (IN : In 0 (fpf id)) by (rewrite FP; apply in_app_iff; auto).
      apply (v_own _ _ _ _ _ _ _ _ I) in IN.
      assert (heap s 0 <> None) by (apply (v_dom _ _ _ _ _ _ _ _ I); congruence).
      apply (v_small _ _ _ _ _ _ _ _ I) in H1. lia. }
    cbn [length] in L. lia. }
  unfold node_for_entry. unfold cur_ok in CU. destruct (has_current t) eqn:HC.
  - destruct CU as (nd & fp & HB & X & SQ & PV & E & -> & TN). unfold pin. rewrite HB.
    unfold verify. rewrite X, pair_eqb_refl, TN, pred64_succ, SQ, N.eqb_refl by lia. cbn [andb].
    exists s, t, (t_cur t), nd, fpf, own. split; [reflexivity|]. split.
    + destruct I. constructor; auto.
      * intros u. unfold upd. destruct (Nat.eqb_spec u id) as [->|]; [|auto]. rewrite <- TT. auto.
      * intros u t' p. unfold upd. destruct (Nat.eqb_spec u id) as [->|].
        -- intros E'. injection E' as <-. intros P. specialize (v_par0 _ _ _ TT P). destruct (Nat.eqb_spec p id); [split; [discriminate|]|]; intuition.
        -- intros E' P. specialize (v_par0 _ _ _ E' P). destruct (Nat.eqb_spec p id); [split; [discriminate|]|]; intuition.
    + unfold has_current in HC. apply negb_true_iff, N.eqb_neq in HC. auto 12.
  - destruct CU as (-> & -> & TN). cbn [app] in FP. rewrite app_nil_r in AL.
    set (init := mkRN (t_xid t) (t_num t) (t_tail t) [] 0).
    assert (NUM : (t_num t + 1) mod 2 ^ 64 = ns + 1) by (rewrite TN; apply N.mod_small; lia).
    rewrite NUM.
    set (t' := fun b => mkRT (t_xid t) (t_parent t) (ns + 1) (t_head t) (t_tail t) b (t_nents t)).
    (* the result of taking block [b] *)
    assert (TAKE : forall b c', b <> 0 -> b < 2 ^ 63 ->
       (own b = ONone /\ c' = cache s \/ cache s = b :: c') ->
       rinv (hset (heap s) b init) c' cmax (upd T id (Some (t' b))) A (upd fpf id (b :: fps))
         (fun y => if y =? b then OTx id else own y) ext).
    { intros b c' BZ BS OB.
      assert (NOB : forall u, ~ In b (fpf u)).
      { intros u IN. apply (v_own _ _ _ _ _ _ _ _ I) in IN. destruct OB as [[O _]|O]; [congruence|].
        assert (IC : In b (cache s)) by (rewrite O; left; reflexivity).
        apply (v_cache _ _ _ _ _ _ _ _ I) in IC. congruence. }
      assert (NOE : ~ In b ext).
      { intros IN. apply (v_ext _ _ _ _ _ _ _ _ I) in IN. destruct OB as [[O _]|O]; [congruence|].
        assert (IC : In b (cache s)) by (rewrite O; left; reflexivity).
        apply (v_cache _ _ _ _ _ _ _ _ I) in IC. congruence. }
      assert (CC : forall y, In y c' <-> In y (cache s) /\ y <> b).
      { intros y. destruct OB as [[O ->]|O].
        - split; [|tauto]. intros IN. split; [exact IN|]. intros ->. apply (v_cache _ _ _ _ _ _ _ _ I) in IN. congruence.
        - rewrite O. pose proof (v_ndc _ _ _ _ _ _ _ _ I) as NC. rewrite O in NC. inversion NC; subst.
          cbn. split; [intros IN; split; [auto|intros ->; contradiction]|intros [[E|IN] NE]; [congruence|exact IN]]. }
      assert (AGR : forall fp, ~ In b fp -> agree fp (heap s) (hset (heap s) b init)).
      { intros fp NI y IN. unfold hset. destruct (N.eqb_spec y b) as [->|]; [contradiction|reflexivity]. }
      constructor.
      - intros u. unfold upd. destruct (Nat.eqb_spec u id) as [->|NE].
        + rewrite AA. cbn. split; [exact PAR|]. exists ns, ls, fps, [], [b].
          split; [eapply chain_frame; [exact C|apply AGR; rewrite <- FP; apply NOB]|]. split; [exact T0|].
          split; [|split; [now rewrite app_nil_r|reflexivity]].
          unfold cur_ok, has_current. cbn [t_cur t']. apply N.eqb_neq in BZ. unfold ROLLBACK_NONE. rewrite BZ. cbn [negb].
          exists init, []. unfold hset. rewrite N.eqb_refl. cbn. repeat split; auto. constructor.
        + eapply rel_frame; [apply (v_tx _ _ _ _ _ _ _ _ I)|apply AGR, NOB].
      - intros u y. unfold upd. destruct (N.eqb_spec y b) as [->|NE].
        + destruct (Nat.eqb_spec u id) as [->|NU]; [split; [reflexivity|left; reflexivity]|].
          split; [intros IN; elim (NOB u IN)|congruence].
        + rewrite <- (v_own _ _ _ _ _ _ _ _ I). destruct (Nat.eqb_spec u id) as [->|NU]; [|tauto].
          cbn. rewrite FP. split; [intros [E|IN]; [congruence|exact IN]|auto].
      - intros y. rewrite CC, (v_cache _ _ _ _ _ _ _ _ I). destruct (N.eqb_spec y b) as [->|NE]; [split; [tauto|congruence]|tauto].
      - intros y. rewrite (v_ext _ _ _ _ _ _ _ _ I). destruct (N.eqb_spec y b) as [->|NE]; [|tauto].
        rewrite <- (v_ext _ _ _ _ _ _ _ _ I). split; [contradiction|congruence].
      - intros u. unfold upd. destruct (Nat.eqb_spec u id) as [->|NU]; [|apply (v_ndf _ _ _ _ _ _ _ _ I)].
        constructor; [rewrite <- FP; apply NOB|rewrite <- FP; exact ND].
      - destruct OB as [[_ ->]|O]; [apply (v_ndc _ _ _ _ _ _ _ _ I)|].
        pose proof (v_ndc _ _ _ _ _ _ _ _ I) as NC. rewrite O in NC. now inversion NC.
      - apply (v_nde _ _ _ _ _ _ _ _ I).
      - intros y. unfold hset. destruct (N.eqb_spec y b) as [->|NE]; [split; discriminate|apply (v_dom _ _ _ _ _ _ _ _ I)].
      - intros y IN. apply CC in IN as [IN NE]. unfold hset. destruct (N.eqb_spec y b); [contradiction|].
        apply (v_unused _ _ _ _ _ _ _ _ I). exact IN.
      - intros y. unfold hset. destruct (N.eqb_spec y b) as [->|NE]; [auto|apply (v_small _ _ _ _ _ _ _ _ I)].
      - pose proof (v_len _ _ _ _ _ _ _ _ I) as L. destruct OB as [[_ ->]|O]; [exact L|]. rewrite O in L. cbn [length] in L. lia.
      - intros u tu p. unfold upd. destruct (Nat.eqb_spec u id) as [->|NU].
        + intros E. injection E as <-. cbn. intros P. pose proof (v_par _ _ _ _ _ _ _ _ I id t p TT P).
          destruct (Nat.eqb_spec p id); [split; [discriminate|]|]; intuition.
        + intros E P. pose proof (v_par _ _ _ _ _ _ _ _ I u tu p E P).
          destruct (Nat.eqb_spec p id); [split; [discriminate|]|]; intuition.
      - intros y nd. unfold hset. destruct (N.eqb_spec y b) as [->|NE]; [|apply (v_bytes _ _ _ _ _ _ _ _ I)].
        intros E. injection E as <-. reflexivity. }
    assert (ELSE : own fresh = ONone).
    { destruct (own fresh) eqn:O; auto; exfalso; (assert (Z : heap s fresh <> None) by (apply (v_dom _ _ _ _ _ _ _ _ I); congruence)); congruence. }
    assert (EXT : forall b b', (own b = ONone \/ In b (cache s)) -> In b' ext -> hset (heap s) b init b' = heap s b').
    { intros b b' OB IN. apply (v_ext _ _ _ _ _ _ _ _ I) in IN. unfold hset. destruct (N.eqb_spec b' b) as [->|]; [|reflexivity].
      destruct OB as [O|IC]; [congruence|]. apply (v_cache _ _ _ _ _ _ _ _ I) in IC. congruence. }
    destruct (if has_spilled t then [] else cache s) as [|b rest] eqn:SEL.
    + rewrite FN. assert (G : negb (fresh =? ROLLBACK_NONE) && (fresh <? 2 ^ 63) && negb (is_some (@None rnode)) = true).
      { cbn [is_some negb]. rewrite andb_true_r. apply andb_true_iff. split; [|now apply N.ltb_lt].
        apply negb_true_iff, N.eqb_neq. exact FZ. }
      rewrite G. exists (set_heap s (hset (heap s) fresh init) (cache s)), (t' fresh), fresh, init. do 2 eexists.
      split; [reflexivity|]. split; [apply (TAKE fresh (cache s)); auto|]. cbn.
      split; [unfold hset; now rewrite N.eqb_refl|]. do 7 (split; [auto|]). split.
      * intros b' NE Z. unfold hset. destruct (N.eqb_spec b' fresh); [contradiction|exact Z].
      * intros b' IN. apply EXT; auto.
    + destruct (has_spilled t); [discriminate|].
      assert (IC : In b (cache s)) by (rewrite SEL; left; reflexivity).
      destruct (v_unused _ _ _ _ _ _ _ _ I b IC) as (nd & HB & UN). unfold pin. rewrite HB, UN.
      assert (SB : b <> 0 /\ b < 2 ^ 63) by (apply (v_small _ _ _ _ _ _ _ _ I); congruence).
      exists (set_heap s (hset (heap s) b init) rest), (t' b), b, init. do 2 eexists.
      split; [reflexivity|]. split; [apply (TAKE b rest); tauto|]. cbn.
      split; [unfold hset; now rewrite N.eqb_refl|]. do 2 (split; [tauto|]). do 5 (split; [auto|]). split.
      * intros b' NE Z. unfold hset. destruct (N.eqb_spec b' b) as [->|]; [congruence|exact Z].
      * intros b' IN. apply EXT; auto.
Qed.

Lemma par_same T id t t1 : T id = Some t -> t_parent t1 = t_parent t ->
  (forall u t p, T u = Some t -> t_parent t = Some p -> T p <> None /\ p <> u) ->
  forall u t p, upd T id (Some t1) u = Some t -> t_parent t = Some p -> upd T id (Some t1) p <> None /\ p <> u.
Proof.
  intros TT P1 V u tu p. unfold upd. destruct (Nat.eqb_spec u id) as [->|NU].
  - intros E. injection E as <-. rewrite P1. intros P. specialize (V id t p TT P).
    destruct (Nat.eqb_spec p id); [split; [discriminate|]|]; intuition.
  - intros E P. specialize (V u tu p E P). destruct (Nat.eqb_spec p id); [split; [discriminate|]|]; intuition.
Qed.

(** Linking entries in front of the current node's, together with the nodes they include. *)
Lemma push_ok h c cmax T A fpf own ext' id t a b n new lnew fpn nb :
  rinv h c cmax T A fpf own (fpn ++ ext') -> T id = Some t -> A id = Some a -> t_cur t = b -> b <> 0 -> h b = Some n ->
  ents h new lnew fpn -> sizes new = Some nb ->
  exists fpf' own', rinv (hset h b (mkRN (n_xid n) (n_seq n) (n_prev n) (new ++ n_ents n) (n_bytes n + nb))) c cmax T
    (aset A id (Some (mkA (a_parent a) (a_log a ++ lnew)))) fpf' own' ext'.
Proof.
  intros I TT AA TC BZ HB E SZ.
  pose proof (v_tx _ _ _ _ _ _ _ _ I id) as REL. rewrite TT, AA in REL. cbn in REL.
  destruct REL as [PAR (ns & ls & fps & lc & fpc & C & T0 & CU & AL & FP)].
  unfold cur_ok in CU. assert (HC : has_current t = true) by (unfold has_current; rewrite TC; now apply negb_true_iff, N.eqb_neq).
  rewrite HC in CU. destruct CU as (nd & fp & HB' & X & SQ & PV & E' & -> & TN). rewrite TC in *.
  assert (nd = n) by congruence. subst nd.
  assert (OB : own b = OTx id) by (apply (v_own _ _ _ _ _ _ _ _ I); rewrite FP; left; reflexivity).
  set (n' := mkRN (n_xid n) (n_seq n) (n_prev n) (new ++ n_ents n) (n_bytes n + nb)).
  assert (AGR : forall l, ~ In b l -> agree l h (hset h b n')).
  { intros l NI y IN. unfold hset. destruct (N.eqb_spec y b) as [->|]; [contradiction|reflexivity]. }
  pose proof (v_ndf _ _ _ _ _ _ _ _ I id) as ND. rewrite FP in ND. cbn [app] in ND.
  inversion ND as [|? ? NB ND']; subst.
  set (b := t_cur t) in *.
  assert (NBN : ~ In b fpn).
  { intros IN. assert (OE : own b = OExt) by (apply (v_ext _ _ _ _ _ _ _ _ I); apply in_app_iff; auto). congruence. }
  pose proof (v_nde _ _ _ _ _ _ _ _ I) as NE. apply NoDup_app' in NE as (NN & NX & DX).
  exists (upd fpf id (b :: (fpn ++ fp) ++ fps)), (fun y => if inb y fpn then OTx id else own y).
  constructor.
  - intros u. unfold aset, upd. destruct (Nat.eqb_spec u id) as [->|NU].
    + rewrite TT. cbn. split; [exact PAR|]. exists (n_seq n), ls, fps, (lc ++ lnew), (b :: fpn ++ fp).
      split; [eapply chain_frame; [exact C|apply AGR; intros IN; apply NB, in_app_iff; auto]|].
      split; [exact T0|]. split; [|split; [now rewrite AL, app_assoc|reflexivity]].
      unfold cur_ok. rewrite HC. exists n', (fpn ++ fp). fold b. unfold hset at 1. rewrite N.eqb_refl.
      split; [reflexivity|]. split; [exact X|]. split; [reflexivity|]. split; [exact PV|].
      split; [|auto]. cbn [n_ents n'].
      apply (ents_app (hset h b n') new lnew fpn (n_ents n) lc fp).
      * eapply ents_frame; [exact E|apply AGR, NBN].
      * eapply ents_frame; [exact E'|apply AGR]. intros IN. apply NB, in_app_iff. auto.
    + eapply rel_frame; [apply (v_tx _ _ _ _ _ _ _ _ I)|]. apply AGR. intros IN.
      apply (v_own _ _ _ _ _ _ _ _ I) in IN. congruence.
  - intros u y. unfold upd. destruct (inb y fpn) eqn:Y.
    + apply inb_in in Y. destruct (Nat.eqb_spec u id) as [->|NU].
      * split; [reflexivity|]. intros _. right. apply in_app_iff. left. apply in_app_iff. auto.
      * split; [|congruence]. intros IN. apply (v_own _ _ _ _ _ _ _ _ I) in IN.
        assert (OE : own y = OExt) by (apply (v_ext _ _ _ _ _ _ _ _ I); apply in_app_iff; auto). congruence.
    + apply inb_false in Y. rewrite <- (v_own _ _ _ _ _ _ _ _ I). destruct (Nat.eqb_spec u id) as [->|NU]; [|tauto].
      rewrite FP. cbn. rewrite !in_app_iff. tauto.
  - intros y. rewrite (v_cache _ _ _ _ _ _ _ _ I). destruct (inb y fpn) eqn:Y; [|tauto]. apply inb_in in Y.
    assert (OE : own y = OExt) by (apply (v_ext _ _ _ _ _ _ _ _ I); apply in_app_iff; auto). split; congruence.
  - intros y. destruct (inb y fpn) eqn:Y.
    + apply inb_in in Y. split; [intros IN; elim (DX y Y IN)|discriminate].
    + apply inb_false in Y. rewrite <- (v_ext _ _ _ _ _ _ _ _ I), in_app_iff. tauto.
  - intros u. unfold upd. destruct (Nat.eqb_spec u id) as [->|NU]; [|apply (v_ndf _ _ _ _ _ _ _ _ I)].
    assert (OF : forall y, In y fpn -> ~ In y (b :: fp ++ fps)).
    { intros y IN IN'. assert (OE : own y = OExt) by (apply (v_ext _ _ _ _ _ _ _ _ I); apply in_app_iff; auto).
      assert (own y = OTx id) by (apply (v_own _ _ _ _ _ _ _ _ I); rewrite FP; exact IN'). congruence. }
    constructor.
    + rewrite <- app_assoc. intros IN. apply in_app_iff in IN as [IN|IN]; [contradiction|]. apply NB, IN.
    + rewrite <- app_assoc. apply NoDup_app'. split; [exact NN|]. split; [exact ND'|].
      intros y IN IN'. apply (OF y IN). right. exact IN'.
  - apply (v_ndc _ _ _ _ _ _ _ _ I).
  - exact NX.
  - intros y. unfold hset. destruct (N.eqb_spec y b) as [->|NE].
    + destruct (inb b fpn); split; try discriminate; congruence.
    + rewrite (v_dom _ _ _ _ _ _ _ _ I). destruct (inb y fpn) eqn:Y; [|tauto]. apply inb_in in Y.
      assert (OE : own y = OExt) by (apply (v_ext _ _ _ _ _ _ _ _ I); apply in_app_iff; auto).
      rewrite OE. split; discriminate.
  - intros y IN. unfold hset. destruct (N.eqb_spec y b) as [->|NE].
    + apply (v_cache _ _ _ _ _ _ _ _ I) in IN. congruence.
    + apply (v_unused _ _ _ _ _ _ _ _ I). exact IN.
  - intros y. unfold hset. destruct (N.eqb_spec y b) as [->|NE]; intros H; apply (v_small _ _ _ _ _ _ _ _ I); congruence.
  - apply (v_len _ _ _ _ _ _ _ _ I).
  - apply (v_par _ _ _ _ _ _ _ _ I).
  - intros y nd. unfold hset. destruct (N.eqb_spec y b) as [->|NE]; [|apply (v_bytes _ _ _ _ _ _ _ _ I)].
    intros Z. injection Z as <-. cbn [n_ents n_bytes n'].
    pose proof (v_bytes _ _ _ _ _ _ _ _ I b n HB). rewrite (sizes_app _ _ _ _ SZ H). f_equal. lia.
Qed.

(** Retiring the current node. *)
Lemma spill_ok s h c cmax T A fpf own ext id t a b n :
  rinv h c cmax T A fpf own ext -> T id = Some t -> A id = Some a -> t_cur t = b -> b <> 0 -> h b = Some n ->
  exists t', maybe_spill s t b n = Some t' /\ t_parent t' = t_parent t /\
    rinv h c cmax (upd T id (Some t')) A fpf own ext.
Proof.
  intros I TT AA TC BZ HB. unfold maybe_spill. rewrite TC, N.eqb_refl.
  assert (UP : forall t', t_parent t' = t_parent t -> tx_ok h t' (a_log a) (fpf id) ->
            rinv h c cmax (upd T id (Some t')) A fpf own ext).
  { intros t' P OK. pose proof (v_tx _ _ _ _ _ _ _ _ I id) as REL. rewrite TT, AA in REL. destruct REL as [PAR _].
    pose proof (par_same T id t t' TT P (v_par _ _ _ _ _ _ _ _ I)) as VP.
    destruct I. constructor; auto. intros u. unfold upd. destruct (Nat.eqb_spec u id) as [->|NU]; [|auto].
    rewrite AA. cbn. split; [congruence|exact OK]. }
  pose proof (v_tx _ _ _ _ _ _ _ _ I id) as REL. rewrite TT, AA in REL. destruct REL as [PAR TX].
  destruct (wbs s <? n_bytes n).
  2:{ exists t. split; [reflexivity|]. split; [reflexivity|]. apply UP; [reflexivity|exact TX]. }
  eexists. split; [reflexivity|]. split; [reflexivity|]. apply UP; [reflexivity|].
  destruct TX as (ns & ls & fps & lc & fpc & C & T0 & CU & -> & ->).
  unfold cur_ok in CU. assert (HC : has_current t = true) by (unfold has_current; rewrite TC; now apply negb_true_iff, N.eqb_neq).
  rewrite HC in CU. destruct CU as (nd & fp & HB' & X & SQ & PV & E' & -> & TN). rewrite TC in *.
  assert (HS : has_spilled t = negb (ns =? 0)).
  { unfold has_spilled. f_equal. apply Bool.eq_true_iff_eq. rewrite !N.eqb_eq. apply (chain_b0 _ _ _ _ _ _ _ C). }
  exists (ns + 1), (ls ++ lc), (b :: fp ++ fps), [], []. cbn [t_xid t_head t_tail].
  split; [|split; [|split; [|split]]].
  - apply (chain_cons h (t_xid t) _ b ns nd); auto.
    + intros ->. rewrite HS. reflexivity.
    + rewrite PV. rewrite HS. destruct (N.eqb_spec ns 0) as [->|NZ]; cbn [negb]; [|exact C].
      eapply chain_any_head; exact C.
  - lia.
  - unfold cur_ok, has_current. cbn. auto.
  - now rewrite app_nil_r.
  - reflexivity.
Qed.

(** A node nobody needs goes to the cache or is freed. *)
Lemma give_ok h c cmax T A fpf own ext b h' c' : rinv h c cmax T A fpf own (b :: ext) ->
  give_or_remove h c cmax b = (h', c') -> exists own', rinv h' c' cmax T A fpf own' ext.
Proof.
  intros I G.
  assert (OB : own b = OExt) by (apply (v_ext _ _ _ _ _ _ _ _ I); left; reflexivity).
  pose proof (v_nde _ _ _ _ _ _ _ _ I) as NE. inversion NE as [|? ? NB NX]; subst.
  assert (NOB : forall u, ~ In b (fpf u)) by (intros u IN; apply (v_own _ _ _ _ _ _ _ _ I) in IN; congruence).
  assert (NC : ~ In b c) by (intros IN; apply (v_cache _ _ _ _ _ _ _ _ I) in IN; congruence).
  unfold give_or_remove in G. destruct (N.of_nat (length c) <? cmax) eqn:L; injection G as <- <-.
  - apply N.ltb_lt in L. exists (fun y => if y =? b then OCache else own y).
    assert (AGR : forall l, ~ In b l -> agree l h (hset h b empty_node)).
    { intros l NI y IN. unfold hset. destruct (N.eqb_spec y b) as [->|]; [contradiction|reflexivity]. }
    constructor.
    + intros u. eapply rel_frame; [apply (v_tx _ _ _ _ _ _ _ _ I)|apply AGR, NOB].
    + intros u y. rewrite (v_own _ _ _ _ _ _ _ _ I). destruct (N.eqb_spec y b) as [->|]; [split; congruence|tauto].
    + intros y. rewrite in_app_iff, (v_cache _ _ _ _ _ _ _ _ I). cbn. destruct (N.eqb_spec y b) as [->|NE']; [split; auto|].
      split; [intros [H|[H|[]]]; congruence|auto].
    + intros y. pose proof (v_ext _ _ _ _ _ _ _ _ I y) as VE. cbn in VE. destruct (N.eqb_spec y b) as [->|NE']; [split; [contradiction|discriminate]|].
      rewrite <- VE. split; [auto|intros [H|H]; [congruence|exact H]].
    + apply (v_ndf _ _ _ _ _ _ _ _ I).
    + apply NoDup_app'. split; [apply (v_ndc _ _ _ _ _ _ _ _ I)|]. split; [repeat constructor; intros []|].
      intros y IN [<-|[]]. contradiction.
    + exact NX.
    + intros y. unfold hset. destruct (N.eqb_spec y b) as [->|NE']; [split; discriminate|apply (v_dom _ _ _ _ _ _ _ _ I)].
    + intros y IN. unfold hset. destruct (N.eqb_spec y b) as [->|NE']; [exists empty_node; auto|].
      apply (v_unused _ _ _ _ _ _ _ _ I). apply in_app_iff in IN as [IN|[IN|[]]]; [exact IN|congruence].
    + intros y. unfold hset. destruct (N.eqb_spec y b) as [->|NE']; intros H; apply (v_small _ _ _ _ _ _ _ _ I); auto.
      apply (v_dom _ _ _ _ _ _ _ _ I). congruence.
    + rewrite app_length. cbn [length]. lia.
    + apply (v_par _ _ _ _ _ _ _ _ I).
    + intros y nd. unfold hset. destruct (N.eqb_spec y b) as [->|NE']; [|apply (v_bytes _ _ _ _ _ _ _ _ I)].
      intros Z. injection Z as <-. reflexivity.
  - exists (fun y => if y =? b then ONone else own y).
    assert (AGR : forall l, ~ In b l -> agree l h (hdel h b)).
    { intros l NI y IN. unfold hdel. destruct (N.eqb_spec y b) as [->|]; [contradiction|reflexivity]. }
    constructor.
    + intros u. eapply rel_frame; [apply (v_tx _ _ _ _ _ _ _ _ I)|apply AGR, NOB].
    + intros u y. rewrite (v_own _ _ _ _ _ _ _ _ I). destruct (N.eqb_spec y b) as [->|]; [split; congruence|tauto].
    + intros y. rewrite (v_cache _ _ _ _ _ _ _ _ I). destruct (N.eqb_spec y b) as [->|NE']; [split; congruence|tauto].
    + intros y. pose proof (v_ext _ _ _ _ _ _ _ _ I y) as VE. cbn in VE. destruct (N.eqb_spec y b) as [->|NE']; [split; [contradiction|discriminate]|].
      rewrite <- VE. split; [auto|intros [H|H]; [congruence|exact H]].
    + apply (v_ndf _ _ _ _ _ _ _ _ I).
    + apply (v_ndc _ _ _ _ _ _ _ _ I).
    + exact NX.
    + intros y. unfold hdel. destruct (N.eqb_spec y b) as [->|NE']; [tauto|apply (v_dom _ _ _ _ _ _ _ _ I)].
    + intros y IN. unfold hdel. destruct (N.eqb_spec y b) as [->|NE']; [contradiction|].
      apply (v_unused _ _ _ _ _ _ _ _ I). exact IN.
    + intros y. unfold hdel. destruct (N.eqb_spec y b) as [->|NE']; [tauto|apply (v_small _ _ _ _ _ _ _ _ I)].
    + apply (v_len _ _ _ _ _ _ _ _ I).
    + apply (v_par _ _ _ _ _ _ _ _ I).
    + intros y nd. unfold hdel. destruct (N.eqb_spec y b) as [->|NE']; [discriminate|apply (v_bytes _ _ _ _ _ _ _ _ I)].
Qed.

(** Setting a transaction aside: its nodes become unowned. *)
Lemma aside_ok h c cmax T A fpf own id t a :
  rinv h c cmax T A fpf own [] -> T id = Some t -> A id = Some a -> no_child A id ->
  exists own', rinv h c cmax (upd T id None) (aset A id None) (upd fpf id []) own' (fpf id).
Proof.
  intros I TT AA NC. exists (fun y => if inb y (fpf id) then OExt else own y).
  pose proof (v_own _ _ _ _ _ _ _ _ I) as VO.
  constructor.
  - intros u. unfold upd, aset. destruct (Nat.eqb_spec u id); [reflexivity|apply (v_tx _ _ _ _ _ _ _ _ I)].
  - intros u y. unfold upd. destruct (inb y (fpf id)) eqn:Y.
    + apply inb_in in Y. apply VO in Y. split; [|discriminate]. destruct (Nat.eqb_spec u id) as [->|NU]; [intros []|].
      intros IN. apply VO in IN. congruence.
    + apply inb_false in Y. rewrite <- VO. destruct (Nat.eqb_spec u id) as [->|NU]; [|tauto]. split; [intros []|contradiction].
  - intros y. rewrite (v_cache _ _ _ _ _ _ _ _ I). destruct (inb y (fpf id)) eqn:Y; [|tauto].
    apply inb_in, VO in Y. split; congruence.
  - intros y. destruct (inb y (fpf id)) eqn:Y.
    + apply inb_in in Y. tauto.
    + apply inb_false in Y. split; [contradiction|]. intros O. apply (v_ext _ _ _ _ _ _ _ _ I) in O. destruct O.
  - intros u. unfold upd. destruct (Nat.eqb_spec u id); [constructor|apply (v_ndf _ _ _ _ _ _ _ _ I)].
  - apply (v_ndc _ _ _ _ _ _ _ _ I).
  - apply (v_ndf _ _ _ _ _ _ _ _ I).
  - intros y. rewrite (v_dom _ _ _ _ _ _ _ _ I). destruct (inb y (fpf id)) eqn:Y; [|tauto].
    apply inb_in, VO in Y. split; [discriminate|congruence].
  - apply (v_unused _ _ _ _ _ _ _ _ I).
  - apply (v_small _ _ _ _ _ _ _ _ I).
  - apply (v_len _ _ _ _ _ _ _ _ I).
  - intros u tu p. unfold upd. destruct (Nat.eqb_spec u id) as [->|NU]; [discriminate|]. intros E P.
    destruct (v_par _ _ _ _ _ _ _ _ I u tu p E P) as [L NE]. destruct (Nat.eqb_spec p id) as [->|NP]; [|auto].
    exfalso. pose proof (v_tx _ _ _ _ _ _ _ _ I u) as REL. rewrite E in REL. destruct (A u) as [au|] eqn:AU; [|contradiction].
    destruct REL as [PE _]. apply (NC u au AU). congruence.
  - apply (v_bytes _ _ _ _ _ _ _ _ I).
Qed.
