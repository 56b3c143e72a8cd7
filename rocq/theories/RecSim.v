(** The forward scan of recovery follows the interpreter. *)
From Coq Require Import Sorted.
From Verif Require Import Base UleModel MgrModel MvccModel RecModel RecSpec RecIdeal RecFiles.
Open Scope N_scope.

Definition is_ck (x : lrec) : bool :=
  match x with
  | LBeginCk _ | LEndCk _ _ _ | LFassoc _ _ | LFassocRb | LStill _ _ _ _ _ | LStillPrep _ _ _ => true
  | _ => false
  end.
Definition is_end (x : lrec) : bool := match x with LEndCk _ _ _ => true | _ => false end.
Definition is_recovered (x : lrec) : bool := match x with LComment true => true | _ => false end.

(** What a record sends. *)
Definition rec_msgs (K : ist) (x : lrec) : fmsgs :=
  match x with
  | LCommit r c => match find_inner r c (i_txns K) with Some t => cmsgs t | None => [] end
  | LAbort r c => match find_inner r c (i_txns K) with Some t => amsgs t | None => [] end
  | LEnq fn r c k w =>
      match find_inner r c (i_txns K) with
      | Some t => [(fn, (k, mkRmsg (wmsg w) (pt_chain t)))]
      | None => []
      end
  | _ => []
  end.

Lemma istep_cont K x K' nm : istep K x = Some K' -> i_cont K' nm = i_cont K nm ++ mine (i_open K) nm (rec_msgs K x).
Proof.
  intros E. assert (Z : mine (i_open K) nm [] = []) by reflexivity.
  destruct x; cbn [istep rec_msgs] in *; try (rewrite Z, app_nil_r).
  - destruct (_ <=? _); [|discriminate]. destruct (forallb _ _); [|discriminate]. injection E as <-. auto.
  - injection E as <-. auto.
  - destruct (nlook _ _); [destruct (_ =? _); [|discriminate]|]; injection E as <-; auto.
  - injection E as <-. auto.
  - injection E as <-. auto.
  - destruct (find_pt _ _); [|discriminate]. destruct (pt_prep _); [|discriminate]. injection E as <-. auto.
  - destruct par as [p|].
    + destruct (find_inner _ _ _) as [t|]; [|discriminate]. destruct (pt_prep t); [discriminate|]. cbn [negb] in E.
      destruct (i_clast K r <? c); [|discriminate]. destruct (c =? r); [discriminate|]. cbn [negb] in E.
      destruct (_ <? _)%nat; [|discriminate]. destruct (_ <? _); [|discriminate]. injection E as <-. auto.
    + destruct (c =? _); [|discriminate]. destruct (memb _ _); [discriminate|]. cbn [negb] in E.
      destruct (0 <? r); [|discriminate]. destruct (r <? _); [|discriminate]. injection E as <-. auto.
  - destruct (find_inner _ _ _) as [t|]; [|discriminate]. unfold cmsgs. destruct (pt_levels t) as [|l1 [|l2 ls]]; [discriminate| |]; injection E as <-; auto.
    cbn. now rewrite app_nil_r.
  - destruct (find_inner _ _ _) as [t|]; [|discriminate]. unfold amsgs. destruct (pt_levels t) as [|l1 ls]; [discriminate|]. injection E as <-. auto.
  - destruct (find_inner _ _ _) as [t|]; [|discriminate]. destruct (pt_prep t); [discriminate|]. injection E as <-. auto.
  - destruct (nlook _ _); [discriminate|]. cbn in E. destruct (existsb _ _); [discriminate|]. injection E as <-. auto.
  - destruct (nlook _ _) as [n|]; [|discriminate]. destruct (n =? nm0); [|discriminate]. destruct (used_by _ _); [discriminate|]. injection E as <-. auto.
  - destruct (find_inner _ _ _) as [t|]; [|discriminate]. destruct (nlook _ _) as [n|]; [|discriminate]. destruct (pt_prep t); [discriminate|]. cbn [negb] in E.
    destruct (lock_free _ _ _ _); [|discriminate]. injection E as <-. auto.
  - destruct recover; injection E as <-; auto.
Qed.

(** Contents only grow. *)
Lemma irun_cont l : forall K K' nm, irun K l = Some K' -> exists D, i_cont K' nm = i_cont K nm ++ D.
Proof.
  induction l as [|x l IH]; intros K K' nm E; cbn in E; [injection E as <-; exists []; now rewrite app_nil_r|].
  destruct (istep K x) as [K1|] eqn:Ex; [|discriminate]. destruct (IH _ _ nm E) as (D & ->). rewrite (istep_cont _ _ _ nm Ex).
  rewrite <- app_assoc. eauto.
Qed.

Lemma nth_skip {A} (l1 : list A) x l2 n : n = length l1 -> nth_error (l1 ++ x :: l2) n = Some x.
Proof. intros ->. rewrite nth_error_app2, Nat.sub_diag by lia. reflexivity. Qed.

Section Sim.
Variables (J : ist) (suf : list lrec) (pb : nat).
(** [Q nm lsn p m]: [m] is what a dictionary [nm] with header LSN [lsn] holds when
    recovery has come to position [p]. *)
Variable Q : fname -> nat -> nat -> mlist -> Prop.
Hypothesis Q1 : forall nm lsn p m, (pb <= p)%nat -> (p < lsn)%nat -> Q nm lsn p m -> Q nm lsn (S p) m.
Hypothesis Q2 : forall nm lsn p m D, (pb <= p)%nat -> (lsn <= p)%nat -> (p < pb + length suf)%nat ->
  cat J suf pb (S p) nm = cat J suf pb p nm ++ D -> Q nm lsn p m -> Q nm lsn (S p) (m ++ D).
Hypothesis Q3 : forall nm lsn p m, Q nm lsn p m -> Q nm (Nat.max p lsn) p m.
Hypothesis WJ : IWf J.

Record RSim (p : nat) (K : ist) (R : rst) : Prop := {
  rs_pb : (pb <= p)%nat;
  rs_st : st J suf pb p = Some K;
  rs_txns : r_txns R = i_txns K;
  rs_fm : Fmatch (r_files R) (i_open K);
  rs_file : forall fn f, flook fn (r_files R) = Some f ->
     Q (of_name f) (of_lsn f) p (of_msgs f) /\ (of_lsn f <= pb + length suf)%nat
     /\ (of_dirty f = false -> newest (r_disk R) (of_name f) = Some (of_lsn f, of_msgs f));
  rs_disk : forall nm, exists v m, newest (r_disk R) nm = Some (v, m) /\ (v <= pb + length suf)%nat
     /\ ((forall fn, nlook fn (i_open K) <> Some nm) -> Q nm v p m);
  rs_last : Forall (fun r => r <= r_last R) (i_used K);
  rs_last2 : forall m, i_ck K <= m -> Forall (fun r => r <= m) (i_used K) -> r_last R <= m;
  rs_ss : r_sslast R <= i_ck K
}.

Lemma RSim_wf p K R : RSim p K R -> IWf K.
Proof. intros H. eapply irun_wf; [exact WJ|]. apply (rs_st _ _ _ H). Qed.

Lemma cat_S p x K K' nm : (pb <= p)%nat -> nth_error suf (p - pb) = Some x -> st J suf pb p = Some K -> istep K x = Some K' ->
  st J suf pb (S p) = Some K' /\ cat J suf pb (S p) nm = cat J suf pb p nm ++ mine (i_open K) nm (rec_msgs K x).
Proof.
  intros Hp Hx Hk E. pose proof (st_S J suf pb p x Hp Hx) as H. rewrite Hk, E in H. split; [exact H|].
  unfold cat. rewrite H, Hk. now apply istep_cont.
Qed.

(** A dictionary after the record [x]. *)
Lemma file_step p x K K' f fn : (pb <= p)%nat -> nth_error suf (p - pb) = Some x -> st J suf pb p = Some K -> IWf K ->
  istep K x = Some K' -> nlook fn (i_open K) = Some (of_name f) -> Q (of_name f) (of_lsn f) p (of_msgs f) ->
  Q (of_name f) (of_lsn f) (S p) (of_msgs (addm (Some (S p)) f (for_fn fn (rec_msgs K x)))).
Proof.
  intros Hp Hx Hk W E L H. destruct (cat_S p x K K' (of_name f) Hp Hx Hk E) as [_ Hc].
  rewrite (mine_fn _ fn _ _ (iw_names _ W) L) in Hc. rewrite addm_msgs. unfold skips.
  destruct (Nat.leb_spec (S p) (of_lsn f)) as [Hl|Hl].
  - apply Q1; auto; lia.
  - apply Q2; auto; [lia|]. assert (nth_error suf (p - pb) <> None) as Hn by congruence. apply nth_error_Some in Hn. lia.
Qed.
(** A closed dictionary. *)
Lemma closed_step p x K K' nm v m : (pb <= p)%nat -> nth_error suf (p - pb) = Some x -> st J suf pb p = Some K ->
  istep K x = Some K' -> (forall fn, nlook fn (i_open K) <> Some nm) -> Q nm v p m -> Q nm v (S p) m.
Proof.
  intros Hp Hx Hk E C H. destruct (cat_S p x K K' nm Hp Hx Hk E) as [_ Hc]. rewrite (mine_closed _ _ _ C) in Hc.
  destruct (Nat.leb_spec v p) as [Hl|Hl]; [|apply Q1; auto]. rewrite <- (app_nil_r m). apply Q2; auto.
  assert (nth_error suf (p - pb) <> None) as Hn by congruence. apply nth_error_Some in Hn. lia.
Qed.

(** A record that opens and closes nothing. *)
Lemma RSim_sent p x K K' R fs : RSim p K R -> nth_error suf (p - pb) = Some x -> istep K x = Some K' ->
  i_open K' = i_open K -> sent (Some (S p)) (rec_msgs K x) (r_files R) fs ->
  forall R', r_txns R' = i_txns K' -> r_files R' = fs -> r_disk R' = r_disk R -> r_sslast R' = r_sslast R ->
  i_ck K <= i_ck K' ->
  Forall (fun r => r <= r_last R') (i_used K') ->
  (forall m, i_ck K' <= m -> Forall (fun r => r <= m) (i_used K') -> r_last R' <= m) ->
  RSim (S p) K' R'.
Proof.
  intros H Hx E Eo Sn R' Et Ef Ed Es Hck L1 L2. pose proof (RSim_wf _ _ _ H) as W. destruct H as [Hp Hk Ht Fm Hf Hd _ _ Hss].
  destruct (cat_S p x K K' 0 Hp Hx Hk E) as [Hk' _]. pose proof (sent_Fmatch _ _ _ _ _ Fm Sn) as Fm'. split; auto.
  - rewrite Ef, Eo. exact Fm'.
  - rewrite Ef, Ed. destruct Sn as [S1 S2]. intros fn f Hl. rewrite S2 in Hl. destruct (flook fn (r_files R)) as [g|] eqn:Lg; [|discriminate].
    cbn in Hl. injection Hl as <-. destruct (Hf fn g Lg) as (Hq & Hn & Hc). rewrite addm_name, addm_lsn. split; [|split; [exact Hn|]].
    + apply (file_step p x K K'); auto. destruct Fm as [_ Fm]. rewrite Fm, Lg. reflexivity.
    + intros Hd'. apply addm_clean in Hd'. destruct Hd' as [-> Hd']. auto.
  - rewrite Ed, Eo. intros nm. destruct (Hd nm) as (v & m & E1 & Hv & H1). exists v, m. split; [auto|]. split; [auto|]. intros C.
    apply (closed_step p x K K'); auto.
  - rewrite Es. lia.
Qed.

Lemma set_prep_eq R r t : find_pt r (r_txns R) = Some t -> pt_prep t = false ->
  set_prep r R = Some (rwith R (r_files R) (set_pt (mkPt r (pt_levels t) true) (r_txns R))).
Proof. intros F P. unfold set_prep. rewrite F, P. reflexivity. Qed.

Definition same_scan (R R' : rst) : Prop :=
  r_newer R' = r_newer R /\ r_nf R' = r_nf R /\ r_nx R' = r_nx R /\ r_rb R' = r_rb R.

Lemma open_none (P : option fname) : is_some P = false -> P = None.
Proof. destruct P; [discriminate|auto]. Qed.

Ltac rs E0 := eapply RSim_sent; try exact E0; eauto; cbn [r_files r_txns rwith r_last rec_msgs i_ck i_used i_txns iwith]; auto;
  try apply sent_nil; try lia; try congruence.

(** The records of the users. *)
Lemma sim_plain b e rbs p x K K' R : RSim p K R -> nth_error suf (p - pb) = Some x -> istep K x = Some K' ->
  is_ck x = false -> is_recovered x = false ->
  exists R', rec_step b e rbs (S p) R x = Some R' /\ RSim (S p) K' R' /\ same_scan R R'.
Proof.
  intros H Hx E Nc Nr. pose proof (RSim_wf _ _ _ H) as W. pose proof H as [Hp Hk Ht Fm Hf Hd L1 L2 Hss].
  pose proof E as E0. destruct x; try discriminate; cbn [rec_step]; cbn [istep] in E.
  - (* begin *)
    destruct par as [q|]; unfold recover_txn.
    + rewrite Ht. destruct (find_inner r q (i_txns K)) as [t|] eqn:F; [|discriminate].
      destruct (pt_prep t) eqn:Ep; [discriminate|]. cbn [negb] in E. destruct (i_clast K r <? c); [|discriminate].
      destruct (c =? r); [discriminate|]. cbn [negb] in E.
      destruct (_ <? _)%nat; [|discriminate]. destruct (_ <? _); [|discriminate]. injection E as <-.
      eexists. split; [reflexivity|]. split; [|split; auto]. rs E0.
    + destruct (N.eqb_spec c TXNID_NONE) as [->|]; [|discriminate].
      destruct (memb r (i_used K)) eqn:Mu; [discriminate|]. cbn [negb] in E. apply memb_false in Mu.
      destruct (0 <? r); [|discriminate]. destruct (r <? _); [|discriminate]. injection E as <-.
      assert (F : find_pt r (r_txns R) = None).
      { apply find_pt_none. rewrite Ht. intros X. apply Mu. apply in_map_iff in X. destruct X as (t & <- & Hin).
        pose proof (iw_used _ W) as HU. rewrite Forall_forall in HU. auto. }
      rewrite F. cbn [is_some negb]. eexists. split; [reflexivity|]. split; [|split; auto].
      rs E0.
      * constructor; [lia|]. eapply Forall_impl; [|exact L1]. cbv beta. intros a Ha. lia.
      * intros m H1 H2. apply Forall_cons_iff in H2. destruct H2 as [H2 H3]. specialize (L2 m H1 H3). lia.
  - (* commit *)
    destruct (find_inner r c (i_txns K)) as [t|] eqn:F; [|discriminate]. rewrite Ht, F. apply find_inner_some in F as HF.
    destruct HF as (F1 & Hin & <- & <-).
    destruct (commit_inner_ok true (Some (S p)) K (r_files R) t W Fm F1) as (K1 & fs' & EK & -> & Sn & Eo & _ & _ & Eu & _ & Eck).
    rewrite E0 in EK. injection EK as <-. eexists. split; [reflexivity|]. split; [|split; auto].
    rs E0; rewrite ?F, ?Eu, ?Eck; auto.
  - (* abort *)
    destruct (find_inner r c (i_txns K)) as [t|] eqn:F; [|discriminate]. rewrite Ht, F. apply find_inner_some in F as HF.
    destruct HF as (F1 & Hin & <- & <-).
    destruct (abort_inner_ok true (Some (S p)) K (r_files R) t W Fm F1) as (K1 & fs' & EK & -> & Sn & Eo & _ & _ & Eu & _ & Eck & _).
    rewrite E0 in EK. injection EK as <-. eexists. split; [reflexivity|]. split; [|split; auto].
    rs E0; rewrite ?F, ?Eu, ?Eck; auto.
  - (* prepare *)
    destruct (find_inner r TXNID_NONE (i_txns K)) as [t|] eqn:F; [|discriminate]. apply find_inner_some in F as HF. destruct HF as (F1 & _).
    destruct (pt_prep t) eqn:Ep; [discriminate|]. injection E as <-. rewrite <- Ht in F1. rewrite (set_prep_eq _ _ _ F1 Ep).
    eexists. split; [reflexivity|]. split; [|split; auto].
    rs E0.
  - (* open *)
    destruct (nlook fn (i_open K)) eqn:Lo; [discriminate|]. cbn in E. destruct (existsb _ _) eqn:Xo; [discriminate|]. injection E as <-.
    destruct Fm as [Nd Fm]. assert (Lf : flook fn (r_files R) = None) by (pose proof (Fm fn) as X; rewrite Lo in X; destruct (flook fn (r_files R)); [discriminate|auto]).
    rewrite Lf. cbn [is_some negb]. unfold r_open. destruct (Hd nm) as (v & m & E1 & Hv & H1). rewrite E1.
    assert (C : forall g, nlook g (i_open K) <> Some nm).
    { intros g X. apply nlook_In in X. assert (existsb (fun p => snd p =? nm) (i_open K) = true); [|congruence].
      apply existsb_exists. exists (g, nm). split; [auto|apply N.eqb_refl]. }
    eexists. split; [reflexivity|]. split; [|split; auto].
    destruct (cat_S p _ K _ 0 Hp Hx Hk E0) as [Hk' _]. split; cbn [r_txns r_files rwith r_disk r_last r_sslast i_txns i_open i_used i_ck]; auto.
    + split; [cbn; constructor; [now apply flook_none|auto]|]. intros g. cbn. destruct (N.eqb_spec fn g) as [->|]; [reflexivity|apply Fm].
    + intros g f. cbn. destruct (N.eqb_spec fn g) as [<-|Ng].
      * intros [= <-]. cbn. split; [|split; auto]. apply (closed_step p _ K _ nm v m Hp Hx Hk E0); auto.
      * intros Lg. destruct (Hf g f Lg) as (Hq & Hn & Hc). split; [|auto].
        assert (T : flook g (r_files R) = Some f) by exact Lg.
        pose proof (file_step p _ K _ f g Hp Hx Hk W E0) as FS. cbn [rec_msgs] in FS. unfold for_fn in FS. cbn in FS.
        unfold addm in FS. cbn [is_nil] in FS. rewrite orb_true_r in FS. apply FS; auto. rewrite Fm, Lg. reflexivity.
    + intros n. destruct (Hd n) as (v' & m' & E1' & Hv' & H1'). exists v', m'. split; [auto|]. split; [auto|]. intros C'.
      assert (C1 : forall g, nlook g (i_open K) <> Some n).
      { intros g X. apply (C' g). cbn. destruct (N.eqb_spec fn g) as [->|]; [congruence|auto]. }
      apply (closed_step p _ K _ n v' m' Hp Hx Hk E0); auto.
  - (* close *)
    destruct (nlook fn (i_open K)) as [n|] eqn:Lo; [|discriminate]. destruct (N.eqb_spec n nm) as [->|]; [|discriminate].
    destruct (used_by fn (i_txns K)) eqn:U; [discriminate|]. injection E as <-.
    destruct Fm as [Nd Fm]. pose proof (Fm fn) as X. rewrite Lo in X. destruct (flook fn (r_files R)) as [f|] eqn:Lf; [|discriminate].
    cbn in X. injection X as X. subst nm. rewrite N.eqb_refl, Ht, U. cbn [negb].
    eexists. split; [reflexivity|]. split; [|split; auto].
    destruct (cat_S p _ K _ 0 Hp Hx Hk E0) as [Hk' _].
    assert (FS : forall g h, flook g (r_files R) = Some h -> Q (of_name h) (of_lsn h) (S p) (of_msgs h)).
    { intros g h Lg. pose proof (file_step p _ K _ h g Hp Hx Hk W E0) as FS. cbn [rec_msgs] in FS. unfold for_fn in FS. cbn in FS.
      unfold addm in FS. cbn [is_nil] in FS. rewrite orb_true_r in FS. destruct (Hf g h Lg) as (Hq & _). apply FS; auto. rewrite Fm, Lg. reflexivity. }
    assert (NE : forall g h, flook g (r_files R) = Some h -> g <> fn -> of_name h <> of_name f).
    { intros g h Lg Ng Eq. apply Ng. apply (nlook_inj g fn (of_name f) (i_open K) (iw_names _ W)); [rewrite Fm, Lg; cbn; now rewrite Eq|auto]. }
    assert (Hl : (p < pb + length suf)%nat) by (assert (nth_error suf (p - pb) <> None) as Hn by congruence; apply nth_error_Some in Hn; lia).
    destruct (Hf fn f Lf) as (Hqf & Hnf & Hcf).
    split; cbn [r_txns r_files rwith r_disk r_last r_sslast i_txns i_open i_used i_ck]; auto.
    + split; [now apply NoDup_map_filter|]. intros g. rewrite nlook_filter by reflexivity. rewrite flook_fdel, Fm. cbn.
      destruct (g =? fn), (flook g (r_files R)); auto.
    + intros g h. rewrite flook_fdel. destruct (N.eqb_spec g fn) as [->|Ng]; [discriminate|]. intros Lg. destruct (Hf g h Lg) as (_ & Hn & Hc).
      split; [eauto|]. split; [auto|]. intros Dh. unfold close_with. destruct (of_dirty f); [|auto]. unfold newest, upd2.
      destruct (N.eqb_spec (of_name h) (of_name f)) as [Eq|]; [exfalso; eapply NE; eauto|]. apply Hc. auto.
    + intros n. unfold close_with. destruct (of_dirty f) eqn:Df.
      * destruct (N.eq_dec n (of_name f)) as [->|Nn].
        -- unfold newest, upd2. rewrite N.eqb_refl. exists (Nat.max (S p) (of_lsn f)), (of_msgs f). split; [reflexivity|]. split; [lia|]. intros _. apply Q3. eapply FS; eauto.
        -- destruct (Hd n) as (v & m & E1 & Hv & H1). exists v, m. split; [unfold newest, upd2 in *; destruct (N.eqb_spec n (of_name f)); [congruence|auto]|].
           split; [auto|]. intros C. apply (closed_step p _ K _ n v m Hp Hx Hk E0).
           ++ intros g Lg. apply (C g). rewrite nlook_filter by reflexivity. rewrite Lg. cbn. destruct (N.eqb_spec g fn) as [->|]; [congruence|auto].
           ++ apply H1. intros g Lg. apply (C g). rewrite nlook_filter by reflexivity. rewrite Lg. cbn. destruct (N.eqb_spec g fn) as [->|]; [congruence|auto].
      * destruct (N.eq_dec n (of_name f)) as [->|Nn].
        -- exists (of_lsn f), (of_msgs f). split; [auto|]. split; [auto|]. intros _. eapply FS; eauto.
        -- destruct (Hd n) as (v & m & E1 & Hv & H1). exists v, m. split; [auto|]. split; [auto|]. intros C.
           assert (C1 : forall g, nlook g (i_open K) <> Some n).
           { intros g Lg. apply (C g). rewrite nlook_filter by reflexivity. rewrite Lg. cbn. destruct (N.eqb_spec g fn) as [->|]; [congruence|auto]. }
           apply (closed_step p _ K _ n v m Hp Hx Hk E0); auto.
  - (* write *)
    destruct (find_inner r c (i_txns K)) as [t|] eqn:F; [|discriminate]. rewrite Ht, F. apply find_inner_some in F as HF.
    destruct HF as (F1 & Hin & <- & <-). destruct (nlook fn (i_open K)) as [n|] eqn:Lo; [|discriminate].
    destruct (pt_prep t) eqn:Ep; [discriminate|]. cbn [negb] in E. destruct (lock_free _ _ _ _); [|discriminate]. injection E as <-.
    pose proof (proj2 Fm fn) as X. rewrite Lo in X. destruct (flook fn (r_files R)) as [f|] eqn:Lf; [|discriminate].
    destruct (put_ok (Some (S p)) fn (k, mkRmsg (wmsg w) (pt_chain t)) (r_files R) (proj1 Fm)) as (fs' & -> & Sn); [congruence|].
    eexists. split; [reflexivity|]. split; [|split; auto].
    rs E0. now rewrite F.
  - (* comment *)
    destruct recover; [discriminate|]. injection E as <-. eexists. split; [reflexivity|]. split; [|split; auto].
    rs E0.
Qed.

(** Records of later checkpoints. *)
Lemma sim_newer b e rbs p x K K' R : RSim p K R -> nth_error suf (p - pb) = Some x -> istep K x = Some K' ->
  is_recovered x = false -> is_end x = false -> r_newer R = true -> (e <= p)%nat ->
  exists R', rec_step b e rbs (S p) R x = Some R' /\ RSim (S p) K' R' /\ same_scan R R'.
Proof.
  intros H Hx E Nr Ne Hn He. destruct (is_ck x) eqn:Ck; [|eapply sim_plain; eauto].
  pose proof H as [Hp Hk Ht Fm Hf Hd L1 L2 Hss]. pose proof E as E0.
  destruct x; try discriminate; cbn [rec_step]; cbn [istep] in E; rewrite Hn.
  - destruct (N.leb_spec (i_ck K) last) as [Lc|]; [|discriminate]. destruct (forallb _ _) eqn:Fa; [|discriminate]. injection E as <-.
    rewrite forallb_forall in Fa. assert (Fl : Forall (fun r => r <= last) (i_used K)).
    { apply Forall_forall. intros a Ha. apply N.leb_le. auto. }
    destruct (Nat.ltb_spec e (S p)); [|lia]. destruct (N.leb_spec (r_sslast R) last); [|lia]. pose proof (L2 _ Lc Fl).
    destruct (N.leb_spec (r_last R) last); [|lia]. exists R. split; [reflexivity|]. split; [|split; auto].
    rs E0.
  - exists R. assert (KE : K' = K) by (destruct (nlook fn (i_open K)); [destruct (_ =? _); [|discriminate]|]; congruence). subst K'.
    split; [|split; [|split; auto]]; [|rs E0].
    destruct (flook fn (r_files R)) as [f|] eqn:Lf; [|reflexivity]. pose proof (proj2 Fm fn) as X. rewrite Lf in X. cbn in X. rewrite X in E.
    destruct (_ =? _); [reflexivity|discriminate].
  - injection E as <-. exists R. split; [reflexivity|]. split; [|split; auto]. rs E0.
  - injection E as <-. exists R. split; [reflexivity|]. split; [|split; auto]. rs E0.
  - rewrite Ht. destruct (find_pt r (i_txns K)) as [t|]; [|discriminate]. destruct (pt_prep t); [|discriminate]. injection E as <-.
    exists R. split; [reflexivity|]. split; [|split; auto]. rs E0.
Qed.

(** A run of records of the users. *)
Lemma sim_mid b e rbs : forall mid pre0 post0 p K K' R, suf = pre0 ++ mid ++ post0 -> p = (pb + length pre0)%nat ->
  RSim p K R -> irun K mid = Some K' -> Forall (fun x => is_ck x = false /\ is_recovered x = false) mid ->
  exists R', rec_run b e rbs p mid R = Some R' /\ RSim (p + length mid) K' R' /\ same_scan R R'.
Proof.
  induction mid as [|x mid IH]; intros pre0 post0 p K K' R Es Ep H E F.
  - cbn in E. injection E as <-. exists R. split; [reflexivity|]. split; [cbn; now rewrite Nat.add_0_r|split; auto].
  - cbn in E. destruct (istep K x) as [K1|] eqn:Ex; [|discriminate]. inversion F as [|? ? [F1 F2] F3]; subst x0 l.
    destruct (sim_plain b e rbs p x K K1 R H) as (R1 & E1 & H1 & S1 & S2 & S3 & S4); auto.
    { rewrite Es. apply nth_skip. lia. }
    destruct (IH (pre0 ++ [x]) post0 (S p) K1 K' R1) as (R' & E' & H' & T1 & T2 & T3 & T4); auto.
    { rewrite Es, <- app_assoc. reflexivity. }
    { rewrite app_length. cbn. lia. }
    exists R'. cbn [rec_run]. rewrite E1. split; [exact E'|]. split; [cbn; replace (p + S (length mid))%nat with (S p + length mid)%nat by lia; exact H'|].
    unfold same_scan. rewrite T1, T2, T3, T4. auto.
Qed.
Lemma sim_post b e rbs : forall mid pre0 post0 p K K' R, suf = pre0 ++ mid ++ post0 -> p = (pb + length pre0)%nat ->
  RSim p K R -> irun K mid = Some K' -> Forall (fun x => is_end x = false /\ is_recovered x = false) mid ->
  r_newer R = true -> (e <= p)%nat ->
  exists R', rec_run b e rbs p mid R = Some R' /\ RSim (p + length mid) K' R' /\ same_scan R R'.
Proof.
  induction mid as [|x mid IH]; intros pre0 post0 p K K' R Es Ep H E F Hn He.
  - cbn in E. injection E as <-. exists R. split; [reflexivity|]. split; [cbn; now rewrite Nat.add_0_r|split; auto].
  - cbn in E. destruct (istep K x) as [K1|] eqn:Ex; [|discriminate]. inversion F as [|? ? [F1 F2] F3]; subst x0 l.
    destruct (sim_newer b e rbs p x K K1 R H) as (R1 & E1 & H1 & S1 & S2 & S3 & S4); auto.
    { rewrite Es. apply nth_skip. lia. }
    destruct (IH (pre0 ++ [x]) post0 (S p) K1 K' R1) as (R' & E' & H' & T1 & T2 & T3 & T4); auto; try congruence.
    { rewrite Es, <- app_assoc. reflexivity. }
    { rewrite app_length. cbn. lia. }
    exists R'. cbn [rec_run]. rewrite E1. split; [exact E'|]. split; [cbn; replace (p + S (length mid))%nat with (S p + length mid)%nat by lia; exact H'|].
    unfold same_scan. rewrite T1, T2, T3, T4. auto.
Qed.
End Sim.
