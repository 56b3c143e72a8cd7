(** Recovery reads the records of the last checkpoint. *)
From Coq Require Import Sorted.
From Verif Require Import Base UleModel MgrModel MvccModel RecModel RecSpec RecIdeal RecFiles RecSim MgrProofs.
Open Scope N_scope.

Lemma rec_run_app b e rbs : forall l1 p l2 R,
  rec_run b e rbs p (l1 ++ l2) R = do R1 <- rec_run b e rbs p l1 R; rec_run b e rbs (p + length l1) l2 R1.
Proof.
  induction l1 as [|x l1 IH]; intros p l2 R; cbn [app rec_run length]; [now rewrite Nat.add_0_r|].
  destruct (rec_step _ _ _ _ _ _) as [R1|]; [|reflexivity]. rewrite IH. replace (p + S (length l1))%nat with (S p + length l1)%nat by lia. reflexivity.
Qed.

Definition withx (R : rst) (ts : list ptxn) (k : nat) : rst :=
  mkR (r_files R) ts (r_last R) (r_disk R) (r_rb R) (r_newer R) (r_sslast R) (r_nf R) (k + r_nx R).

Definition fresh_root (r : txnid) (acc : list ptxn) : Prop := Forall (fun t => pt_root t < r) acc.

Lemma find_pt_last r acc t : fresh_root r acc -> pt_root t = r -> find_pt r (acc ++ [t]) = Some t.
Proof.
  intros H E. induction H as [|u acc Hu _ IH]; cbn; [rewrite E, N.eqb_refl; auto|].
  destruct (N.eqb_spec (pt_root u) r); [lia|]. exact IH.
Qed.
Lemma set_pt_last acc t t' : fresh_root (pt_root t') acc -> pt_root t = pt_root t' -> set_pt t' (acc ++ [t]) = acc ++ [t'].
Proof.
  intros H E. unfold set_pt. rewrite map_app. cbn. rewrite E, N.eqb_refl. f_equal. rewrite <- (map_id acc) at 2. apply map_ext_in.
  intros u Hu. unfold fresh_root in H. rewrite Forall_forall in H. apply H in Hu. destruct (N.eqb_spec (pt_root u) (pt_root t')); [lia|auto].
Qed.
Lemma ins_pt_last acc t : fresh_root (pt_root t) acc -> ins_pt t acc = acc ++ [t].
Proof.
  induction 1 as [|u acc Hu _ IH]; cbn; [auto|]. destruct (N.ltb_spec (pt_root t) (pt_root u)); [lia|]. now rewrite IH.
Qed.
Lemma find_pt_fresh r acc : fresh_root r acc -> find_pt r acc = None.
Proof.
  intros H. apply find_pt_none. intros X. apply in_map_iff in X. destruct X as (t & E & Ht). unfold fresh_root in H. rewrite Forall_forall in H.
  apply H in Ht. lia.
Qed.

(** What the rollback file and the open dictionaries must offer for a level. *)
Definition level_there (m : rbmap) (fs : files) (r : txnid) (l : rlevel) : Prop :=
  (rl_ents l <> [] -> rb_look r (rl_xid l) m = Some (rl_ents l))
  /\ Forall (fun fn => flook fn fs <> None) (rl_fts l).

Lemma there_ents m fs r l : level_there m fs r l ->
  (if negb (is_nil (rl_ents l)) then rb_look r (rl_xid l) m else Some []) = Some (rl_ents l).
Proof. intros [H _]. destruct (rl_ents l); [reflexivity|]. cbn. apply H. discriminate. Qed.
Lemma there_fts m fs r l : level_there m fs r l -> filter (fun fn => is_some (flook fn fs)) (rl_fts l) = rl_fts l.
Proof.
  intros [_ H]. induction H as [|fn fts Hf _ IH]; cbn; [auto|]. destruct (flook fn fs); [|congruence]. cbn. now rewrite IH.
Qed.

Lemma still_recs_length r ls : forall par, length (still_recs r par ls) = length ls.
Proof. induction ls as [|l ls IH]; intros par; cbn; [auto|]. now rewrite IH. Qed.

Section Block.
Variables (b e : nat) (rbs : list (nat * rbmap)) (m : rbmap).

Lemma kids_run r acc : forall rest p don R, fresh_root r acc -> don <> [] ->
  r_newer R = false -> r_rb R = Some m -> r_sslast R <> 0 -> r <= r_sslast R ->
  Forall (level_there m (r_files R) r) rest ->
  r_txns R = acc ++ [mkPt r don false] ->
  rec_run b e rbs p (still_recs r (Some (pt_child (mkPt r don false))) rest) R
  = Some (withx R (acc ++ [mkPt r (rev rest ++ don) false]) (length rest)).
Proof.
  induction rest as [|l rest IH]; intros p don R Fr Nd Nw Hm Hs Hr Hl Ht.
  - cbn. rewrite <- Ht. unfold withx. destruct R; reflexivity.
  - cbn [still_recs rec_run rec_step]. rewrite Nw. unfold recover_still. destruct (N.eqb_spec (r_sslast R) TXNID_NONE) as [X|_]; [now apply Hs in X|].
    cbn [negb]. destruct (N.leb_spec r (r_sslast R)); [|lia]. rewrite Hm. inversion Hl as [|? ? L1 L2]; subst x l0.
    rewrite (there_ents _ _ _ _ L1), (there_fts _ _ _ _ L1). unfold recover_txn. rewrite Ht. unfold find_inner.
    rewrite find_pt_last by auto. rewrite N.eqb_refl. cbn [pt_levels pt_prep].
    rewrite set_pt_last by auto. cbn [rwith r_files r_txns r_last r_disk r_rb r_newer r_sslast r_nf r_nx].
    set (R1 := mkR _ _ _ _ _ _ _ _ _).
    assert (Ec : rl_xid l = pt_child (mkPt r (mkRl (rl_xid l) (rl_ents l) (rl_fts l) :: don) false)).
    { unfold pt_child. cbn. destruct don; [congruence|auto]. }
    assert (El : mkRl (rl_xid l) (rl_ents l) (rl_fts l) = l) by (destruct l; reflexivity).
    assert (Ek : still_recs r (Some (rl_xid l)) rest = still_recs r (Some (pt_child (mkPt r (l :: don) false))) rest).
    { rewrite El in Ec. now rewrite <- Ec. }
    rewrite Ek. rewrite (IH (S p) (l :: don) R1); auto; [|discriminate|].
    + unfold withx, R1. cbn. rewrite <- app_assoc. cbn. rewrite Nat.add_succ_r. reflexivity.
    + unfold R1. cbn. now rewrite El.
Qed.

Lemma still_run t acc p R : fresh_root (pt_root t) acc -> pt_levels t <> [] ->
  (exists ls l, pt_levels t = ls ++ [l] /\ rl_xid l = pt_root t) ->
  (pt_prep t = true -> length (pt_levels t) = 1%nat) ->
  r_newer R = false -> r_rb R = Some m -> r_sslast R <> 0 -> pt_root t <= r_sslast R -> pt_root t <= r_last R ->
  Forall (level_there m (r_files R) (pt_root t)) (pt_levels t) ->
  r_txns R = acc ->
  rec_run b e rbs p (still_of t) R = Some (withx R (acc ++ [t]) (length (still_of t))).
Proof.
  intros Fr Hne (ls & l & El & Er) Hp Nw Hm Hs Hr Hla Hl Ht. destruct t as [r levels prep]. cbn in *. subst levels.
  assert (HL : level_there m (r_files R) r l) by (rewrite Forall_app in Hl; destruct Hl as [_ Hl]; inversion Hl; auto).
  assert (Ell : mkRl r (rl_ents l) (rl_fts l) = l) by (rewrite <- Er; destruct l; reflexivity).
  assert (HE : (if negb (is_nil (rl_ents l)) then rb_look r r m else Some []) = Some (rl_ents l)).
  { pose proof (there_ents _ _ _ _ HL) as X. rewrite Er in X. exact X. }
  destruct prep.
  - specialize (Hp eq_refl). destruct ls as [|c0 ls]; [|rewrite app_length in Hp; cbn in Hp; lia]. cbn [app still_of pt_levels pt_prep pt_root].
    cbn [rec_run rec_step]. rewrite Nw. unfold recover_still. destruct (N.eqb_spec (r_sslast R) TXNID_NONE) as [X|_]; [now apply Hs in X|]. cbn [negb].
    destruct (N.leb_spec r (r_sslast R)); [|lia]. rewrite Hm, HE.
    rewrite (there_fts _ _ _ _ HL). unfold recover_txn. rewrite N.eqb_refl, Ht, find_pt_fresh by auto. cbn [is_some negb].
    cbn [rwith r_files r_txns r_last r_disk r_rb r_newer r_sslast r_nf r_nx]. rewrite ins_pt_last by auto. unfold set_prep. cbn [r_txns].
    rewrite find_pt_last by auto. cbn [pt_prep negb rwith r_files r_txns r_last r_disk r_rb r_newer r_sslast r_nf r_nx pt_levels].
    rewrite set_pt_last by auto. rewrite Ell, N.max_l by lia. reflexivity.
  - assert (Es : still_of (mkPt r (ls ++ [l]) false) = still_recs r None (l :: rev ls)).
    { unfold still_of. cbn [pt_levels pt_prep pt_root]. replace (l :: rev ls) with (rev (ls ++ [l])) by (rewrite rev_app_distr; reflexivity).
      destruct (ls ++ [l]) as [|x [|y zs]]; reflexivity. }
    rewrite Es. cbn [still_recs rec_run rec_step]. rewrite Nw. unfold recover_still. destruct (N.eqb_spec (r_sslast R) TXNID_NONE) as [X|_]; [now apply Hs in X|]. cbn [negb].
    destruct (N.leb_spec r (r_sslast R)); [|lia]. rewrite Hm, HE.
    rewrite (there_fts _ _ _ _ HL). unfold recover_txn. rewrite N.eqb_refl, Ht, find_pt_fresh by auto. cbn [is_some negb].
    cbn [rwith r_files r_txns r_last r_disk r_rb r_newer r_sslast r_nf r_nx]. rewrite ins_pt_last by auto. rewrite Ell, N.max_l by lia.
    set (R1 := mkR _ _ _ _ _ _ _ _ _).
    change (Some TXNID_NONE) with (Some (pt_child (mkPt r [l] false))).
    rewrite (kids_run r acc (rev ls) (S p) [l] R1); auto; [|discriminate|].
    + rewrite rev_involutive. unfold withx, R1. cbn. rewrite still_recs_length, Nat.add_succ_r. reflexivity.
    + unfold R1. cbn [r_files]. apply Forall_rev. rewrite Forall_app in Hl. tauto.
Qed.

Lemma stills_run : forall ts acc p R, StronglySorted N.lt (map pt_root (acc ++ ts)) ->
  Forall (fun t => (exists ls l, pt_levels t = ls ++ [l] /\ rl_xid l = pt_root t)
                   /\ (pt_prep t = true -> length (pt_levels t) = 1%nat)
                   /\ Forall (level_there m (r_files R) (pt_root t)) (pt_levels t)
                   /\ pt_root t <= r_sslast R /\ 0 < pt_root t) ts ->
  r_newer R = false -> r_rb R = Some m -> r_sslast R <= r_last R ->
  r_txns R = acc ->
  rec_run b e rbs p (flat_map still_of ts) R = Some (withx R (acc ++ ts) (length (flat_map still_of ts))).
Proof.
  induction ts as [|t ts IH]; intros acc p R Ss Hts Nw Hm Hla Ht.
  - cbn. rewrite app_nil_r, <- Ht. unfold withx. destruct R; reflexivity.
  - inversion Hts as [|? ? (A1 & A2 & A3 & A4 & A5) A6]; subst x l. cbn [flat_map]. rewrite rec_run_app.
    assert (Fr : fresh_root (pt_root t) acc).
    { unfold fresh_root. clear - Ss. induction acc as [|u acc IH]; [constructor|]. cbn in Ss. inversion Ss as [|? ? S1 S2]; subst. constructor; [|auto].
      rewrite map_app, Forall_app in S2. destruct S2 as [_ S2]. inversion S2; auto. }
    rewrite (still_run t acc p R); auto; [|destruct A1 as (ls & l & -> & _); destruct ls; discriminate|lia|lia].
    rewrite (IH (acc ++ [t])); auto.
    + unfold withx. cbn. rewrite <- app_assoc, app_length. f_equal. f_equal. lia.
    + now rewrite <- app_assoc.
Qed.

Lemma assoc_run d : forall (l : files) acc p R, NoDup (map fst l) -> (forall fn, In fn (map fst l) -> flook fn acc = None) ->
  r_newer R = false -> r_disk R = d -> r_files R = acc -> (forall nm, newest d nm <> None) ->
  exists fs, rec_run b e rbs p (map (fun p => LFassoc (fst p) (of_name (snd p))) l) R
      = Some (mkR fs (r_txns R) (r_last R) (r_disk R) (r_rb R) (r_newer R) (r_sslast R) (length l + r_nf R) (r_nx R))
    /\ (forall fn, flook fn fs = match flook fn l with
                                 | Some f => match newest d (of_name f) with Some (v, m) => Some (mkOf (of_name f) m v false) | None => None end
                                 | None => flook fn acc end)
    /\ (NoDup (map fst acc) -> NoDup (map fst fs)).
Proof.
  induction l as [|[fn f] l IH]; intros acc p R Nd Hd Nw Ed Ef Hn.
  - exists acc. cbn. split; [rewrite <- Ef; destruct R; reflexivity|auto].
  - cbn [map fst snd rec_run rec_step]. cbn [map fst] in Nd, Hd. inversion Nd as [|? ? N1 N2]; subst x l0. rewrite Nw, Ef, (Hd fn) by (left; auto). cbn [is_some negb].
    unfold r_open. rewrite Ed. destruct (newest d (of_name f)) as [[v mm]|] eqn:En; [|now apply Hn in En].
    cbn [rwith r_files r_txns r_last r_disk r_rb r_newer r_sslast r_nf r_nx]. rewrite Ef.
    set (R1 := mkR _ _ _ _ _ _ _ _ _).
    destruct (IH ((fn, mkOf (of_name f) mm v false) :: acc) (S p) R1) as (fs & E & F1 & F2); auto.
    { intros g Hg. cbn. destruct (N.eqb_spec fn g) as [->|]; [contradiction|]. apply Hd. right. auto. }
    exists fs. split; [rewrite E; unfold R1; cbn [r_files r_txns r_last r_disk r_rb r_newer r_sslast r_nf r_nx length]; rewrite ?Nw, ?Ed, Nat.add_succ_r; reflexivity|]. split.
    + intros g. rewrite F1. cbn. destruct (N.eqb_spec fn g) as [->|Ng]; [|reflexivity]. rewrite (proj2 (flook_none g l) N1), En. reflexivity.
    + intros Na. apply F2. cbn. constructor; [|auto]. apply flook_none. apply Hd. left. auto.
Qed.
End Block.

(** Looking up a level in the rollback file. *)
Lemma rb_look_filter r x (m : rbmap) : (forall p q, In p m -> In q m -> fst p = fst q -> p = q) -> forall es,
  In ((r, x), es) m -> rb_look r x m = Some es.
Proof.
  intros U es H. unfold rb_look. destruct (find (fun p => (fst (fst p) =? r) && (snd (fst p) =? x)) m) as [p|] eqn:F.
  - apply find_some in F. destruct F as [F1 F2]. apply andb_true_iff in F2. destruct F2 as [F2 F3]. apply N.eqb_eq in F2, F3.
    assert (E : p = ((r, x), es)) by (apply U; auto; destruct p as [[a c] q]; cbn in *; subst a c; reflexivity). now rewrite E.
  - apply (find_none _ _ F) in H. cbn in H. rewrite !N.eqb_refl in H. discriminate.
Qed.

Lemma txn_ids_nodup I t : txn_ok I t -> NoDup (map rl_xid (pt_levels t)).
Proof.
  intros ((ls & l & El & Er & Hc & Hn) & _). rewrite El, map_app. apply NoDup_app_intro; [auto|repeat constructor; auto|].
  intros x Hx [<-|[]]. apply in_map_iff in Hx. destruct Hx as (c & E & Hc'). rewrite Forall_forall in Hc. destruct (Hc c Hc') as (_ & X & _). congruence.
Qed.

Lemma rb_of_there I fs : IWf I -> Fmatch fs (i_open I) ->
  Forall (fun t => Forall (level_there (rb_of (i_txns I)) fs (pt_root t)) (pt_levels t)) (i_txns I).
Proof.
  intros W Fm. pose proof (iw_txns _ W) as HT. rewrite Forall_forall in *. intros t Ht. apply Forall_forall. intros l Hl. split.
  - intros Hne. apply rb_look_filter.
    + intros p q Hp Hq E. unfold rb_of in Hp, Hq. apply filter_In in Hp, Hq. destruct Hp as [Hp _], Hq as [Hq _].
      apply in_flat_map in Hp, Hq. destruct Hp as (t1 & T1 & Hp), Hq as (t2 & T2 & Hq). unfold level_ids in Hp, Hq.
      apply in_map_iff in Hp, Hq. destruct Hp as (l1 & <- & L1), Hq as (l2 & <- & L2). cbn in E. injection E as E1 E2.
      pose proof (sorted_find _ _ (iw_sorted _ W) T1) as S1. pose proof (sorted_find _ _ (iw_sorted _ W) T2) as S2. rewrite E1, S2 in S1.
      injection S1 as S1. subst t2. pose proof (txn_ids_nodup _ _ (HT _ T1)) as ND.
      enough (Z : l1 = l2) by (rewrite Z; reflexivity). clear - ND L1 L2 E2. revert ND L1 L2. generalize (pt_levels t1). induction l as [|a l IH]; cbn; intros ND []; inversion ND; subst; intros [].
      * congruence.
      * exfalso. apply H2. rewrite E2. now apply in_map.
      * exfalso. apply H2. subst a. rewrite <- E2. now apply in_map.
      * auto.
    + unfold rb_of. apply filter_In. split; [|cbn; destruct (rl_ents l); [congruence|auto]]. apply in_flat_map. exists t. split; [auto|].
      unfold level_ids. apply in_map_iff. exists l. auto.
  - destruct (HT t Ht) as (_ & _ & Hv). rewrite Forall_forall in Hv. destruct (Hv l Hl) as [_ H]. eapply Forall_impl; [|exact H].
    intros fn. apply (Fmatch_some _ _ _ Fm).
Qed.
