(** Recovery of a crashed system succeeds and restores the invariant of RecRun.v. *)
From Coq Require Import Sorted.
From Verif Require Import Base UleModel MgrModel MvccModel RecModel RecSpec RecIdeal RecFiles RecSim RecBlock RecReplay RecRun RecSteps RecCkpt.
Open Scope N_scope.

(** * Row locks from the log *)
Lemma locks_run_ok log : forall o lk I I', irun I log = Some I' -> IWf I -> (forall fn nm, nlook fn (i_open I) = Some nm -> nlook fn o = Some nm) ->
  (forall n k, lk n k = i_locks I n k) -> forall n k, locks_run o lk log n k = i_locks I' n k.
Proof.
  induction log as [|x log IH]; intros o lk I I' E W Ho Hl n k; [cbn in *; injection E as <-; auto|].
  cbn [irun] in E. destruct (istep I x) as [K|] eqn:Ex; [|discriminate]. pose proof (istep_wf _ _ _ W Ex) as WK.
  destruct x; cbn [locks_run istep] in *.
  - destruct (_ <=? _); [|discriminate]. destruct (forallb _ _); [|discriminate]. injection Ex as <-. eapply IH; eauto.
  - injection Ex as <-. eapply IH; eauto.
  - destruct (nlook _ _); [destruct (_ =? _); [|discriminate]|]; injection Ex as <-; eapply IH; eauto.
  - injection Ex as <-. eapply IH; eauto.
  - injection Ex as <-. eapply IH; eauto.
  - destruct (find_pt _ _); [|discriminate]. destruct (pt_prep _); [|discriminate]. injection Ex as <-. eapply IH; eauto.
  - destruct par as [p|].
    + destruct (find_inner _ _ _) as [t|]; [|discriminate]. destruct (pt_prep t); [discriminate|]. cbn [negb] in Ex.
      destruct (i_clast I r <? c); [|discriminate]. destruct (c =? r); [discriminate|]. cbn [negb] in Ex.
      destruct (_ <? _)%nat; [|discriminate]. destruct (_ <? _); [|discriminate]. injection Ex as <-. eapply IH; eauto.
    + destruct (c =? _); [|discriminate]. destruct (memb _ _); [discriminate|]. cbn [negb] in Ex.
      destruct (0 <? r); [|discriminate]. destruct (r <? _); [|discriminate]. injection Ex as <-. eapply IH; eauto.
  - destruct (find_inner _ _ _) as [t|] eqn:F; [|discriminate]. apply find_inner_some in F. destruct F as (F & Ht & Er & Ec).
    pose proof (iw_txns _ W) as WT. rewrite Forall_forall in WT. destruct (WT t Ht) as ((ls & l0 & El & _ & Hc & _) & _).
    destruct (pt_levels t) as [|l1 [|l2 ls2]] eqn:E2; [discriminate| |]; injection Ex as <-; (eapply IH; [exact E|exact WK|exact Ho|]); intros n' k'; cbn [i_locks iwith].
    + assert (Z : c = 0) by (subst c; unfold pt_child; rewrite E2; reflexivity). rewrite Z. change (0 =? TXNID_NONE) with true. cbv iota. unfold release. now rewrite Hl.
    + destruct ls as [|c0 ls]; [discriminate|]. cbn in El. injection El as <- El. apply Forall_cons_iff in Hc. destruct Hc as [(X & _) _].
      assert (Z : c <> 0) by (subst c; unfold pt_child; rewrite E2; exact X). apply N.eqb_neq in Z. change TXNID_NONE with 0. rewrite Z. auto.
  - destruct (find_inner _ _ _) as [t|] eqn:F; [|discriminate]. apply find_inner_some in F. destruct F as (F & Ht & Er & Ec).
    pose proof (iw_txns _ W) as WT. rewrite Forall_forall in WT. destruct (WT t Ht) as ((ls & l0 & El & _ & Hc & _) & _).
    destruct (pt_levels t) as [|l1 [|l2 ls2]] eqn:E2; [discriminate| |]; injection Ex as <-; (eapply IH; [exact E|exact WK|exact Ho|]); intros n' k'; cbn [i_locks iwith is_nil].
    + assert (Z : c = 0) by (subst c; unfold pt_child; rewrite E2; reflexivity). rewrite Z. change (0 =? TXNID_NONE) with true. cbv iota. unfold release. now rewrite Hl.
    + destruct ls as [|c0 ls]; [discriminate|]. cbn in El. injection El as <- El. apply Forall_cons_iff in Hc. destruct Hc as [(X & _) _].
      assert (Z : c <> 0) by (subst c; unfold pt_child; rewrite E2; exact X). apply N.eqb_neq in Z. change TXNID_NONE with 0. rewrite Z. auto.
  - destruct (find_inner _ _ _) as [t|]; [|discriminate]. destruct (pt_prep t); [discriminate|]. injection Ex as <-. eapply IH; eauto.
  - destruct (nlook fn (i_open I)) eqn:L; [discriminate|]. cbn in Ex. destruct (existsb _ _); [discriminate|]. injection Ex as <-. eapply IH; eauto. cbn [i_open nlook].
    intros g a. destruct (fn =? g); auto.
  - destruct (nlook fn (i_open I)) as [a|]; [|discriminate]. destruct (a =? nm); [|discriminate]. destruct (used_by _ _); [discriminate|]. injection Ex as <-. eapply IH; eauto.
    cbn [i_open]. intros g b Hg. rewrite nlook_filter in Hg by reflexivity. destruct (nlook g (i_open I)) eqn:L; [|discriminate]. destruct (negb _); [|discriminate]. injection Hg as ->. auto.
  - destruct (find_inner _ _ _) as [t|]; [|discriminate]. destruct (nlook fn (i_open I)) as [a|] eqn:L; [|discriminate]. destruct (pt_prep t); [discriminate|]. cbn [negb] in Ex.
    destruct (lock_free _ _ _ _); [|discriminate]. injection Ex as <-. rewrite (Ho _ _ L). eapply IH; eauto. intros n' k'. cbn [i_locks iwith]. unfold take. destruct (_ && _); auto.
  - destruct recover; injection Ex as <-; eapply IH; eauto. cbn [i_open]. intros g b Hg. rewrite nlook_filter in Hg by reflexivity.
    destruct (nlook g (i_open I)) eqn:L; [|discriminate]. destruct (used_by _ _); [|discriminate]. injection Hg as ->. auto.
Qed.

(** * Aborting the live transactions *)

(** The files of recovery hold the contents of the interpreter. *)
Record FS (n : nat) (I : ist) (fs : files) (d : fname -> list ver) : Prop := {
  fs_fm : Fmatch fs (i_open I);
  fs_file : forall fn f, flook fn fs = Some f -> of_msgs f = i_cont I (of_name f) /\ (of_lsn f <= n)%nat
     /\ (of_dirty f = false -> newest d (of_name f) = Some (of_lsn f, of_msgs f));
  fs_disk : forall nm, exists v m, newest d nm = Some (v, m) /\ (v <= n)%nat /\ ((forall fn, nlook fn (i_open I) <> Some nm) -> m = i_cont I nm)
}.

Lemma FS_sent n I K fs fs' d ms : FS n I fs d -> IWf I -> sent None ms fs fs' -> i_open K = i_open I ->
  (forall nm, i_cont K nm = i_cont I nm ++ mine (i_open I) nm ms) -> FS n K fs' d.
Proof.
  intros [F1 F2 F3] W Se Eo Ec. split.
  - rewrite Eo. eapply sent_Fmatch; eauto.
  - intros fn f' L. assert (L0 := L). destruct (sent_file _ _ _ _ _ Se L) as (f & L' & En & Em & Hd). destruct (F2 _ _ L') as (A & B & D).
    assert (Nl : nlook fn (i_open I) = Some (of_name f)) by (rewrite (proj2 F1), L'; reflexivity).
    split; [rewrite Em, Ec, En, A, (mine_fn _ fn _ ms (iw_names _ W) Nl); reflexivity|].
    destruct Se as [S1 S2]. rewrite S2, L' in L0. cbn in L0. injection L0 as <-. rewrite addm_lsn. split; [auto|].
    intros Hc. destruct (Hd Hc) as [D1 D2]. rewrite En, Em, D2, app_nil_r. auto.
  - intros nm. destruct (F3 nm) as (v & m & A & B & D). exists v, m. split; [auto|]. split; [auto|]. rewrite Eo, Ec. intros H. rewrite mine_closed by auto.
    rewrite app_nil_r. auto.
Qed.

Lemma del_pt_In u r ts : In u (del_pt r ts) <-> In u ts /\ pt_root u <> r.
Proof. unfold del_pt. rewrite filter_In. destruct (N.eqb_spec (pt_root u) r); cbn; intuition congruence. Qed.
Lemma set_del t ts : del_pt (pt_root t) (set_pt t ts) = del_pt (pt_root t) ts.
Proof.
  unfold del_pt, set_pt. induction ts as [|u ts IH]; cbn; [reflexivity|]. destruct (N.eqb_spec (pt_root u) (pt_root t)) as [E|E]; cbn.
  - rewrite N.eqb_refl. cbn. exact IH.
  - apply N.eqb_neq in E. rewrite E. cbn. now rewrite IH.
Qed.

Definition is_abort_of (ts : list ptxn) (x : lrec) : Prop := exists t c, x = LAbort (pt_root t) c /\ In t ts /\ pt_prep t = false.

Lemma abort_levels_ok d n0 : forall n r I fs out t, IWf I -> FS n0 I fs d -> find_pt r (i_txns I) = Some t -> n = length (pt_levels t) ->
  exists I' fs' out', abort_levels n r (i_txns I) fs out = Some (i_txns I', fs', out ++ out') /\ irun I out' = Some I' /\ FS n0 I' fs' d
    /\ i_txns I' = del_pt r (i_txns I) /\ i_open I' = i_open I /\ i_used I' = i_used I /\ Forall (fun x => exists c, x = LAbort r c) out'.
Proof.
  induction n as [|n IH]; intros r I fs out t W F Ft En.
  - exfalso. apply find_pt_some in Ft. destruct Ft as [Ht _]. pose proof (iw_txns _ W) as WT. rewrite Forall_forall in WT. destruct (WT t Ht) as ((ls & l & El & _) & _).
    rewrite El, app_length in En. cbn in En. lia.
  - cbn [abort_levels]. rewrite Ft. apply find_pt_some in Ft as Ft'. destruct Ft' as [Ht Er]. subst r.
    destruct (abort_inner_ok true None I fs t W (fs_fm _ _ _ _ F) Ft) as (K & fs1 & Ei & Eci & Se & Eo & Ect & _ & Eu & _ & _ & Et). rewrite Eci.
    pose proof (istep_wf _ _ _ W Ei) as WK. pose proof (FS_sent _ _ _ _ _ _ _ F W Se Eo Ect) as FK.
    destruct (is_nil (tl (pt_levels t))) eqn:Z.
    + assert (n = 0%nat) as -> by (destruct (pt_levels t) as [|a [|b l]]; cbn in *; [lia|lia|discriminate]).
      exists K, fs1, [LAbort (pt_root t) (pt_child t)]. cbn [abort_levels irun]. rewrite Ei. cbn [irun].
      split; [auto|]. split; [auto|]. split; [auto|]. split; [auto|]. split; [auto|]. split; [auto|]. constructor; [eauto|auto].
    + assert (Fk : find_pt (pt_root t) (i_txns K) = Some (pop_level t)).
      { rewrite Et, find_pt_set, Ft. cbn [pop_level pt_root]. now rewrite N.eqb_refl. }
      destruct (IH (pt_root t) K fs1 (out ++ [LAbort (pt_root t) (pt_child t)]) (pop_level t) WK FK Fk) as (I' & fs' & out' & A & B & D & G & H1 & H2 & H3).
      { cbn [pop_level pt_levels]. destruct (pt_levels t); cbn in *; lia. }
      exists I', fs', (LAbort (pt_root t) (pt_child t) :: out'). rewrite A, <- app_assoc. cbn [irun]. rewrite Ei.
      split; [auto|]. split; [auto|]. split; [auto|]. split; [rewrite G, Et; apply (set_del (pop_level t))|]. split; [congruence|]. split; [congruence|].
      constructor; [eauto|auto].
Qed.

Lemma abort_all_ok d n0 : forall td I fs out, IWf I -> FS n0 I fs d -> NoDup (map pt_root td) ->
  (forall t, In t td -> pt_prep t = false -> find_pt (pt_root t) (i_txns I) = Some t) ->
  exists I' fs' out', abort_all td (i_txns I) fs out = Some (i_txns I', fs', out ++ out') /\ irun I out' = Some I' /\ FS n0 I' fs' d
    /\ (forall u, In u (i_txns I') <-> In u (i_txns I) /\ ~ exists t, In t td /\ pt_prep t = false /\ pt_root t = pt_root u)
    /\ i_open I' = i_open I /\ i_used I' = i_used I /\ Forall (is_abort_of td) out'.
Proof.
  induction td as [|t td IH]; intros I fs out W F Nd Hf; cbn [abort_all].
  - exists I, fs, []. rewrite app_nil_r. split; [auto|]. split; [auto|]. split; [auto|]. split; [|auto].
    intros u. split; [intros H; split; [auto|intros (t & [] & _)]|tauto].
  - cbn in Nd. apply NoDup_cons_iff in Nd. destruct Nd as [Nd1 Nd2]. destruct (pt_prep t) eqn:Ep.
    + destruct (IH I fs out W F Nd2) as (I' & fs' & out' & A & B & D & G & H1 & H2 & H3); [intros u Hu; apply Hf; right; auto|].
      exists I', fs', out'. rewrite A. split; [auto|]. split; [auto|]. split; [auto|]. split; [|split; [auto|split; [auto|]]].
      * intros u. rewrite G. split; (intros [X Y]; split; [auto|]); intros (v & Hv & Hp & Er); apply Y; exists v; [|cbn; auto].
        destruct Hv as [->|Hv]; [congruence|auto].
      * eapply Forall_impl; [|exact H3]. intros x (v & c & E & Hv & Hp). exists v, c. cbn; auto.
    + specialize (Hf t (or_introl eq_refl) Ep) as Ft.
      destruct (abort_levels_ok d n0 (length (pt_levels t)) (pt_root t) I fs out t W F Ft eq_refl) as (I1 & fs1 & o1 & A & B & D & G & H1 & H2 & H3). rewrite A.
      assert (W1 : IWf I1) by (eapply irun_wf; eauto).
      destruct (IH I1 fs1 (out ++ o1) W1 D Nd2) as (I' & fs' & o2 & A' & B' & D' & G' & H1' & H2' & H3').
      { intros u Hu Hp. rewrite G. assert (pt_root u <> pt_root t) by (intros X; apply Nd1; rewrite <- X; now apply in_map).
        apply sorted_find; [apply del_pt_sorted, (iw_sorted _ W)|]. apply del_pt_In. split; [|auto].
        specialize (Hf u (or_intror Hu) Hp). apply find_pt_some in Hf. tauto. }
      exists I', fs', (o1 ++ o2). rewrite A', <- app_assoc. split; [auto|]. rewrite irun_app, B. split; [auto|]. split; [auto|].
      split; [|split; [congruence|split; [congruence|]]].
      * intros u. rewrite G', G, del_pt_In. split.
        -- intros [[X1 X2] X3]. split; [auto|]. intros (v & [->|Hv] & Hp & Er); [congruence|]. apply X3. eauto.
        -- intros [X1 X2]. split; [split; [auto|]|].
           ++ intros Er. apply X2. exists t. cbn. auto.
           ++ intros (v & Hv & Hp & Er). apply X2. exists v. cbn. auto.
      * rewrite Forall_app. split.
        -- eapply Forall_impl; [|exact H3]. intros x (c & E). exists t, c. cbn; auto.
        -- eapply Forall_impl; [|exact H3']. intros x (v & c & E & Hv & Hp). exists v, c. cbn; auto.
Qed.

(** * Closing the dictionaries *)
Lemma close_all_ok ts l : forall fs d fs1 d1, NoDup (map fst fs) -> NoDup (map (fun p => of_name (snd p)) fs) -> close_all ts l fs d = (fs1, d1) ->
  NoDup (map fst fs1) /\ (forall fn, flook fn fs1 = if used_by fn ts then flook fn fs else None)
  /\ (forall nm, newest d1 nm =
        match find (fun p => (of_name (snd p) =? nm) && negb (used_by (fst p) ts) && of_dirty (snd p)) fs with
        | Some p => Some (Nat.max l (of_lsn (snd p)), of_msgs (snd p))
        | None => newest d nm
        end).
Proof.
  induction fs as [|[fn f] fs IH]; intros d fs1 d1 N1 N2 E; cbn [close_all] in E.
  - injection E as <- <-. split; [constructor|]. split; [intros g; cbn; destruct (used_by g ts); reflexivity|reflexivity].
  - destruct (close_all ts l fs d) as [fs2 d2] eqn:E2. cbn [map fst snd] in N1, N2. apply NoDup_cons_iff in N1, N2. destruct N1 as [N1 N1'], N2 as [N2 N2'].
    destruct (IH d fs2 d2 N1' N2' E2) as (A & B & D). clear IH.
    assert (Hn : flook fn fs2 = None). { rewrite B. apply flook_none in N1. rewrite N1. destruct (used_by fn ts); auto. }
    destruct (used_by fn ts) eqn:U; injection E as <- <-.
    + split; [cbn; constructor; [apply flook_none; auto|auto]|]. split.
      * intros g. cbn [flook]. destruct (N.eqb_spec fn g) as [E|E]; [subst g; rewrite U; reflexivity|apply B].
      * intros nm. cbn [find fst snd]. rewrite U. cbn [negb]. rewrite andb_false_r. cbn [andb]. apply D.
    + split; [auto|]. split.
      * intros g. cbn [flook]. rewrite B. destruct (N.eqb_spec fn g) as [E|E]; [subst g; rewrite U; reflexivity|reflexivity].
      * intros nm. cbn [find fst snd]. rewrite U. cbn [negb]. rewrite andb_true_r. unfold close_with.
        destruct (of_dirty f) eqn:Df; [|rewrite andb_false_r; apply D]. rewrite andb_true_r. destruct (N.eqb_spec (of_name f) nm) as [E|E].
        -- subst nm. unfold newest, upd2. rewrite N.eqb_refl. reflexivity.
        -- unfold newest, upd2 in *. destruct (N.eqb_spec nm (of_name f)) as [E'|E']; [congruence|apply D].
Qed.

(** * Recovery *)

Definition crash (n : nat) (s : sys) : image := mkImg (firstn n (y_log s)) (y_disk s) (y_rb s).

Lemma irun_prefix l1 l2 I K : irun I (l1 ++ l2) = Some K -> exists K', irun I l1 = Some K' /\ irun K' l2 = Some K.
Proof. rewrite irun_app. destruct (irun I l1) as [K'|]; [eauto|discriminate]. Qed.

Lemma C_cat pre J suf p nm : irun ist_init pre = Some J -> (length pre <= p)%nat -> C (pre ++ suf) p nm = cat J suf (length pre) p nm.
Proof.
  intros H Hp. unfold C, cat, st. rewrite Nat.sub_0_r, firstn_app, (firstn_all2 pre) by lia. rewrite irun_app, H. reflexivity.
Qed.
Lemma cat_mono J suf pb p q nm K : irun J suf = Some K -> (p <= q)%nat -> exists D, cat J suf pb q nm = cat J suf pb p nm ++ D.
Proof.
  intros H Hp. unfold cat, st. rewrite <- (firstn_skipn (p - pb) (firstn (q - pb) suf)). rewrite firstn_firstn, Nat.min_l by lia.
  destruct (st_prefix J suf pb q K H) as (K2 & E2). unfold st in E2. rewrite <- (firstn_skipn (p - pb) (firstn (q - pb) suf)) in E2.
  rewrite firstn_firstn, Nat.min_l in E2 by lia. assert (E3 := E2). rewrite irun_app in E2. destruct (irun J (firstn (p - pb) suf)) as [K1|]; [|discriminate].
  rewrite E3. apply (irun_cont _ _ _ nm E2).
Qed.

Lemma names_nodup fs o : Fmatch fs o -> NoDup (map snd o) -> NoDup (map (fun p => of_name (snd p)) fs).
Proof.
  intros [Nd Fm] No. induction fs as [|[fn f] fs IH]; [constructor|]. assert (Nd0 := Nd). cbn in Nd. apply NoDup_cons_iff in Nd. destruct Nd as [N1 N2].
  assert (Key : forall fs' : files, (forall g h, In (g, h) fs' -> nlook g o = Some (of_name h)) -> NoDup (map fst fs') -> NoDup (map (fun p => of_name (snd p)) fs')).
  { clear -No. induction fs' as [|[g h] fs' IH]; intros H Nd; [constructor|]. cbn in *. apply NoDup_cons_iff in Nd. destruct Nd as [N1 N2]. constructor; [|apply IH; auto].
    intros X. apply in_map_iff in X. destruct X as ([g2 h2] & E & X). cbn in E. apply N1. assert (g = g2).
    { apply (nlook_inj g g2 (of_name h) o No); [apply H; auto|]. rewrite <- E. apply H. auto. }
    subst g2. change g with (fst (g, h2)). now apply in_map. }
  apply Key; [|auto]. intros g h Hg. rewrite Fm, (flook_intro _ _ _ Nd0 Hg). reflexivity.
Qed.

Theorem recover_inv s I n : Inv false s I -> (y_flushed s <= n <= length (y_log s))%nat ->
  exists s' I' out K, recover (crash n s) = Some s' /\ Inv true s' I' /\ y_ck s' = None
    /\ irun ist_init (firstn n (y_log s)) = Some K
    /\ y_log s' = firstn n (y_log s) ++ out ++ [LComment true] /\ Forall (is_abort_of (i_txns K)) out
    /\ (forall u, In u (y_txns s') <-> In u (i_txns K) /\ pt_prep u = true).
Proof.
  intros (Co & Rb & Pr & Cp) Hn. destruct (Cp eq_refl) as (pre & J & last & fs0 & mid & post & P). clear Cp Pr Rb.
  destruct P as [B1 B2 B3 B4 B5 B6 B7 B8 B9]. assert (WJ : IWf J) by (eapply irun_wf; [apply IWf_init|exact B2]).
  set (blk := ck_recs last fs0 (i_txns J)) in *. set (e0 := LEndCk _ _ _) in *.
  set (post' := firstn (n - length (pre ++ blk ++ mid ++ [e0])) post). set (suf := blk ++ mid ++ e0 :: post').
  assert (EL : firstn n (y_log s) = pre ++ suf).
  { rewrite B1. replace (pre ++ blk ++ mid ++ e0 :: post) with ((pre ++ blk ++ mid ++ [e0]) ++ post) by (rewrite <- !app_assoc; reflexivity).
    rewrite firstn_app, firstn_all2 by (rewrite !app_length; cbn [length]; lia). unfold suf, post'. rewrite <- !app_assoc. reflexivity. }
  assert (HnL : length (pre ++ suf) = n) by (rewrite <- EL; apply firstn_length_le; lia).
  assert (Hlen : (length pre + length suf = n)%nat) by (rewrite <- HnL, app_length; reflexivity).
  destruct (irun_prefix (firstn n (y_log s)) (skipn n (y_log s)) ist_init I) as (K & HK & _); [rewrite firstn_skipn; apply (c_run _ _ Co)|].
  assert (HKs : irun J suf = Some K). { rewrite EL, irun_app, B2 in HK. exact HK. }
  assert (WK : IWf K) by (eapply irun_wf; eauto).
  set (Q := fun (nm : fname) (lsn p : nat) (m : mlist) => m = cat J suf (length pre) (Nat.max p lsn) nm).
  assert (Post' : Forall (fun x => is_end x = false /\ is_recovered x = false) post').
  { rewrite Forall_forall in *. intros x Hx. apply B4. unfold post' in Hx. rewrite <- (firstn_skipn (n - length (pre ++ blk ++ mid ++ [e0])) post). apply in_or_app. auto. }
  destruct (replay_sim J (length pre) last fs0 mid post' Q) with (d := y_disk s) (rbs := y_rb s) (pre := pre) (K := K) as (R & ER & SR); auto.
  { unfold Q. intros nm lsn p m _ Hp ->. f_equal. lia. }
  { unfold Q. intros nm lsn p m D _ Hp _ Hc ->. fold blk e0 suf in Hc |- *. rewrite !Nat.max_l by lia. auto. }
  { unfold Q. intros nm lsn p m ->. f_equal. lia. }
  { intros nm. destruct (c_disk _ _ Co nm) as (v & m & Nw & Hv & _). exists v, m. split; [auto|]. fold blk e0 suf. split; [lia|]. unfold Q.
    rewrite (B6 _ _ _ Nw). rewrite <- (firstn_skipn n (y_log s)). rewrite C_app by (rewrite EL, HnL; lia).
    rewrite EL. rewrite (C_cat pre J) by (auto; lia).
    assert (Pl : (Nat.max v (length pre) <= Nat.max (length pre + length blk) v)%nat) by lia.
    destruct (cat_mono J suf (length pre) _ _ nm K HKs Pl) as (D1 & E1).
    destruct (le_lt_dec (length pre + length blk) v) as [Y|Y]; [f_equal; lia|].
    assert (Eb : cat J suf (length pre) (Nat.max (length pre + length blk) v) nm = i_cont J nm).
    { rewrite Nat.max_l by lia. unfold suf. rewrite cat_app by lia. erewrite cat_all; [|apply (ck_irun J last fs0 mid); auto|unfold blk; lia]. reflexivity. }
    destruct (cat_mono J suf (length pre) (length pre) (Nat.max v (length pre)) nm K HKs) as (D2 & E2); [lia|]. rewrite (cat_base J suf (length pre) (length pre)) in E2 by lia.
    rewrite E1, E2 in Eb |- *. rewrite <- app_assoc in Eb. rewrite <- (app_nil_r (i_cont J nm)) in Eb at 2. apply app_inv_head in Eb.
    apply app_eq_nil in Eb. destruct Eb as [-> ->]. now rewrite !app_nil_r. }
  fold blk e0 suf in ER, SR. rewrite Hlen in SR. destruct SR as [S1 S2 S3 S4 S5 S6 S7 S8 S9].
  assert (Qn : forall nm lsn m, (lsn <= n)%nat -> Q nm lsn n m -> m = i_cont K nm).
  { intros nm lsn m Hl ->. rewrite Nat.max_l by lia. apply cat_all; auto. lia. }
  assert (F0 : FS n K (r_files R) (r_disk R)).
  { split; [auto| |].
    - intros fn f L. destruct (S5 _ _ L) as (A & B & D). split; [eapply Qn; [|exact A]; lia|]. split; [lia|auto].
    - intros nm. destruct (S6 nm) as (v & m & A & B & D). exists v, m. split; [auto|]. split; [lia|]. intros H. eapply Qn; [|apply D; auto]. lia. }
  destruct (abort_all_ok (r_disk R) n (i_txns K) K (r_files R) [] WK F0) as (I1 & fs1 & out & A1 & A2 & A3 & A4 & A5 & A6 & A7).
  { clear -WK. pose proof (iw_sorted _ WK) as Ss. induction Ss as [|a l S IH H]; [constructor|]. constructor; [|auto]. intros X. rewrite Forall_forall in H. apply H in X. lia. }
  { intros t Ht Hp. apply sorted_find; [apply (iw_sorted _ WK)|auto]. }
  cbn [app] in A1. rewrite <- S3 in A1.
  assert (W1 : IWf I1) by (eapply irun_wf; eauto).
  destruct (close_all (i_txns I1) n fs1 (r_disk R)) as [fs2 d2] eqn:Ecl.
  assert (N1 : NoDup (map fst fs1)) by apply (fs_fm _ _ _ _ A3).
  assert (N2 : NoDup (map (fun p => of_name (snd p)) fs1)) by (eapply names_nodup; [apply (fs_fm _ _ _ _ A3)|apply (iw_names _ W1)]).
  destruct (close_all_ok _ _ _ _ _ _ N1 N2 Ecl) as (C1 & C2 & C3).
  set (I2 := mkIst (filter (fun p => used_by (fst p) (i_txns I1)) (i_open I1)) (i_txns I1) (i_cont I1) (i_locks I1) (i_used I1) (i_clast I1) 0).
  set (log' := (pre ++ suf) ++ out ++ [LComment true]).
  assert (HI2 : irun ist_init log' = Some I2). { unfold log'. rewrite irun_app, <- EL, HK, irun_snoc, A2. reflexivity. }
  assert (Prep : forall u, In u (i_txns I1) <-> In u (i_txns K) /\ pt_prep u = true).
  { intros u. rewrite A4. split; intros [X Y]; (split; [auto|]).
    - destruct (pt_prep u) eqn:Ep; [auto|]. exfalso. apply Y. eauto.
    - intros (t & Ht & Hp & Er). assert (t = u). { apply (sorted_find _ _ (iw_sorted _ WK)) in X, Ht. rewrite Er in Ht. congruence. } congruence. }
  assert (Scan : exists b e, scan_back (rev (pre ++ suf)) None = Some (b, e)).
  { unfold replay in ER. cbn [i_log] in ER. destruct (scan_back _ _) as [[b e]|]; [eauto|discriminate]. }
  destruct Scan as (b & e & Scan).
  eexists. exists I2, out, K. split; [|split; [|split; [|split; [exact HK|split; [|split; [exact A7|]]]]]].
  - unfold recover, crash. rewrite EL, ER. cbn [i_log i_disk i_rb]. rewrite Scan, A1, HnL, Ecl. fold log'. reflexivity.
  - split; [|split; [|split]].
    + split; cbn [y_log y_txns y_locks y_clast y_last y_idle y_files y_flushed y_disk y_rb y_ck y_rbdirty]; auto.
      * intros nm k. apply (locks_run_ok log' [] _ ist_init I2 HI2 IWf_init); [discriminate|reflexivity].
      * apply Forall_forall. intros t Ht Hp. apply Prep in Ht. destruct Ht. congruence.
      * cbn [I2 i_used]. rewrite A6. exact S7.
      * cbn [I2 i_ck]. lia.
      * split; [auto|]. intros fn. cbn [I2 i_open]. rewrite nlook_filter by reflexivity. rewrite C2. cbn [fst].
        rewrite (proj2 (fs_fm _ _ _ _ A3)). destruct (flook fn fs1); cbn; destruct (used_by fn (i_txns I1)); reflexivity.
      * intros fn f L. rewrite C2 in L. destruct (used_by fn (i_txns I1)); [|discriminate]. apply (fs_file _ _ _ _ A3 _ _ L).
      * intros nm. rewrite C3. set (tst := fun p : fnum * ofile => _). destruct (find tst fs1) as [[fn f]|] eqn:Fd.
        -- apply find_some in Fd. destruct Fd as [Fd1 Fd2]. unfold tst in Fd2. cbn in Fd2. apply andb_true_iff in Fd2. destruct Fd2 as [Fd2 Fd3]. apply andb_true_iff in Fd2. destruct Fd2 as [Fd2 _].
           apply N.eqb_eq in Fd2. eexists _, _. split; [reflexivity|]. destruct (fs_file _ _ _ _ A3 fn f (flook_intro _ _ _ N1 Fd1)) as (X & Y & _). cbn [snd]. split.
           ++ unfold log'. rewrite !app_length, <- (app_length pre), HnL. lia.
           ++ intros _. rewrite X, Fd2. reflexivity.
        -- destruct (fs_disk _ _ _ _ A3 nm) as (v & m & X & Y & Z). exists v, m. split; [auto|]. split.
           ++ unfold log'. rewrite !app_length, <- (app_length pre), HnL. lia.
           ++ intros Hs. cbn [I2 i_cont]. destruct (find (fun p => snd p =? nm) (i_open I1)) as [[fn nm']|] eqn:Fo.
              ** apply find_some in Fo. destruct Fo as [Fo1 Fo2]. cbn in Fo2. apply N.eqb_eq in Fo2. subst nm'. apply nlook_intro in Fo1; [|apply (iw_fns _ W1)].
                 rewrite (proj2 (fs_fm _ _ _ _ A3)) in Fo1. destruct (flook fn fs1) as [f|] eqn:L; [|discriminate]. cbn in Fo1. injection Fo1 as En.
                 destruct (fs_file _ _ _ _ A3 fn f L) as (X1 & X2 & X3).
                 assert (Dc : of_dirty f = false).
                 { destruct (used_by fn (i_txns I1)) eqn:U.
                   - apply (Hs fn f); [|auto]. cbn [y_files]. now rewrite C2, U.
                   - apply (find_none _ _ Fd) in L as L' || (apply flook_In in L as L'; apply (find_none _ _ Fd) in L'). unfold tst in L'. cbn in L'. rewrite U, En, N.eqb_refl in L'. exact L'. }
                 specialize (X3 Dc). rewrite En, X in X3. injection X3 as -> ->. rewrite X1, En. reflexivity.
              ** apply Z. intros fn Hfn. apply nlook_In in Hfn. apply (find_none _ _ Fo) in Hfn. cbn in Hfn. rewrite N.eqb_refl in Hfn. discriminate.
    + intros X. discriminate X.
    + cbn [y_ck]. reflexivity.
    + discriminate.
  - reflexivity.
  - cbn [y_log]. unfold log'. now rewrite EL.
  - cbn [y_txns]. exact Prep.
Qed.
