(** A row of the source, indexed. *)
From Verif Require Import Base Bytes KOrd LtSpec UleModel UleSpec MulSpec HotModel HotSpec HotProofs HotRow HotTop.
From Coq Require Import Lia.
Open Scope N_scope.

Lemma lastv_nil_strip b l : strip l = [] -> lastv b l = b.
Proof.
  revert b; induction l as [|r l IH]; intros b H; [reflexivity|]. cbn [strip] in H. cbn [lastv].
  destruct (strip l) eqn:E; [|discriminate H]. destruct (is_place (ux_xr r)); [now apply IH|discriminate H].
Qed.
Lemma strip_head r l q p : strip (r :: l) = q :: p -> q = r.
Proof. cbn [strip]. destruct (strip l); [destruct (is_place (ux_xr r)); [discriminate|]|]; intros [= <- _]; reflexivity. Qed.
Lemma lastv_strip b l q p d : strip l = q :: p -> ux_xr (last (q :: p) d) = lastv b l.
Proof.
  revert b q p; induction l as [|r l IH]; intros b q p H; [discriminate H|]. cbn [strip] in H. cbn [lastv].
  destruct (strip l) as [|q' p'] eqn:E.
  - destruct (is_place (ux_xr r)) eqn:Pr; [discriminate H|]. injection H as <- <-. rewrite lastv_nil_strip by exact E. reflexivity.
  - injection H as <- <-. change (last (r :: q' :: p') d) with (last (q' :: p') d). now apply IH.
Qed.

(** Reading a row through its writes, placeholders aside. *)
Lemma iter_strip cs q cap f : cs <> [] ->
  (match q with [] => True | y :: _ => f (ux_xid y) = true -> xvo (accepted_committed f cs) = xv (newest (mkUle cs q cap)) end) ->
  iter f (mkUle cs (strip q) cap) = match q with [] => xvo (accepted_committed f cs) | y :: _ => if f (ux_xid y) then xv (lastv (newest (mkUle cs q cap)) q) else xvo (accepted_committed f cs) end.
Proof.
  intros Hc Hf. unfold iter, le_iterate. cbn [px cx]. destruct q as [|y q]; [reflexivity|].
  destruct (strip (y :: q)) as [|y' p] eqn:E.
  - rewrite (lastv_nil_strip _ _ E). destruct (f (ux_xid y)); [now apply Hf|reflexivity].
  - rewrite (strip_head _ _ _ _ E). destruct (f (ux_xid y)); [|reflexivity].
    unfold ule_innermost. cbn [cx px]. destruct cs as [|c l]; [congruence|]. cbn [xvo].
    pose proof (strip_head _ _ _ _ E) as ->. now rewrite (lastv_strip (newest (mkUle (c :: l) (y :: q) cap)) _ _ _ c E).
Qed.

(** Readers of the newest committed value ([C_READ_COMMITTED]). *)
Definition iterc (fp : txnid -> bool) (u : ule) : option bytes := xvo (le_iterate fp (fun _ => true) u).
Lemma acc_true c l : accepted_committed (fun _ => true) (c :: l) = Some (ux_xr c).
Proof. apply accepted_all. apply Forall_forall; auto. Qed.
Lemma iterc_strip cs q cap fp : cs <> [] ->
  iterc fp (mkUle cs (strip q) cap) = match q with [] => xv (newest (mkUle cs q cap)) | y :: _ => if fp (ux_xid y) then xv (lastv (newest (mkUle cs q cap)) q) else xv (newest (mkUle cs q cap)) end.
Proof.
  intros Hc. unfold iterc, le_iterate, newest. cbn [px cx]. destruct cs as [|c l]; [congruence|]. rewrite acc_true. destruct q as [|y q]; [reflexivity|].
  destruct (strip (y :: q)) as [|y' p] eqn:E.
  - rewrite (lastv_nil_strip _ _ E). destruct (fp (ux_xid y)); reflexivity.
  - rewrite (strip_head _ _ _ _ E). destruct (fp (ux_xid y)); [|reflexivity].
    unfold ule_innermost. cbn [cx px xvo].
    pose proof (strip_head _ _ _ _ E) as ->. now rewrite (lastv_strip (ux_xr c) _ _ _ c E).
Qed.
Lemma iterc_hs y ys u fp : hs (y :: ys) u -> iterc fp u = if fp y then lv u (length (y :: ys)) else xv (newest u).
Proof.
  intros H. unfold iterc, le_iterate. pose proof (hs_ids _ _ H) as Hi. destruct (innermost_lv _ _ H) as (r & Er & Hr).
  assert (A : xvo (accepted_committed (fun _ => true) (cx u)) = xv (newest u)) by (apply cv_all, (hs_cx _ _ H)).
  destruct (px u) as [|q p] eqn:Ep.
  - rewrite A. destruct (fp y); [|reflexivity]. unfold lv. rewrite Ep, firstn_nil. reflexivity.
  - cbn [map length firstn] in Hi. injection Hi as Eq _. rewrite Eq. destruct (fp y); [|exact A].
    rewrite Er. cbn [xvo]. exact Hr.
Qed.
Lemma iterc_nil fp u : cx u <> [] -> px u = [] -> iterc fp u = xv (newest u).
Proof. intros Hc P. unfold iterc, le_iterate. rewrite P. now apply cv_all. Qed.
Lemma iter_true u : cx u <> [] -> iter (fun _ => true) u = iterc (fun _ => true) u.
Proof. reflexivity. Qed.
Lemma read_iterc rd o : cx (ur o) <> [] -> row_read C_READ_COMMITTED rd o = Some (iterc (fun x => txn_reads_txnid x rd) (ur o)).
Proof.
  intros Hc. destruct o as [u|]; [|reflexivity]. cbn [ur row_read] in *. unfold le_read, iterc, le_iterate, ule_innermost.
  destruct (cx u) as [|c l]; [congruence|]. rewrite acc_true. destruct (px u) as [|q p]; [reflexivity|]. destruct (txn_reads_txnid _ _); reflexivity.
Qed.

Lemma read_iter rt rd o : rt <> C_READ_COMMITTED -> cx (ur o) <> [] ->
  row_read rt rd o = Some (iter (match rt with C_READ_SNAPSHOT => fun x => txn_reads_txnid x rd | _ => fun _ => true end) (ur o)).
Proof.
  intros Hrt Hc. destruct o as [u|]; cbn [ur row_read] in *.
  - unfold le_read, iter. destruct rt; [| |congruence].
    + unfold le_iterate, ule_innermost. destruct (cx u) as [|c l]; [congruence|]. destruct (px u) as [|q p].
      * rewrite accepted_all by (apply Forall_forall; auto). reflexivity.
      * reflexivity.
    + destruct (le_iterate _ _ u) as [r|] eqn:E; [reflexivity|]. exfalso.
      unfold le_iterate, ule_innermost in E. destruct (cx u) as [|c l]; [congruence|].
      assert (A : forall f, accepted_committed f (c :: l) <> None).
      { intros f. clear. revert c. induction l as [|d l IH]; intros c; [discriminate|]. cbn [accepted_committed]. destruct (f (ux_xid c)); [discriminate|apply IH]. }
      destruct (px u) as [|q p]; [now apply A in E|]. destruct (txn_reads_txnid _ _); [discriminate E|now apply A in E].
  - destruct rt; [| |congruence]; reflexivity.
Qed.

Section All.
Context (c : bytes -> bytes -> comparison) (ok : cmp_ok c) (g : hotdb).
Notation cb := (cb c g).

Definition cbs (u : ule) : Prop := forall v, In (XIns v) (map ux_xr (cx u ++ px u)) -> callbacks_ok c g v.
Lemma cbs_c u r : cbs u -> In r (cx u ++ px u) -> cb (ux_xr r).
Proof. intros H I. unfold HotRow.cb. destruct (ux_xr r) as [v| |] eqn:E; auto. apply H. rewrite <- E. now apply in_map. Qed.

Lemma committed_all u st : source_ok u st -> cbs u ->
  forall hk, exists ms o, committed_loop g None (rev (cx u)) = HOk ms /\ apply_all (proj c hk ms) None = Some o /\ rc c g hk o (cx u).
Proof.
  intros S B hk. destruct (wf_bottom _ (so_wf _ _ S)) as (l & w & E).
  pose proof (wf_c _ (so_wf _ _ S)) as Wc. pose proof (so_cids _ _ S) as Ni. rewrite E in Wc, Ni |- *.
  rewrite removelast_last in Ni. rewrite rev_app_distr. cbn [rev app committed_loop].
  apply Forall_app in Wc as [W1 W2]. inversion W2 as [|? ? [_ W3] _]; subst. cbn [ux_xr] in W3.
  assert (Pw : is_place w = false) by (destruct w; [reflexivity..|congruence]).
  assert (I0 : In (mkUxr TXNID_NONE w) (cx u ++ px u)) by (apply in_or_app; left; rewrite E; apply in_or_app; right; now left).
  destruct (first_run c ok g hk w Pw (cbs_c _ _ B I0)) as (m1 & o1 & E1 & A1 & R1).
  destruct (committed_run c ok g hk (rev l) o1 (mkUxr TXNID_NONE w) [] R1 Pw (cbs_c _ _ B I0)) as (m2 & o2 & E2 & A2 & R2).
  { apply Forall_forall. intros r Hr. apply in_rev in Hr. split; [|split].
    - rewrite Forall_forall in Ni. exact (Ni r Hr).
    - rewrite Forall_forall in W1. destruct (W1 r Hr) as [_ N]. destruct (ux_xr r); [reflexivity..|congruence].
    - apply (cbs_c u); [exact B|]. apply in_or_app; left. rewrite E. apply in_or_app; now left. }
  rewrite E1. cbn [hbind ux_xr] in *. rewrite E2. cbn [hbind].
  exists (m1 ++ m2), o2. split; [reflexivity|]. split; [rewrite proj_app, (apply_all_app _ _ _ _ A1); exact A2|].
  rewrite rev_involutive in R2. exact R2.
Qed.

Lemma combine_fst {A B} (l : list A) (m : list B) : length m = length l -> map fst (combine l m) = l.
Proof. revert m; induction l as [|a l IH]; intros [|b m] H; cbn in *; try discriminate; [reflexivity|]. f_equal. apply IH. lia. Qed.
Lemma combine_snd {A B} (l : list A) (m : list B) : length m = length l -> map snd (combine l m) = m.
Proof. revert m; induction l as [|a l IH]; intros [|b m] H; cbn in *; try discriminate; [reflexivity|]. f_equal. apply IH. lia. Qed.

(** What the provisional part does to a row that has the committed history. *)
Definition shown hk (o : option ule) (u : ule) (st : list tstate) : Prop :=
  cx (ur o) <> [] /\
  (forall f, in_order f (row_ids u) -> iter f (ur o) = hot_of c g hk (iter f (settled u st))) /\
  (forall f k, (k < open_levels st)%nat -> in_order f (row_ids u) -> iter f (upto k (ur o)) = hot_of c g hk (iter f (upto k u))) /\
  (forall fp, (forall s st' r p, st = s :: st' -> px u = r :: p -> is_over s = true -> fp (ux_xid r) = true) -> iterc fp (ur o) = hot_of c g hk (iterc fp (settled u st))) /\
  (forall fp k, (k < open_levels st)%nat -> iterc fp (upto k (ur o)) = hot_of c g hk (iterc fp (upto k u))).

Lemma in_order_px u f : in_order f (row_ids u) -> in_order f (map ux_xid (cx u)) /\ (forall r p, px u = r :: p -> f (ux_xid r) = true -> Forall (fun y => f y = true) (map ux_xid (cx u))).
Proof.
  unfold row_ids. destruct (px u) as [|r p] eqn:E; cbn [app]; intros O.
  - split; [exact O|discriminate].
  - apply in_order_cons in O as [O1 O2]. split; [exact O2|]. intros r' p' [= <- <-]. exact O1.
Qed.

Lemma before_firstn l k : (k <= live_levels (map snd l))%nat -> firstn k (before_abort l) = firstn k (map fst l).
Proof.
  revert k; induction l as [|[r s] l IH]; intros k H; [reflexivity|]. cbn [map snd live_levels] in H.
  destruct k as [|k]; [reflexivity|]. destruct s; try lia. cbn. f_equal. apply IH. lia.
Qed.

Lemma provisional_all u st hk o : source_ok u st -> states_ok st -> cbs u -> rc c g hk o (cx u) ->
  exists ms o', provisional g (newest u) (combine (px u) st) = HOk ms /\ apply_all (proj c hk ms) o = Some o' /\ shown hk o' u st.
Proof.
  intros S T B R.
  destruct (wf_bottom _ (so_wf _ _ S)) as (l0 & w0 & Ec0).
  destruct (cx u) as [|p0 cs] eqn:Ec; [destruct l0; discriminate Ec0|].
  assert (Eb : newest u = ux_xr p0) by (unfold newest; now rewrite Ec).
  assert (Hb : is_place (ux_xr p0) = false).
  { pose proof (wf_c _ (so_wf _ _ S)) as W. rewrite Ec in W. inversion W as [|? ? [_ N] _]; subst. destruct (ux_xr p0); [reflexivity..|congruence]. }
  assert (Cb : cb (ux_xr p0)) by (apply (cbs_c u); [exact B|rewrite Ec; now left]).
  destruct (px u) as [|r0 pr] eqn:Ep.
  { (* nothing provisional *)
    pose proof (so_len _ _ S) as L. rewrite Ep in L. destruct st as [|s st]; [|discriminate L].
    exists [], o. split; [reflexivity|]. split; [reflexivity|].
    split; [exact (hs_cx _ _ (rc_hs _ _ _ _ _ R))|]. split; [|split; [intros f k Hk; cbn in Hk; lia|split; [|intros f k Hk; cbn in Hk; lia]]].
    2:{ intros fp _. rewrite (iterc_nil fp (ur o) (hs_cx _ _ (rc_hs _ _ _ _ _ R)) (rc_px _ _ _ _ _ R)), (rc_newest _ _ _ _ _ _ R).
        unfold settled. rewrite Ep. cbn [combine before_abort strip]. rewrite iterc_nil by (cbn [cx px]; rewrite ?Ec; (discriminate || reflexivity)). unfold newest; cbn [cx]; now rewrite Ec. }
    intros f O. apply in_order_px in O as [O _]. rewrite iter_nil by exact (rc_px _ _ _ _ _ R).
    rewrite Ec in O. rewrite (rc_cv _ _ _ _ _ R f O). unfold settled. rewrite Ep, Ec. reflexivity. }
  destruct st as [|s0 st]; [pose proof (so_len _ _ S) as L; rewrite Ep in L; discriminate L|].
  pose proof (so_len _ _ S) as L. rewrite Ep in L. cbn [length] in L. injection L as L.
  rewrite Eb. cbn [combine provisional].
  assert (HcxR : forall f, in_order f (row_ids u) -> cv f (ur o) = hot_of c g hk (xvo (accepted_committed f (cx u)))).
  { intros f O. apply in_order_px in O as [O _]. rewrite Ec in *. exact (rc_cv _ _ _ _ _ R f O). }
  assert (Sees : forall f, in_order f (row_ids u) -> f (ux_xid r0) = true -> xvo (accepted_committed f (cx u)) = xv (ux_xr p0)).
  { intros f O Hf. apply in_order_px in O as [_ O]. specialize (O r0 pr Ep Hf). rewrite Ec in *. now rewrite accepted_all. }
  destruct (match s0 with TAborting => true | _ => false end) eqn:Ab.
  { destruct s0; try discriminate Ab. cbn [prov_loop hbind fst snd map concat app].
    exists [], o. split; [reflexivity|]. split; [reflexivity|].
    split; [exact (hs_cx _ _ (rc_hs _ _ _ _ _ R))|]. split; [|split; [intros f k Hk; cbn in Hk; lia|split; [|intros f k Hk; cbn in Hk; lia]]].
    2:{ intros fp _. rewrite (iterc_nil fp (ur o) (hs_cx _ _ (rc_hs _ _ _ _ _ R)) (rc_px _ _ _ _ _ R)), (rc_newest _ _ _ _ _ _ R).
        unfold settled. rewrite Ep. cbn [combine before_abort strip]. rewrite iterc_nil by (cbn [cx px]; rewrite ?Ec; (discriminate || reflexivity)). unfold newest; cbn [cx]; now rewrite Ec. }
    intros f O. rewrite iter_nil by exact (rc_px _ _ _ _ _ R). rewrite (HcxR f O). unfold settled. rewrite Ep. cbn [combine before_abort strip]. reflexivity. }
  assert (Nab : s0 <> TAborting) by (intros ->; discriminate Ab).
  rewrite (prov_cons _ _ _ _ _ _ _ _ _ Nab). cbn [next_xids hbind].
  assert (inner_ok s0 true s0 = true) as -> by (destruct s0; reflexivity). cbn [negb].
  assert (Nz : ux_xid r0 <> 0) by (pose proof (so_pids _ _ S) as W; rewrite Ep in W; inversion W; assumption).
  rewrite (set_xid_nz _ Nz). set (x := ux_xid r0) in *.
  assert (Fa : Forall (fun r => cb (ux_xr r)) (r0 :: pr)).
  { apply Forall_forall. intros r Hr. apply (cbs_c u); [exact B|]. apply in_or_app; right. now rewrite Ep. }
  assert (Ca : chain_ok (map ux_xid (r0 :: pr))).
  { constructor.
    - discriminate.
    - rewrite <- Ep. exact (so_diff _ _ S).
    - intros I. pose proof (so_pids _ _ S) as W. rewrite Forall_forall in W. apply in_map_iff in I as (r & E & I). rewrite <- Ep in I. apply (W r I). exact E.
    - rewrite map_length, <- Ep. exact (wf_np _ (so_wf _ _ S)). }
  destruct (rec1_spec c ok g hk o (ux_xr p0) [] r0 [x] s0 [] (mid_first _ _ _ _ _ _ _ R) (chain1 x Nz) Hb Cb) as (ms1 & ck1 & o1 & E1 & A1 & H1 & V1 & K1).
  { inversion Fa; subst. repeat constructor. assumption. }
  cbn [lastv app] in E1. cbn [app] in H1. rewrite E1. cbn [hbind fst snd].
  assert (Td : todo s0 (length [x]) (length [r0]) (map snd (combine pr st))).
  { rewrite combine_snd by exact L. unfold states_ok in T. destruct s0; try (exfalso; apply Nab; reflexivity).
    - left. split; [reflexivity|]. left. split; [reflexivity|exact T].
    - right. split; [discriminate|exact T].
    - right. split; [discriminate|exact T].
    - right. split; [discriminate|exact T]. }
  destruct (prov_run c ok g hk (ux_xr p0) s0 (combine pr st) o1 [r0] [x] ck1 (r0 :: pr) H1 (co_nil _ (chain1 x Nz)) Hb Cb Fa Ca) as (ms2 & xs2 & ck2 & o2 & E2 & A2 & H2 & V2 & K2 & (t & Et) & Ln).
  { rewrite combine_fst by exact L. reflexivity. }
  { exact Td. }
  change (lastv (ux_xr p0) [r0]) with (lastv (if is_place (ux_xr r0) then ux_xr p0 else ux_xr r0) []) in E2. cbn [lastv app] in E2 |- *.
  rewrite E2. cbn [hbind fst snd].
  set (Q := r0 :: before_abort (combine pr st)) in *. change ([r0] ++ before_abort (combine pr st)) with Q in H2.
  assert (EQ : before_abort (combine (px u) (s0 :: st)) = Q) by (rewrite Ep; destruct s0; try reflexivity; discriminate Ab).
  assert (Vc : forall f, cv f (ur o2) = cv f (ur o)) by (intros f; now rewrite V2, V1).
  assert (Cne : cx (ur o2) <> []) by exact (hs_cx _ _ (pv_hs _ _ _ _ _ _ _ H2)).
  assert (Nw : xv (newest (ur o2)) = hot_of c g hk (xv (ux_xr p0))).
  { rewrite <- cv_all by exact Cne. rewrite Vc, cv_all by exact (hs_cx _ _ (rc_hs _ _ _ _ _ R)). exact (rc_newest _ _ _ _ _ _ R). }
  assert (Hs2 : forall f, in_order f (row_ids u) -> f x = true -> cv f (ur o2) = xv (newest (ur o2))).
  { intros f O Hf. rewrite Vc, (HcxR f O), (Sees f O Hf). now rewrite Nw. }
  assert (SS : forall f, in_order f (row_ids u) -> iter f (settled u (s0 :: st)) = if f x then xv (lastv (ux_xr p0) Q) else xvo (accepted_committed f (cx u))).
  { intros f O. unfold settled. rewrite EQ. rewrite iter_strip.
    - unfold Q at 1. fold x. unfold newest; cbn [cx]; rewrite Ec. reflexivity.
    - rewrite Ec; discriminate.
    - unfold Q. fold x. intros Hf. rewrite (Sees f O Hf). unfold newest; cbn [cx]; rewrite Ec. reflexivity. }
  assert (IT : forall f, in_order f (row_ids u) -> iter f (ur o2) = hot_of c g hk (iter f (settled u (s0 :: st)))).
  { intros f O. rewrite (SS f O). pose proof (pv_hs _ _ _ _ _ _ _ H2) as G. rewrite Et in G. cbn [app] in G. rewrite (iter_hs x t (ur o2) f G (Hs2 f O)).
    destruct (f x).
    - change (x :: t) with ([x] ++ t). rewrite <- Et, (pv_lv _ _ _ _ _ _ _ H2) by lia. now rewrite slev_top.
    - rewrite Vc. apply HcxR, O. }
  assert (SC : forall fp, iterc fp (settled u (s0 :: st)) = if fp x then xv (lastv (ux_xr p0) Q) else xv (ux_xr p0)).
  { intros fp. unfold settled. rewrite EQ, iterc_strip by (rewrite Ec; discriminate). unfold Q at 1. fold x. unfold newest; cbn [cx]; rewrite Ec. reflexivity. }
  assert (TC : forall fp, iterc fp (ur o2) = hot_of c g hk (iterc fp (settled u (s0 :: st)))).
  { intros fp. rewrite (SC fp). pose proof (pv_hs _ _ _ _ _ _ _ H2) as G. rewrite Et in G. cbn [app] in G. rewrite (iterc_hs x t (ur o2) fp G).
    destruct (fp x); [|exact Nw]. change (x :: t) with ([x] ++ t). rewrite <- Et, (pv_lv _ _ _ _ _ _ _ H2) by lia. now rewrite slev_top. }
  destruct (is_over s0) eqn:Ov.
  - assert (t = []).
    { rewrite Et in Ln. rewrite app_length in Ln. unfold more in Ln. destruct s0; try discriminate Ov; destruct t; [reflexivity|cbn in Ln; lia|reflexivity|cbn in Ln; lia]. }
    subst t. cbn [app] in Et. subst xs2.
    destruct (proj_commits c hk x ck2) as (n & En & _).
    destruct (commits n x o2 Nz (pv_hs _ _ _ _ _ _ _ H2)) as (o3 & E3 & G3 & _ & V3).
    eexists _, o3. split; [reflexivity|]. rewrite !proj_app, En. split; [rewrite <- app_assoc, (apply_all_app _ _ _ _ A1), (apply_all_app _ _ _ _ A2); exact E3|].
    split; [exact (hs_cx _ _ G3)|]. split; [intros f O; now rewrite V3, (IT f O)|].
    assert (Z : open_levels (s0 :: st) = O) by (destruct s0; try discriminate Ov; reflexivity). rewrite Z.
    split; [intros f k Hk; lia|]. split; [|intros f k Hk; lia].
    intros fp Hfp. specialize (Hfp s0 st r0 pr eq_refl Ep Ov). fold x in Hfp.
    rewrite (iterc_hs x [] (ur o3) fp G3). rewrite <- TC. rewrite (iterc_hs x [] (ur o2) fp (pv_hs _ _ _ _ _ _ _ H2)). rewrite Hfp.
    pose proof (V3 (fun _ => true)) as W. rewrite !iter_true in W by (first [exact (hs_cx _ _ G3)|exact Cne]).
    rewrite (iterc_hs x [] (ur o3) _ G3), (iterc_hs x [] (ur o2) _ (pv_hs _ _ _ _ _ _ _ H2)) in W. exact W.
  - rewrite (K2 eq_refl), (K1 eq_refl). cbn [map concat]. rewrite app_nil_r.
    eexists _, o2. split; [reflexivity|]. rewrite proj_app. split; [rewrite (apply_all_app _ _ _ _ A1); exact A2|].
    split; [exact Cne|]. split; [exact IT|].
    enough (Both : forall k, (k < open_levels (s0 :: st))%nat -> (forall f, in_order f (row_ids u) -> iter f (upto k (ur o2)) = hot_of c g hk (iter f (upto k u))) /\ (forall fp, iterc fp (upto k (ur o2)) = hot_of c g hk (iterc fp (upto k u)))).
    { split; [intros f k Hk O; exact (proj1 (Both k Hk) f O)|]. split; [intros fp _; apply TC|]. intros fp k Hk. exact (proj2 (Both k Hk) fp). }
    intros k Hk.
    assert (Lk : (k < length xs2)%nat /\ (k <= live_levels (map snd (combine (px u) (s0 :: st))))%nat).
    { rewrite Ln. unfold more. rewrite Ep. cbn [combine map snd length]. rewrite combine_snd by exact L. destruct s0; cbn [open_levels live_levels] in *; try discriminate Ov; try (cbn; lia). }
    destruct Lk as [Lk1 Lk2].
    pose proof (before_firstn _ _ Lk2) as Fk. rewrite EQ, combine_fst in Fk by (rewrite Ep; cbn; now rewrite L).
    assert (LV : xv (lastv (newest (ur o2)) (firstn k (px (ur o2)))) = hot_of c g hk (xv (lastv (ux_xr p0) (firstn k (px u))))).
    { pose proof (pv_lv _ _ _ _ _ _ _ H2 k ltac:(lia)) as W. unfold lv in W. rewrite W. f_equal. f_equal. unfold slev.
      apply Nat.ltb_lt in Lk1. rewrite Lk1, Fk. reflexivity. }
    split; cycle 1.
    { intros fp. unfold upto. rewrite iterc_strip by exact Cne. rewrite iterc_strip by (rewrite Ec; discriminate).
      change (newest (mkUle (cx (ur o2)) (firstn k (px (ur o2))) (ucap (ur o2)))) with (newest (ur o2)).
      change (newest (mkUle (cx u) (firstn k (px u)) (ucap u))) with (newest u). rewrite Eb.
      destruct (firstn k (px (ur o2))) as [|y yp] eqn:Ey.
      - cbn [lastv] in LV. destruct (firstn k (px u)) as [|z zp] eqn:Ez; [exact Nw|]. destruct (fp (ux_xid z)); [exact LV|exact Nw].
      - pose proof (pv_hs _ _ _ _ _ _ _ H2) as G. pose proof (hs_ids _ _ G) as Hi. rewrite Et in Hi. destruct (px (ur o2)) as [|z zp]; [now rewrite firstn_nil in Ey|].
        destruct k as [|k]; [discriminate Ey|]. rewrite Ep in LV |- *. cbn [firstn] in Ey, LV |- *. injection Ey as -> <-. cbn [map length firstn app] in Hi. injection Hi as -> _.
        fold x. destruct (fp x); [exact LV|exact Nw]. }
    intros f O. unfold upto. rewrite iter_strip; [|exact Cne|].
    2:{ destruct (firstn k (px (ur o2))) as [|y yp] eqn:Ey; [exact I|]. intros Hf. change (newest (mkUle (cx (ur o2)) (y :: yp) (ucap (ur o2)))) with (newest (ur o2)).
        apply (Hs2 f O). pose proof (pv_hs _ _ _ _ _ _ _ H2) as G. pose proof (hs_ids _ _ G) as Hi. rewrite Et in Hi. destruct (px (ur o2)) as [|z zp]; [now rewrite firstn_nil in Ey|].
        destruct k; [discriminate Ey|]. cbn [firstn] in Ey. injection Ey as -> _. cbn [map length firstn app] in Hi. injection Hi as Hi _. now rewrite <- Hi. }
    rewrite iter_strip; [|rewrite Ec; discriminate|].
    2:{ rewrite Ep. destruct k; [exact I|]. cbn [firstn]. fold x. intros Hf. rewrite (Sees f O Hf). unfold newest; cbn [cx]; rewrite Ec. reflexivity. }
    change (newest (mkUle (cx (ur o2)) (firstn k (px (ur o2))) (ucap (ur o2)))) with (newest (ur o2)).
    change (newest (mkUle (cx u) (firstn k (px u)) (ucap u))) with (newest u). rewrite Eb.
    assert (CV : xvo (accepted_committed f (cx (ur o2))) = hot_of c g hk (xvo (accepted_committed f (cx u)))) by (pose proof (Vc f) as W; unfold cv at 1 in W; rewrite W; exact (HcxR f O)).
    destruct (firstn k (px (ur o2))) as [|y yp] eqn:Ey.
    + rewrite CV. cbn [lastv] in LV. destruct (firstn k (px u)) as [|z zp] eqn:Ez; [reflexivity|].
      assert (ux_xid z = x) as -> by (rewrite Ep in Ez; destruct k; [discriminate Ez|]; cbn in Ez; now injection Ez as <- _).
      destruct (f x) eqn:Hf; [|reflexivity]. rewrite <- LV. rewrite (Sees f O Hf). symmetry. exact Nw.
    + pose proof (pv_hs _ _ _ _ _ _ _ H2) as G. pose proof (hs_ids _ _ G) as Hi. rewrite Et in Hi. destruct (px (ur o2)) as [|z zp]; [now rewrite firstn_nil in Ey|].
      destruct k as [|k]; [discriminate Ey|]. rewrite Ep in LV |- *. cbn [firstn] in Ey, LV |- *. injection Ey as -> <-. cbn [map length firstn app] in Hi. injection Hi as -> _.
      fold x. destruct (f x); [exact LV|exact CV].
Qed.
End All.
