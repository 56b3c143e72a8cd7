(** The invariant is kept by merges, writes, evictions, new roots and
    injections. *)
From Verif Require Import Base Bytes LtSpec KOrd LtTreeProofs FtModel FtSpec FtSeg FtRows FtInv FtPut FtOps.
From Coq Require Import Sorted.
Open Scope nat_scope.

Section O.
Context {E : env} {TM : timing E} (ok : cmp_ok (kcmp E)).
Local Notation c := (kcmp E).
Local Notation L := (L E).
Local Notation G := (G E).
Local Notation msg := (gmsg (A E)).
Local Notation rows := (rows E).
Local Notation ent := (ent E).
Local Notation slot := (slot E).
Local Notation leaf := (leaf E).
Local Notation tree := (tree E).
Implicit Types (pend : list ent) (t : tree).

(** ** Merge *)
Definition unseen lo hi pend (s : list slot) : Prop :=
  forall e, In e pend -> rel lo hi (e_msg e) -> maxes (fun m => (m < e_msn e)%N) s.

Lemma first_ext H top nm lo p hi pend x : hist_ok H top -> in_hist H pend -> blt c lo (Some p) -> blt c (Some p) hi ->
  slot_ok H top pend nm true (Some p) hi x ->
  (forall k, in_rng c lo (Some p) k -> key_ok H k (fun n => mem n pend) None) ->
  unseen lo hi pend [x] ->
  (forall e, In e pend -> rel lo hi (e_msg e) -> once (e_msg e) = true -> e_tag e = Fresh) ->
  slot_ok H top pend nm true lo hi x.
Proof.
  intros HO IH B1 B2 K NO US FR. destruct (slot_dirty_inv _ _ _ _ _ _ _ K) as (b & M & BO).
  eapply slot_dirty_mk'; [exact M|]. pose proof BO as ((S & RI & V) & T & F). split; [split; [exact S|split]|split; [exact T|]].
  - eapply Forall_impl; [|exact RI]. intros a. apply (sub_right ok); auto.
  - intros k Rk. destruct (in_rng_split ok _ _ _ _ B1 B2 Rk) as [R|R].
    + rewrite (rows_find_out ok (Some p) hi); [|exact RI|apply (disj_left ok lo p hi); exact R].
      eapply ko_ext; [apply NO; exact R|]. intros n m I C. unfold todo. split; [|tauto]. intros Mm. split; [|exact Mm]. destruct Mm as (e & Ie & <-).
      apply (US e Ie) with (x := x); [|cbn; auto|exact M]. rewrite <- (hist_unique _ _ _ _ _ HO I (IH _ Ie)). apply (concerns_rel ok k); auto.
    + apply V; auto.
  - intros Fl e Ie O R NF. exfalso. apply NF. apply FR; auto. right; exact R.
Qed.

Lemma seg_ext H top nm lo p hi pend s : hist_ok H top -> in_hist H pend -> blt c lo (Some p) ->
  seg_all c (slot_ok H top pend nm true) (Some p) hi s ->
  (forall k, in_rng c lo (Some p) k -> key_ok H k (fun n => mem n pend) None) ->
  unseen lo hi pend (seg_list s) ->
  (forall e, In e pend -> rel lo hi (e_msg e) -> once (e_msg e) = true -> e_tag e = Fresh) ->
  seg_all c (slot_ok H top pend nm true) lo hi s.
Proof.
  intros HO IH B1 K NO US FR. destruct s as [x|x q s]; cbn [seg_all] in *.
  - destruct K as (B2 & K). split; [eapply blt_trans; eauto|]. eapply first_ext; eauto.
  - destruct K as (B2 & K & K'). pose proof (seg_all_blt ok _ _ _ _ K') as B3. split; [eapply blt_trans; eauto|]. split; [|exact K'].
    assert (SB : sub c lo (Some q) lo hi) by (apply (sub_left ok); auto).
    eapply first_ext; eauto.
    + intros e Ie R y b [<-|[]] M. apply (US e Ie (rel_sub _ _ _ _ _ SB R) x b); cbn; auto.
    + intros e Ie R. apply FR; auto. eapply rel_sub; eauto.
Qed.

Lemma unseen_sub lo hi lo' hi' pend s s' : unseen lo hi pend s -> sub c lo' hi' lo hi -> (forall x, In x s' -> In x s) -> unseen lo' hi' pend s'.
Proof. intros K S I e Ie R x b Ix M. apply (K e Ie (rel_sub _ _ _ _ _ S R) x b); auto. Qed.

(** The last basement node of the left leaf, at its new end. *)
Lemma last_cut H top nm lo p hi pend z b : hist_ok H top -> in_hist H pend -> blt c lo (Some p) -> blt c (Some p) hi ->
  slot_ok H top pend nm true lo (Some p) z -> s_mem z = Some b -> unseen lo hi pend [z] -> b_rows b <> [] ->
  exists k, last_key (b_rows b) = Ok k /\ blt c lo (Some k) /\ blt c (Some k) hi /\ slot_ok H top pend nm true lo (Some k) z /\
    (blt c (Some k) (Some p) /\ (forall q, in_rng c (Some k) (Some p) q -> key_ok H q (fun n => mem n pend) None) \/ keq c k p).
Proof.
  intros HO IH B1 B2 K M US NE. destruct (slot_dirty_inv _ _ _ _ _ _ _ K) as (b' & M' & BO). rewrite M in M'. injection M' as <-.
  destruct (last_key_Some _ NE) as (k & v & LK & r' & ER). exists k. split; [exact LK|].
  pose proof BO as ((S & RI & V) & T & F). unfold rin in RI. rewrite Forall_forall in RI.
  assert (Ik : In (k, v) (b_rows b)) by (rewrite ER; apply in_or_app; cbn; auto).
  pose proof (RI _ Ik) as Rk. cbn in Rk. destruct Rk as (Rk1 & Rk2). cbn in Rk2.
  assert (B1k : blt c lo (Some k)) by (destruct lo; cbn; auto).
  assert (B2k : blt c (Some k) hi) by (destruct hi; cbn in *; auto; kord ok).
  assert (LE : forall x, In x (b_rows b) -> kle c (fst x) k).
  { intros x Ix. rewrite ER in Ix, S. apply in_app_or in Ix. destruct Ix as [Ix|[<-|[]]]; [|cbn; kord ok].
    apply rsorted_app in S; auto. destruct S as (_ & _ & S). specialize (S x (k, v) Ix (or_introl eq_refl)). cbn in S. kord ok. }
  assert (SB : sub c lo (Some k) lo (Some p)). { intros q [Q1 Q2]. split; [exact Q1|]. cbn in *. kord ok. }
  split; [exact B1k|]. split; [exact B2k|]. split.
  - eapply slot_dirty_mk'; [exact M|]. destruct b as [r mx fl]. cbn in *. eapply bn_sub; [exact BO|exact SB|exact S| |auto|auto].
    apply Forall_forall. intros x Ix. split; [apply (RI x Ix)|apply (LE x Ix)].
  - destruct (klt_or_kle ok k p) as [KL|KL]; [left|right; kord ok]. split; [exact KL|].
    eapply (view_empty ok H top lo (Some p) (Some k) (Some p) pend b BO); eauto.
    + apply (sub_right ok); auto.
    + intros q' [Q1 _]. apply (rows_find_lt ok). apply Forall_forall. intros x Ix. specialize (LE x Ix). cbn in Q1. kord ok.
    + intros e Ie Re. apply (US e Ie) with (x := z); cbn; auto. eapply rel_sub; [|exact Re]. apply (sub_left ok); auto.
Qed.

Lemma in_rng_keq_lo p q hi k : keq c p q -> in_rng c (Some p) hi k -> in_rng c (Some q) hi k.
Proof. intros K [R1 R2]. split; [cbn in *; kord ok|exact R2]. Qed.
Lemma slot_keq_lo H top pend nm p q hi x : keq c p q -> slot_ok H top pend nm true (Some p) hi x -> slot_ok H top pend nm true (Some q) hi x.
Proof.
  intros Q K. destruct (slot_dirty_inv _ _ _ _ _ _ _ K) as (b & M & BO). eapply slot_dirty_mk'; [exact M|]. destruct b as [r mx fl].
  eapply bn_sub; [exact BO| |apply BO| |auto|auto].
  - intros k. apply in_rng_keq_lo. apply (keq_sym ok). exact Q.
  - eapply Forall_impl; [|apply BO]. intros a. apply in_rng_keq_lo. exact Q.
Qed.
Lemma seg_keq_lo H top pend nm p q hi s : keq c p q -> seg_all c (slot_ok H top pend nm true) (Some p) hi s -> seg_all c (slot_ok H top pend nm true) (Some q) hi s.
Proof.
  intros Q. assert (BB : forall hi, blt c (Some p) hi -> blt c (Some q) hi) by (intros [h|]; cbn; auto; intros; kord ok).
  destruct s; cbn [seg_all].
  - intros (B & K). split; auto. eapply slot_keq_lo; eauto.
  - intros (B & K & K'). split; auto. split; auto. eapply slot_keq_lo; eauto.
Qed.

Lemma leaf_join_ok H top nm pend p hi s2 : hist_ok H top -> in_hist H pend ->
  seg_all c (slot_ok H top pend nm true) (Some p) hi s2 -> forall s1 lo,
  seg_all c (slot_ok H top pend nm true) lo (Some p) s1 ->
  unseen lo hi pend (seg_list s1 ++ seg_list s2) ->
  (forall e, In e pend -> rel lo hi (e_msg e) -> once (e_msg e) = true -> e_tag e = Fresh) ->
  exists s, leaf_join s1 s2 = Ok s /\ seg_all c (slot_ok H top pend nm true) lo hi s /\
    (forall x, In x (seg_list s) -> In x (seg_list s1) \/ In x (seg_list s2)).
Proof.
  intros HO IH K2. pose proof (seg_all_blt ok _ _ _ _ K2) as Bp.
  (* the end of [s1] *)
  assert (BASE : forall z lo b, blt c lo (Some p) -> slot_ok H top pend nm true lo (Some p) z -> s_mem z = Some b ->
    unseen lo hi pend ([z] ++ seg_list s2) ->
    (forall e, In e pend -> rel lo hi (e_msg e) -> once (e_msg e) = true -> e_tag e = Fresh) ->
    match b_rows b with
    | [] => seg_all c (slot_ok H top pend nm true) lo hi s2
    | _ => exists k, last_key (b_rows b) = Ok k /\ seg_all c (slot_ok H top pend nm true) lo hi (Cons z k s2)
    end).
  { intros z lo b B1 Kz M US FR. destruct (b_rows b) as [|kv r] eqn:ER.
    - eapply seg_ext; eauto.
      + destruct (slot_dirty_inv _ _ _ _ _ _ _ Kz) as (b' & M' & BO). rewrite M in M'. injection M' as <-.
        eapply (view_empty ok H top lo (Some p) lo (Some p) pend b BO); eauto.
        * apply sub_refl.
        * intros k _. rewrite ER. reflexivity.
        * intros e Ie Re. apply (US e Ie) with (x := z); cbn; auto. eapply rel_sub; [|exact Re]. apply (sub_left ok); auto.
      + eapply unseen_sub; [exact US|apply sub_refl|]. intros x Ix. apply in_or_app; auto.
    - rewrite <- ER. destruct (last_cut H top nm lo p hi pend z b HO IH B1 Bp Kz M) as (k & LK & B1k & B2k & Kz' & TAIL).
      + eapply unseen_sub; [exact US|apply sub_refl|]. cbn. intuition.
      + rewrite ER. discriminate.
      + exists k. split; [exact LK|]. cbn [seg_all]. split; [exact B1k|]. split; [exact Kz'|]. destruct TAIL as [(BK & NO)|KQ].
        * assert (SB : sub c (Some k) hi lo hi) by (apply (sub_right ok); auto). eapply seg_ext; eauto.
          -- eapply unseen_sub; [exact US|exact SB|]. intros x Ix. apply in_or_app; auto.
          -- intros e Ie Re. apply FR; auto. eapply rel_sub; eauto.
        * eapply seg_keq_lo; [apply (keq_sym ok); exact KQ|exact K2]. }
  induction s1 as [z|a q s1 IHs]; intros lo K1 US FR.
  - cbn [seg_all] in K1. destruct K1 as (B1 & Kz). destruct (slot_dirty_inv _ _ _ _ _ _ _ Kz) as (b & M & _).
    specialize (BASE z lo b B1 Kz M US FR). cbn. rewrite M. destruct (b_rows b) as [|kv r] eqn:ER.
    + exists s2. auto.
    + destruct BASE as (k & LK & K). rewrite LK. exists (Cons z k s2). split; [reflexivity|]. split; [exact K|]. cbn. intuition.
  - cbn [seg_all] in K1. destruct K1 as (B1 & Ka & K1). pose proof (seg_all_blt ok _ _ _ _ K1) as Bq.
    assert (SB : sub c (Some q) hi lo hi) by (apply (sub_right ok); auto).
    assert (US' : unseen (Some q) hi pend (seg_list s1 ++ seg_list s2)) by (eapply unseen_sub; [exact US|exact SB|cbn; auto]).
    assert (FR' : forall e, In e pend -> rel (Some q) hi (e_msg e) -> once (e_msg e) = true -> e_tag e = Fresh) by (intros e Ie Re; apply FR; auto; eapply rel_sub; eauto).
    specialize (IHs _ K1 US' FR'). destruct s1 as [z|a' q' s1].
    + cbn [seg_all] in K1. destruct K1 as (_ & Kz). destruct (slot_dirty_inv _ _ _ _ _ _ _ Kz) as (b & M & _).
      specialize (BASE z (Some q) b Bq Kz M US' FR'). cbn. rewrite M. destruct (b_rows b) as [|kv r] eqn:ER.
      * exists (Cons a q s2). cbn. split; [reflexivity|]. split; [auto|]. intuition.
      * destruct BASE as (k & LK & K). rewrite LK. exists (Cons a q (Cons z k s2)). split; [reflexivity|]. split; [cbn [seg_all] in *; auto|]. cbn. intuition.
    + destruct IHs as (s & LJ & Ks & IN).
      change (leaf_join (Cons a q (Cons a' q' s1)) s2) with (rdo s' <- leaf_join (Cons a' q' s1) s2; Ok (Cons a q s')). rewrite LJ.
      exists (Cons a q s). split; [reflexivity|]. split; [cbn [seg_all]; auto|]. intros x [<-|Ix]; [cbn; auto|]. destruct (IN x Ix); cbn in *; intuition.
Qed.

(** Flushing into a node that has been brought into memory. *)
Lemma flush_some_leaf H top lo hi pend mx g buf (l : leaf) : hist_ok H top -> buf_ok H lo hi mx buf ->
  leaf_ok H top lo hi (buf ++ pend) (buf ++ pend) l ->
  (forall e, In e pend -> rel lo hi (e_msg e) -> (mx < e_msn e)%N /\ seen_lt (e_msn e) (TLeaf l)) ->
  (forall e, In e buf -> fits g (e_msn e)) ->
  exists l', flush_some g buf (fetch_all (TLeaf l)) = Ok (TLeaf l') /\ leaf_ok H top lo hi pend pend l' /\
    (forall x, In x (seg_list (l_parts l')) -> in_mem x = true) /\
    (forall B, (mx < B)%N -> seen_lt B (TLeaf l) -> seen_lt B (TLeaf l')).
Proof.
  intros HO (KB1 & KB2) KW LT FT. pose proof (wf_fetch ok H top 0 lo hi _ (TLeaf l) KW) as KF. cbn [fetch_all wf] in KF. cbn [fetch_all].
  pose proof (fun B => fetch_seen B (TLeaf l)) as FS. cbn [fetch_all] in FS.
  set (l1 := Leaf (l_max l) (l_dirty l) (seg_map (slot_fetch (l_max l)) (l_parts l))) in *.
  assert (IM : forall x, In x (seg_list (l_parts l1)) -> in_mem x = true).
  { intros x. cbn. rewrite seg_list_map, in_map_iff. intros (y & <- & _). apply slot_fetch_mem. }
  unfold flush_some. destruct buf as [|e0 buf0] eqn:EB; cbn [is_nil].
  - exists l1. split; [reflexivity|]. split; [exact KF|]. split; [exact IM|]. intros B _ SB. apply FS; auto.
  - rewrite <- EB in *. clear EB e0 buf0. cbn [set_dirty].
    assert (D : leaf_ok H top lo hi (buf ++ pend) pend (Leaf (l_max l1) true (l_parts l1))).
    { eapply leaf_dirty; [exact KF|exact IM|]. apply ec_all. intros e Ie R. destruct (LT e Ie R) as (_ & Q). apply FS in Q. apply (seen_leaf (e_msn e) l1) in Q. apply Q. }
    destruct (put_all_leaf ok H top lo hi pend g HO buf _ D eq_refl KB1) as (l2 & R1 & R2 & R3 & R4).
    + intros e Ie. apply KB2; auto.
    + intros e e' Ie Ie' R. destruct (KB2 e Ie) as (_ & _ & Q). destruct (LT e' Ie' R). lia.
    + exact FT.
    + exists l2. split; [exact R1|]. split; [exact R2|]. split.
      * intros x Ix. destruct R2 as (_ & _ & S & _). rewrite R3 in S. eapply (dirty_all_mem ok); eauto.
      * intros B LB SB. apply R4; [|apply (FS B SB)]. intros e Ie. destruct (KB2 e Ie) as (_ & _ & Q). lia.
Qed.

Lemma flush_some_node H top h lo hi pend mx g buf mx1 ch1 : hist_ok H top -> buf_ok H lo hi mx buf ->
  wf H top (S h) lo hi (buf ++ pend) (TNode mx1 Free ch1) ->
  (forall e, In e pend -> rel lo hi (e_msg e) -> (mx < e_msn e)%N) ->
  exists mx2 ch2, flush_some g buf (fetch_all (TNode mx1 Free ch1)) = Ok (TNode mx2 Free ch2) /\ wf H top (S h) lo hi pend (TNode mx2 Free ch2) /\
    (forall B, (mx < B)%N -> mx_lt B (TNode mx1 Free ch1) -> mx_lt B (TNode mx2 Free ch2)) /\
    (forall B, seen_lt B (TNode mx1 Free ch1) -> seen_lt B (TNode mx2 Free ch2)).
Proof.
  intros HO (KB1 & KB2) KW LT. cbn [fetch_all]. unfold flush_some. destruct buf as [|e0 buf0] eqn:EB; cbn [is_nil].
  - exists mx1, ch1. auto.
  - rewrite <- EB in *. clear EB e0 buf0. cbn [set_dirty].
    destruct (put_all_node ok H top h lo hi pend g HO buf mx1 ch1 KW KB1) as (mx2 & ch2 & R1 & R2 & R3 & R4).
    + intros e Ie. apply KB2; auto.
    + intros e e' Ie Ie' R. destruct (KB2 e Ie) as (_ & _ & Q). specialize (LT e' Ie' R). lia.
    + exists mx2, ch2. split; [exact R1|]. split; [exact R2|]. split; [|exact R4]. intros B LB. apply R3. intros e Ie. destruct (KB2 e Ie) as (_ & _ & Q). lia.
Qed.

Lemma buf_ok_le H lo hi mx mx' buf : buf_ok (E:=E) H lo hi mx buf -> (mx <= mx')%N -> buf_ok H lo hi mx' buf.
Proof. intros (K1 & K2) LE. split; [exact K1|]. intros e Ie. destruct (K2 e Ie) as (Q1 & Q2 & Q3). split; [auto|]. split; [auto|lia]. Qed.

Lemma all_dirty H top lo hi pend ecp (l : leaf) nm : leaf_ok H top lo hi pend ecp l -> (forall x, In x (seg_list (l_parts l)) -> in_mem x = true) ->
  seg_all c (slot_ok H top pend nm true) lo hi (l_parts l).
Proof.
  intros (I & T & S & _) IM. apply (seg_all_with_In ok) in S. eapply (seg_all_impl ok); [exact S|]. cbn.
  intros lo' hi' x _ ((K & _) & Ix). specialize (IM x Ix). unfold in_mem in IM. split; [|discriminate]. destruct (s_mem x); [|discriminate]. destruct K; split; [auto|discriminate].
Qed.

Lemma merge_good g g' i w : goodc (fun _ _ t => buf_fits g i t /\ buf_fits g' (S i) t) (fun lo hi _ t => merge_children g g' i w lo hi t).
Proof.
  intros H top h lo hi pend [l|mx lk ch] HO B W (FTa & FTb); unfold merge_children; [exact Logic.I|]. destruct h as [|h]; [contradiction|].
  destruct (negb (free lk)) eqn:NF; [|exact Logic.I]. apply nfree_neq in NF.
  apply node_upd2; auto. intros lo' hi' a p b NTa NTb Sx Ba Bb ((KA1 & KA2) & KWa) ((KB1 & KB2) & KWb).
  pose proof (nth_error_In _ _ NTa) as Ia. pose proof (nth_error_In _ _ NTb) as Ib.
  assert (Sa : sub c lo' (Some p) lo' hi') by (apply (sub_left ok); auto).
  assert (Sb : sub c (Some p) hi' lo' hi') by (apply (sub_right ok); auto).
  destruct (node_child _ _ _ _ _ _ _ _ _ _ _ _ W Ia Sx) as (Na1 & Na2).
  destruct (node_child _ _ _ _ _ _ _ _ _ _ _ _ W Ib Sx) as (Nb1 & Nb2).
  assert (IP : in_hist H pend) by apply W. assert (TP : (mx <= top)%N) by apply W.
  destruct (free (lock_of (snd a)) && free (lock_of (snd b)) && (is_chain lk || negb (is_leaf (snd a)))) eqn:Q; [|exact Logic.I].
  apply andb_prop in Q. destruct Q as (Q & Q3). apply andb_prop in Q. destruct Q as (Q1 & Q2). apply free_eq in Q1, Q2.
  destruct (snd a) as [la|ma lka cha] eqn:EA.
  - destruct h; [|contradiction]. destruct (snd b) as [lb|] eqn:EB; [|contradiction]. cbn in Q3. rewrite orb_false_r in Q3.
    destruct lk; try discriminate. specialize (Na2 eq_refl). specialize (Nb2 eq_refl).
    destruct (flush_some_leaf H top lo' (Some p) pend mx g (fst a) la HO (conj KA1 KA2) KWa) as (la' & Fa & Wa & IMa & SNa).
    { intros e Ie R. pose proof (rel_sub _ _ _ _ _ Sa R) as R'. split; [apply Na1; auto|]. apply (Na2 e Ie R'). }
    { intros e Ie. eapply FTa; eauto. }
    destruct (flush_some_leaf H top (Some p) hi' pend mx g' (fst b) lb HO (conj KB1 KB2) KWb) as (lb' & Fb & Wb & IMb & SNb).
    { intros e Ie R. pose proof (rel_sub _ _ _ _ _ Sb R) as R'. split; [apply Nb1; auto|]. apply (Nb2 e Ie R'). }
    { intros e Ie. eapply FTb; eauto. }
    rewrite Fa, Fb. cbn [merge_nodes].
    assert (US : unseen lo' hi' pend (seg_list (l_parts la') ++ seg_list (l_parts lb'))).
    { intros e Ie R x b0 Ix M. destruct (Na1 e Ie R) as (LT & _). apply in_app_or in Ix. destruct Ix as [Ix|Ix].
      - destruct (Na2 e Ie R) as (_ & Z). apply (SNa _ LT) in Z. apply (seen_leaf (e_msn e) la') in Z. apply (proj2 Z x b0 Ix M).
      - destruct (Nb2 e Ie R) as (_ & Z). apply (SNb _ LT) in Z. apply (seen_leaf (e_msn e) lb') in Z. apply (proj2 Z x b0 Ix M). }
    assert (FR : forall e, In e pend -> rel lo' hi' (e_msg e) -> once (e_msg e) = true -> e_tag e = Fresh) by (intros e Ie R; apply (Na2 e Ie R)).
    assert (TA : (l_max la' <= top)%N) by apply Wa. assert (TB : (l_max lb' <= top)%N) by apply Wb.
    set (nm := N.max (l_max la') (l_max lb')).
    destruct (leaf_join_ok H top nm pend p hi' (l_parts lb') HO IP (all_dirty _ _ _ _ _ _ _ nm Wb IMb) (l_parts la') lo' (all_dirty _ _ _ _ _ _ _ nm Wa IMa) US FR) as (s & LJ & Ks & IN).
    assert (USs : unseen lo' hi' pend (seg_list s)).
    { eapply unseen_sub; [exact US|apply sub_refl|]. intros x Ix. apply in_or_app. auto. }
    assert (SNs : forall B0, (mx < B0)%N -> seen_lt B0 (TLeaf la) -> seen_lt B0 (TLeaf lb) -> (nm < B0)%N /\ maxes (fun m => (m < B0)%N) (seg_list s)).
    { intros B0 LB SA SB. apply (SNa _ LB) in SA. apply (SNb _ LB) in SB. apply (seen_leaf B0 la') in SA. apply (seen_leaf B0 lb') in SB.
      destruct SA as (SA1 & SA2), SB as (SB1 & SB2). split; [unfold nm; lia|]. intros x b0 Ix M. destruct (IN x Ix) as [J|J]; [exact (SA2 x b0 J M)|exact (SB2 x b0 J M)]. }
    destruct w as [| |si sj]; cbn [outc].
    + cbn [seg_all seg_list]. split.
      * split; [exact Ba|]. split; [split; [apply buf_nil|exact Wa]|]. split; [exact Bb|]. split; [apply buf_nil|exact Wb].
      * intros y [<-|[<-|[]]] B0 LB _ _; (split; [exact Logic.I|]); intros SA SB; [apply SNa|apply SNb]; auto.
    + rewrite LJ. cbn [outc seg_all seg_list]. split.
      * split; [eapply blt_trans; eauto|]. split; [apply buf_nil|]. cbn [fst snd app wf]. split; [exact IP|]. split; [cbn; lia|].
        split; [exact Ks|]. intros _. apply ec_all. exact USs.
      * intros y [<-|[]] B0 LB _ _. split; [exact Logic.I|]. intros SA SB. apply seen_leaf. apply SNs; auto.
    + destruct (1 <? length (all_rows (l_parts la') ++ all_rows (l_parts lb'))); [|exact Logic.I]. rewrite LJ.
      pose proof (leaf_split_ok ok H top pend nm (SEvenly si sj) s lo' hi' HO IP Ks (ec_all _ _ _ _ USs)) as LS.
      assert (LS' := LS ltac:(discriminate)). clear LS. destruct (leaf_split (SEvenly si sj) s) as [[[s1 k] s2]| |]; cbn [outc] in *; auto.
      destruct LS' as (B1 & B2 & K1 & K2 & E1 & E2 & MB). cbn [seg_all seg_list]. split.
      * split; [exact B1|]. split; [split; [apply buf_nil|]|split; [exact B2|split; [apply buf_nil|]]].
        -- cbn [fst snd app wf]. split; [exact IP|]. split; [cbn; lia|]. split; [exact K1|]. intros _. exact E1.
        -- cbn [fst snd app wf]. split; [exact IP|]. split; [cbn; lia|]. split; [exact K2|]. intros _. exact E2.
      * intros y [<-|[<-|[]]] B0 LB _ _; (split; [exact Logic.I|]); intros SA SB; destruct (SNs B0 LB SA SB) as (Z1 & Z2); apply seen_leaf; (split; [exact Z1|]);
        apply MB; auto; lia.
  - destruct h; [contradiction|]. destruct (snd b) as [|mb lkb chb] eqn:EB; [contradiction|]. cbn in Q1, Q2. subst lka lkb.
    destruct (flush_some_node H top h lo' (Some p) pend mx g (fst a) ma cha HO (conj KA1 KA2) KWa) as (ma' & cha' & Fa & Wa & MXa & SNa).
    { intros e Ie R. pose proof (rel_sub _ _ _ _ _ Sa R) as R'. apply Na1; auto. }
    destruct (flush_some_node H top h (Some p) hi' pend mx g' (fst b) mb chb HO (conj KB1 KB2) KWb) as (mb' & chb' & Fb & Wb & MXb & SNb).
    { intros e Ie R. pose proof (rel_sub _ _ _ _ _ Sb R) as R'. apply Nb1; auto. }
    rewrite Fa, Fb. cbn [merge_nodes outc seg_all seg_list].
    assert (MX : forall B0, (mx < B0)%N -> mx_lt B0 (TNode ma Free cha) -> mx_lt B0 (TNode mb Free chb) -> mx_lt B0 (TNode (N.max ma' mb') lk (seg_app cha' p chb'))).
    { intros B0 LB MA MB. apply (MXa _ LB) in MA. apply (MXb _ LB) in MB. rewrite mx_lt_node in *. destruct MA as (MA1 & MA2), MB as (MB1 & MB2).
      split; [lia|]. intros x. rewrite seg_list_app, in_app_iff. intros [|]; auto. }
    assert (SN : forall B0, seen_lt B0 (TNode ma Free cha) -> seen_lt B0 (TNode mb Free chb) -> seen_lt B0 (TNode (N.max ma' mb') lk (seg_app cha' p chb'))).
    { intros B0 MA MB. apply SNa in MA. apply SNb in MB. rewrite seen_lt_node in *. intros x. rewrite seg_list_app, in_app_iff. intros [|]; auto. }
    split.
    + split; [eapply blt_trans; eauto|]. split; [apply buf_nil|]. cbn [fst snd app].
      destruct Wa as (Ta & _ & _ & _ & Sa'). destruct Wb as (Tb & _ & _ & _ & Sb'). cbn [wf]. split; [lia|]. split; [exact IP|]. split; [|split].
      * intros e Ie R. destruct (Na1 e Ie R) as (LT & MA). destruct (Nb1 e Ie R) as (_ & MB). apply MX; auto.
      * intros -> e Ie R. destruct (Na2 eq_refl e Ie R) as (FR & SA). destruct (Nb2 eq_refl e Ie R) as (_ & SB). split; [exact FR|]. apply SN; auto.
      * apply seg_app_all.
        -- eapply (seg_all_impl ok); [exact Sa'|]. cbn. intros lo2 hi2 x _ (K1 & K2). split; [|exact K2]. eapply buf_ok_le; [exact K1|lia].
        -- eapply (seg_all_impl ok); [exact Sb'|]. cbn. intros lo2 hi2 x _ (K1 & K2). split; [|exact K2]. eapply buf_ok_le; [exact K1|lia].
    + intros y [<-|[]] B0 LB MA MB. cbn [snd]. split; auto.
Qed.
End O.
