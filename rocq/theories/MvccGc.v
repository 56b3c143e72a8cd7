(** Garbage collection of the committed stack changes no read by a transaction
    that exists now or may begin later. *)
From Coq Require Import Sorted.
From Verif Require Import Base UleModel UleSpec LeCodecProofs UleWf MgrModel MgrSpec MgrProofs.
Open Scope N_scope.

(** Whether snapshot [s] of root transaction [r] accepts [x]. *)
Definition snap_sees (s : snap) (r x : txnid) : bool :=
  (x =? r) || ((x <? s_id s) && negb (in_live_list (s_live s) x)).

(** The readers to be served at history [h]: those accepting every finished
    transaction (snapshots yet to be taken among them), and the snapshots held. *)
Definition serves (h : list event) (f : txnid -> bool) : Prop :=
  (forall x, begun h x -> finished h x -> f x = true)
  \/ exists s r, In s (snaps_of h) /\ r < s_id s /\ ~ finished h r
       /\ forall x, begun h x -> f x = snap_sees s r x.

(** [h] is an earlier history. *)
Definition before (h h' : list event) : Prop := exists d, h' = d ++ h.

Lemma before_refl h : before h h.
Proof. exists []. auto. Qed.
Lemma before_trans a b c : before a b -> before b c -> before a c.
Proof. intros (d & ->) (e & ->). exists (e ++ d). rewrite app_assoc. auto. Qed.
Lemma before_cons h e : before h (e :: h).
Proof. exists [e]. auto. Qed.
Lemma before_in h h' e : before h h' -> In e h -> In e h'.
Proof. intros (d & ->) H. apply in_or_app. auto. Qed.

Lemma snaps_of_app d h s : In s (snaps_of (d ++ h)) ->
  In s (snaps_of h) \/ exists d1 d2, d = d1 ++ ESnap (s_id s) :: d2 /\ s_live s = live_of (d2 ++ h).
Proof.
  induction d as [|e d IH]; cbn; auto. intros H.
  assert (Hgo : In s (snaps_of (d ++ h)) -> In s (snaps_of h) \/
     exists d1 d2, e :: d = d1 ++ ESnap (s_id s) :: d2 /\ s_live s = live_of (d2 ++ h)).
  { intros Hi. destruct (IH Hi) as [|(d1 & d2 & -> & E)]; auto. right. exists (e :: d1), d2. auto. }
  destruct e; auto.
  - apply in_app_iff in H. destruct H as [H|[<-|[]]]; auto. right. exists [], d. auto.
  - apply filter_In in H. destruct H; auto.
Qed.

(** Readers to be served later are to be served now. *)
Lemma serves_before m m' h h' f : cinv m h -> cinv m' h' -> before h h' -> serves h' f -> serves h f.
Proof.
  intros C C' B [H|(s & r & Hs & Hr & Hf & H)].
  - left. intros x Hx Hy. apply H; eapply before_in; eauto.
  - destruct B as (d & ->). destruct (snaps_of_app d h s Hs) as [Hi|(d1 & d2 & -> & El)].
    + right. exists s, r. repeat split; auto.
      * intros Hc. apply Hf. apply in_or_app. auto.
      * intros x Hx. apply H. apply in_or_app. auto.
    + left. intros x Hx Hy. rewrite H by (apply in_or_app; auto).
      unfold snap_sees. apply orb_true_iff. right. apply andb_true_iff. split.
      * rewrite <- app_assoc in C'. cbn in C'. pose proof (c_ids _ _ C') as Hids.
        apply N.ltb_lt. apply (proj2 (ids_split _ _ _ Hids x false)). apply in_or_app. auto.
      * apply negb_true_iff, in_live_list_false. rewrite El. intros Hl.
        destruct (c_split _ _ C' s Hs) as (h1 & h2 & E & El2 & Hl2 & _).
        assert (Hl' : In x (s_live s)) by (rewrite El; auto).
        rewrite El2 in Hl'. apply Hl2 in Hl'. destruct Hl' as [_ Hnf]. apply Hnf.
        (* the split at the snapshot is unique *)
        assert (E2 : h2 = d2 ++ h).
        { clear - E C'. rewrite <- app_assoc in E, C'. cbn in E, C'.
          pose proof (c_ids _ _ C') as Hi. clear C'. revert h1 E.
          induction d1 as [|e d1 IH]; intros [|e1 h1] E; cbn in *.
          - congruence.
          - injection E as <- E. exfalso. inversion Hi; subst. rewrite Forall_forall in H2.
            assert (Hin : In (s_id s) (ids_of (d2 ++ h))).
            { rewrite E. clear. induction h1 as [|e h1 IH]; cbn; auto. destruct e; cbn; auto. }
            apply H2 in Hin. lia.
          - injection E as -> E. exfalso. inversion Hi; subst. rewrite Forall_forall in H2.
            assert (Hin : In (s_id s) (ids_of (d1 ++ ESnap (s_id s) :: d2 ++ h))).
            { clear. induction d1 as [|e d1 IH]; cbn; auto. destruct e; cbn; auto. }
            apply H2 in Hin. lia.
          - injection E as -> E. eapply IH; [|exact E]. destruct e1; cbn in Hi; auto; inversion Hi; auto. }
        rewrite E2. apply in_or_app. auto.
Qed.

Lemma serves_all h : serves h (fun _ => true).
Proof. left. auto. Qed.

(** * The committed stack *)

Lemma acc_bottom f c r r' : ux_xr r = ux_xr r' ->
  accepted_committed f (c ++ [r]) = accepted_committed f (c ++ [r']).
Proof.
  intros E. induction c as [|a c IH]; cbn; [congruence|].
  destruct (c ++ [r]) eqn:E1; [destruct c; discriminate|].
  destruct (c ++ [r']) eqn:E2; [destruct c; discriminate|]. rewrite IH. auto.
Qed.

Lemma acc_zero_bottom f c : accepted_committed f (zero_bottom c) = accepted_committed f c.
Proof.
  destruct c as [|a c] using rev_ind; [reflexivity|]. rewrite zero_bottom_snoc. apply acc_bottom. auto.
Qed.

Lemma acc_some f c : c <> [] -> exists v, accepted_committed f c = Some v.
Proof.
  induction c as [|a c IH]; [congruence|]. intros _. cbn. destruct c as [|b c]; [eauto|].
  destruct (f (ux_xid a)); eauto. apply IH. discriminate.
Qed.

Lemma acc_cons f r c : c <> [] ->
  accepted_committed f (r :: c) = if f (ux_xid r) then Some (ux_xr r) else accepted_committed f c.
Proof. destruct c; [congruence|reflexivity]. Qed.

Lemma acc_all c : accepted_committed (fun _ => true) c = match c with [] => None | r :: _ => Some (ux_xr r) end.
Proof. destruct c as [|a [|b c]]; reflexivity. Qed.

Lemma acc_in f c v : accepted_committed f c = Some v -> exists r, In r c /\ ux_xr r = v.
Proof.
  induction c as [|a c IH]; [discriminate|]. destruct c as [|b c].
  - cbn. intros [= <-]. exists a. auto.
  - rewrite acc_cons by discriminate. destruct (f (ux_xid a)).
    + intros [= <-]. exists a. split; [left|]; auto.
    + intros H. apply IH in H. destruct H as (r & Hr & E). exists r. split; [right|]; auto.
Qed.

(** What the stack of a row looks like to a state cloned at [h]: all but the
    bottom record belong to transactions that wrote; all but the top one are over. *)
Definition nonbottom (c : list uxr) : list txnid := map ux_xid (removelast c).

Definition gcok (h : list event) (c : list uxr) : Prop :=
  (forall x, In x (nonbottom c) -> begun h x /\ wrote h x)
  /\ (forall x, In x (tl (nonbottom c)) -> finished h x).

Definition finok (h : list event) (c : list uxr) : Prop :=
  forall x, In x (nonbottom c) -> begun h x /\ wrote h x /\ finished h x.

Lemma nonbottom_cons r c : c <> [] -> nonbottom (r :: c) = ux_xid r :: nonbottom c.
Proof. destruct c; [congruence|reflexivity]. Qed.

Lemma finok_gcok h c : finok h c -> gcok h c.
Proof.
  intros H. split; intros x Hx.
  - apply H in Hx. tauto.
  - assert (Hi : In x (nonbottom c)) by (destruct (nonbottom c); [destruct Hx|right; auto]). apply H in Hi. tauto.
Qed.

Lemma gcok_tail h r c : gcok h (r :: c) -> c <> [] -> finok h c.
Proof.
  intros [H1 H2] Hc x Hx. rewrite nonbottom_cons in * by auto. cbn in *.
  destruct (H1 x) as [? ?]; auto.
Qed.

Lemma finok_tail h r c : finok h (r :: c) -> c <> [] -> finok h c.
Proof. intros H Hc x Hx. apply H. rewrite nonbottom_cons by auto. right. auto. Qed.

(** The snapshot part of a reader that rejects a finished transaction. *)
Lemma reject_snap m h f x : cinv m h -> serves h f -> begun h x -> finished h x -> f x = false ->
  exists s r, In s (snaps_of h) /\ ~ finished h r /\ (forall y, begun h y -> f y = snap_sees s r y)
    /\ (s_id s < x \/ In x (s_live s)).
Proof.
  intros C [H|(s & r & Hs & Hr & Hf & H)] Hb Hx E.
  - rewrite H in E by auto. discriminate.
  - exists s, r. repeat split; auto. rewrite H in E by auto. unfold snap_sees in E.
    apply orb_false_iff in E. destruct E as [_ E]. apply andb_false_iff in E. destruct E as [E|E].
    + apply N.ltb_ge in E. left. destruct (N.eq_dec x (s_id s)) as [->|]; [|lia]. exfalso.
      destruct (c_split _ _ C s Hs) as (h1 & h2 & -> & _). pose proof (c_ids _ _ C) as Hi.
      destruct (ids_split _ _ _ Hi (s_id s) false) as [I1 I2]. unfold begun in Hb.
      apply in_app_iff in Hb. destruct Hb as [Hb|[Hb|Hb]]; [apply I1 in Hb; lia|discriminate|apply I2 in Hb; lia].
    + right. apply negb_false_iff, in_live_list_iff in E. auto.
Qed.

Lemma snap_pos m h s : cinv m h -> In s (snaps_of h) -> 0 < s_id s.
Proof. intros C H. eapply c_pos; eauto. eapply c_snap_id; eauto. Qed.

Lemma blocked_sorted m h x : cinv m h -> StronglySorted snap_lt (blocked_by h x).
Proof. intros C. apply sorted_filter. eapply c_snap_sorted; eauto. Qed.

Lemma youngest_ge m h x s : cinv m h -> In s (blocked_by h x) -> s_id s <= youngest (blocked_by h x).
Proof.
  intros C H. destruct (youngest_in (blocked_by h x)) as (n & Hn & -> & Hs).
  - intros E. rewrite E in H. destruct H.
  - apply Hs; auto. eapply blocked_sorted; eauto.
Qed.

Lemma youngest_none m h x : cinv m h -> youngest (blocked_by h x) = TXNID_NONE -> blocked_by h x = [].
Proof.
  intros C H. destruct (blocked_by h x) as [|b l] eqn:E; auto. exfalso.
  destruct (youngest_in (b :: l)) as (n & Hn & En & _); [discriminate|].
  rewrite H in En. rewrite <- E in Hn. apply blocked_in in Hn. destruct Hn as [Hn _].
  apply (snap_pos _ _ _ C) in Hn. unfold TXNID_NONE in En. lia.
Qed.

(** Being live when a younger snapshot was taken, having begun before an older
    one: live when the older one was taken. *)
Lemma live_between m h x s y : cinv m h -> In s (snaps_of h) -> In y (snaps_of h) ->
  s_id s <= s_id y -> x < s_id s -> In x (s_live y) -> In x (s_live s).
Proof.
  intros C Hs Hy Hle Hx Hin.
  destruct (c_split _ _ C s Hs) as (h1 & h2 & E & El & Hl & _).
  destruct (c_split _ _ C y Hy) as (g1 & g2 & E' & El' & Hl' & _).
  destruct (c_slive2 _ _ C y x Hy Hin) as [Hb _].
  rewrite El' in Hin. apply Hl' in Hin. destruct Hin as [Hb2 Hnf].
  rewrite El. apply Hl. split.
  - rewrite E in Hb. unfold begun in Hb. apply in_app_iff in Hb. pose proof (c_ids _ _ C) as Hi. rewrite E in Hi.
    destruct (ids_split _ _ _ Hi x false) as [I1 I2].
    destruct Hb as [Hb|[Hb|Hb]]; [apply I1 in Hb; lia|discriminate|auto].
  - intros Hf. apply Hnf.
    (* h2 is no longer than g2 *)
    assert (Hsuf : before h2 g2).
    { pose proof (c_ids _ _ C) as Hi. rewrite E in Hi. rewrite E in E'. clear - E' Hi Hle.
      revert g1 E'. induction h1 as [|e h1 IH]; intros [|e1 g1] E'; cbn in *.
      - injection E' as _ <-. apply before_refl.
      - injection E' as <- E'. exfalso. inversion Hi; subst. rewrite Forall_forall in H2.
        assert (Hin : In (s_id y) (ids_of (g1 ++ ESnap (s_id y) :: g2))).
        { clear. induction g1 as [|e g1 IH]; cbn; auto. destruct e; cbn; auto. }
        apply H2 in Hin. lia.
      - injection E' as -> E'. subst g2. exists (h1 ++ [ESnap (s_id s)]). rewrite <- app_assoc. reflexivity.
      - injection E' as -> E'. eapply IH; [|exact E']. destruct e1; cbn in Hi; auto; inversion Hi; auto. }
    eapply before_in; eauto.
Qed.

(** Records skipped while looking for what [tl1] reads are rejected by every
    snapshot not younger than [tl1]. *)
Lemma skipped_rejected m h f s r tl1 x : cinv m h -> In s (snaps_of h) -> ~ finished h r ->
  (forall y, begun h y -> f y = snap_sees s r y) -> s_id s <= tl1 ->
  begun h x -> wrote h x -> finished h x ->
  xid_reads_committed_xid tl1 x (map s_id (m_snaps m)) (m_ref m) = false -> f x = false.
Proof.
  intros C Hs Hr Hf Hle Hb Hw Hx H. rewrite Hf by auto. unfold snap_sees.
  assert (Hne : x <> r) by (intros ->; auto).
  apply orb_false_iff. split; [apply N.eqb_neq; auto|].
  unfold xid_reads_committed_xid in H. destruct (N.ltb_spec tl1 x) as [Hlt|Hge].
  - apply andb_false_iff. left. apply N.ltb_ge. lia.
  - rewrite (youngest_live_list_ok m h x C Hx Hw) in H.
    destruct (N.eqb_spec (youngest (blocked_by h x)) TXNID_NONE) as [|Hn]; [discriminate|].
    apply N.ltb_ge in H.
    destruct (blocked_by h x) as [|b l] eqn:Eb; [exfalso; apply Hn; reflexivity|]. rewrite <- Eb in *.
    destruct (youngest_in (blocked_by h x)) as (n & Hn1 & En & _); [rewrite Eb; discriminate|].
    apply blocked_in in Hn1. destruct Hn1 as [Hn1 Hn2]. rewrite En in *.
    destruct (N.ltb_spec x (s_id s)) as [Hxs|]; auto. cbn [andb].
    apply negb_false_iff, in_live_list_iff. eapply live_between with (y := n); eauto. lia.
Qed.

(** The snapshot found after a kept record [x] is not older than any snapshot
    that rejects [x]. *)
Lemma next_reader_young m h x s : cinv m h -> begun h x -> wrote h x -> finished h x ->
  In s (snaps_of h) -> (s_id s < x \/ In x (s_live s)) ->
  let tl := youngest_live_list_for x (map s_id (m_snaps m)) (m_ref m) in
  s_id s <= (if tl =? TXNID_NONE then find_older (map s_id (m_snaps m)) x else tl).
Proof.
  intros C Hb Hw Hf Hs Hrej. cbv zeta. rewrite (youngest_live_list_ok m h x C Hf Hw).
  rewrite (c_snaps _ _ C).
  destruct (N.eqb_spec (youngest (blocked_by h x)) TXNID_NONE) as [E|Hn].
  - apply (youngest_none _ _ _ C) in E.
    assert (Hlt : s_id s < x).
    { destruct Hrej as [|Hi]; auto. exfalso.
      assert (Hin : In s (blocked_by h x)) by (apply blocked_in; auto). rewrite E in Hin. destruct Hin. }
    destruct (find_older_spec (map s_id (snaps_of h)) x) as [[_ Hno]|(_ & _ & Hmax)].
    + apply snaps_ids_sorted. eapply c_snap_sorted; eauto.
    + specialize (Hno (s_id s) (in_map _ _ _ Hs) (snap_pos _ _ _ C Hs)). lia.
    + apply Hmax; auto. apply in_map. auto.
  - destruct Hrej as [Hlt|Hi].
    + destruct (youngest_in (blocked_by h x)) as (n & Hn1 & -> & _).
      { intros E. rewrite E in Hn. apply Hn. reflexivity. }
      apply blocked_in in Hn1. destruct Hn1 as [Hn1 Hn2]. apply (c_slive2 _ _ C n x Hn1) in Hn2. lia.
    + eapply youngest_ge; eauto. apply blocked_in. auto.
Qed.

Lemma gc_walk_ok m h : cinv m h -> forall c search, c <> [] ->
  match search with None => gcok h c | Some _ => finok h c end ->
  exists k, gc_walk (clone_for_gc m) search c = Some k /\ k <> []
    /\ (forall x, In x (nonbottom k) -> In x (nonbottom c))
    /\ (forall x, In x (tl (nonbottom k)) -> In x (tl (nonbottom c)))
    /\ (length k <= length c)%nat
    /\ forall f, serves h f ->
       match search with
       | None => True
       | Some tl1 => exists s r, In s (snaps_of h) /\ ~ finished h r
            /\ (forall y, begun h y -> f y = snap_sees s r y) /\ s_id s <= tl1
       end -> accepted_committed f k = accepted_committed f c.
Proof.
  intros C. induction c as [|a c IH]; intros search Hne Hok; [congruence|].
  cbn [gc_walk]. cbv zeta. cbn [clone_for_gc g_snapshots g_referenced g_live].
  set (nec := match search with None => true | Some tl1 => _ end).
  destruct c as [|b c].
  { exists [a]. assert (nec = true) as -> by (unfold nec; destruct search; reflexivity). cbn [is_nil].
    repeat split; auto; discriminate. }
  set (rest := b :: c) in *. assert (Hrest : rest <> []) by discriminate.
  change (is_nil rest) with false in *. cbn [orb] in nec.
  assert (Hfr : finok h rest).
  { destruct search; [eapply finok_tail; eauto|eapply gcok_tail; eauto]. }
  assert (Ha : begun h (ux_xid a) /\ wrote h (ux_xid a)).
  { destruct search.
    - assert (Hi : In (ux_xid a) (nonbottom (a :: rest))) by (rewrite nonbottom_cons by auto; left; auto).
      apply Hok in Hi. tauto.
    - apply Hok. rewrite nonbottom_cons by auto. left. auto. }
  assert (Htl : forall k, (forall x, In x (nonbottom k) -> In x (nonbottom rest)) -> k <> [] ->
    (forall x, In x (nonbottom (a :: k)) -> In x (nonbottom (a :: rest))) /\
    (forall x, In x (tl (nonbottom (a :: k))) -> In x (tl (nonbottom (a :: rest))))).
  { intros k Hk Hkn. rewrite !nonbottom_cons by auto. cbn. split; [intros x [|]; auto|auto]. }
  destruct nec eqn:En.
  - destruct (in_live_list (m_live m) (ux_xid a)) eqn:El.
    + destruct (IH None Hrest (finok_gcok _ _ Hfr)) as (k & Ek & Hk & Hk1 & Hk2 & Hkl & Hacc). rewrite Ek.
      exists (a :: k). destruct (Htl k Hk1 Hk) as [T1 T2].
      repeat split; auto; [discriminate|cbn [length]; lia|].
      intros f Hf _. rewrite !acc_cons by auto. rewrite Hacc by auto. auto.
    + assert (Hfin : finished h (ux_xid a)).
      { apply in_live_list_false in El. rewrite (c_live _ _ C) in El.
        destruct (finished_dec h (ux_xid a)) as [|Hnf]; auto. exfalso. apply El.
        apply (c_live_iff _ _ C). tauto. }
      destruct Ha as [Hb Hw].
      set (tl := youngest_live_list_for _ _ _).
      assert (Htlne : (tl =? ux_xid a) = false).
      { apply N.eqb_neq. intros E. unfold tl in E. rewrite (youngest_live_list_ok m h _ C Hfin Hw) in E.
        destruct (blocked_by h (ux_xid a)) as [|b0 l0] eqn:Eb.
        - cbn in E. apply begin_in_ids in Hb. apply (c_pos _ _ C) in Hb. unfold TXNID_NONE in E. lia.
        - rewrite <- Eb in E. destruct (youngest_in (blocked_by h (ux_xid a))) as (n & Hn1 & En1 & _);
            [rewrite Eb; discriminate|].
          apply blocked_in in Hn1. destruct Hn1 as [Hn1 Hn2]. apply (c_slive2 _ _ C n _ Hn1) in Hn2. lia. }
      rewrite Htlne. cbn [negb].
      set (tl1 := if tl =? TXNID_NONE then _ else tl).
      assert (Hrej : forall f, serves h f -> f (ux_xid a) = false ->
        exists s r, In s (snaps_of h) /\ ~ finished h r
            /\ (forall y, begun h y -> f y = snap_sees s r y) /\ s_id s <= tl1).
      { intros f Hf Hfa. destruct (reject_snap m h f _ C Hf Hb Hfin Hfa) as (s & r & Hs & Hr & Hfe & Hor).
        exists s, r. repeat split; auto. apply (next_reader_young m h (ux_xid a) s); auto. }
      destruct (N.eqb_spec tl1 TXNID_NONE) as [E0|Hn0].
      * exists [a]. split; [reflexivity|]. split; [discriminate|]. split; [intros x []|].
        split; [intros x []|]. split; [cbn [length]; lia|].
        intros f Hf _. rewrite (acc_cons f a rest) by auto. destruct (f (ux_xid a)) eqn:Efa; auto. exfalso.
        destruct (Hrej f Hf Efa) as (s & r & Hs & _ & _ & Hle). apply (snap_pos _ _ _ C) in Hs.
        unfold TXNID_NONE in *. lia.
      * destruct (IH (Some tl1) Hrest Hfr) as (k & Ek & Hk & Hk1 & Hk2 & Hkl & Hacc). rewrite Ek.
        exists (a :: k). destruct (Htl k Hk1 Hk) as [T1 T2].
        repeat split; auto; [discriminate|cbn [length]; lia|].
        intros f Hf _. rewrite !acc_cons by auto. destruct (f (ux_xid a)) eqn:Efa; auto.
  - destruct search as [tl1|]; [|discriminate].
    destruct (IH (Some tl1) Hrest Hfr) as (k & Ek & Hk & Hk1 & Hk2 & Hkl & Hacc). rewrite Ek.
    exists k. repeat split; auto.
    + intros x Hx. rewrite nonbottom_cons by auto. right. auto.
    + intros x Hx. rewrite nonbottom_cons by auto. cbn. apply Hk1. destruct (nonbottom k); [destruct Hx|right; auto].
    + cbn [length]. lia.
    + intros f Hf Hs. rewrite Hacc by auto. rewrite (acc_cons f a rest) by auto.
      destruct Hs as (s & r & Hs & Hr & Hfe & Hle).
      assert (Hfin : finished h (ux_xid a)).
      { apply Hok. rewrite nonbottom_cons by auto. left. auto. }
      rewrite (skipped_rejected m h f s r tl1 (ux_xid a)); auto; tauto.
Qed.

Lemma nonbottom_zero c : nonbottom (zero_bottom c) = nonbottom c.
Proof.
  destruct c as [|a c] using rev_ind; [reflexivity|]. rewrite zero_bottom_snoc. unfold nonbottom.
  rewrite !removelast_last. auto.
Qed.

Lemma zero_bottom_len c : length (zero_bottom c) = length c.
Proof.
  destruct c as [|a c] using rev_ind; [reflexivity|]. rewrite zero_bottom_snoc, !app_length. auto.
Qed.

Lemma ule_gc_ok m h u : cinv m h -> cx u <> [] -> gcok h (cx u) ->
  exists u', ule_garbage_collect u (clone_for_gc m) = Some u' /\ px u' = px u /\ ucap u' = ucap u
    /\ cx u' <> []
    /\ (forall x, In x (nonbottom (cx u')) -> In x (nonbottom (cx u)))
    /\ (forall x, In x (tl (nonbottom (cx u'))) -> In x (tl (nonbottom (cx u))))
    /\ (length (cx u') <= length (cx u))%nat
    /\ forall f, serves h f -> accepted_committed f (cx u') = accepted_committed f (cx u).
Proof.
  intros C Hne Hok. unfold ule_garbage_collect. destruct (cx u) as [|a [|b c]] eqn:Ec; [congruence| |].
  - exists u. rewrite Ec. repeat split; auto.
  - rewrite <- Ec in *. destruct (gc_walk_ok m h C (cx u) None Hne Hok) as (k & Ek & Hk & H1 & H2 & Hl & H3).
    rewrite Ek. destruct (is_nil k) eqn:En; [destruct k; [congruence|discriminate]|]. cbn [negb].
    eexists; split; [reflexivity|]. cbn [cx px ucap]. rewrite nonbottom_zero, zero_bottom_len.
    repeat split; auto.
    + intros E. apply (f_equal (@length _)) in E. rewrite zero_bottom_len in E. destruct k; [congruence|discriminate].
    + intros f Hf. rewrite acc_zero_bottom. auto.
Qed.

(** * Simple garbage collection *)

Lemma older_accepted m h mn hn f x : cinv m h -> cinv mn hn -> before h hn -> serves hn f ->
  begun hn x -> wrote h x -> x < m_oldest m -> f x = true.
Proof.
  intros C Cn B Hf Hbn Hw Hx. pose proof (c_wrote _ _ C _ Hw) as Hb.
  destruct (c_oldest _ _ C x Hb Hx) as [Hfin Hs]. specialize (Hs Hw).
  pose proof (serves_before _ _ _ _ _ C Cn B Hf) as [H|(s & r & Hin & _ & _ & H)].
  - auto.
  - rewrite H by auto. destruct (Hs s Hin) as [Hlt Hni]. unfold snap_sees.
    apply orb_true_iff. right. apply andb_true_iff. split; [apply N.ltb_lt; auto|].
    apply negb_true_iff, in_live_list_false. auto.
Qed.

Lemma keep_ok (ok : txnid -> Prop) o c : c <> [] ->
  (forall x, In x (nonbottom c) -> x < o -> ok x) ->
  let k := keep_until_older o c in
  k <> [] /\ (forall x, In x (nonbottom k) -> In x (nonbottom c))
  /\ (forall x, In x (tl (nonbottom k)) -> In x (tl (nonbottom c)))
  /\ (length k <= length c)%nat
  /\ forall f, (forall x, ok x -> f x = true) -> accepted_committed f k = accepted_committed f c.
Proof.
  cbv zeta. induction c as [|a c IH]; [congruence|]. intros _ Hok. cbn [keep_until_older].
  destruct c as [|b c].
  - cbn. destruct (ux_xid a <? o); repeat split; auto; discriminate.
  - set (rest := b :: c) in *. assert (Hr : rest <> []) by discriminate.
    rewrite (nonbottom_cons a rest Hr) in *.
    destruct (N.ltb_spec (ux_xid a) o) as [Hlt|Hge].
    + repeat split; cbn [length]; try discriminate; try (cbn; tauto); [unfold rest; cbn; lia|].
      intros f Hf. rewrite (acc_cons f a rest) by auto. rewrite Hf; [reflexivity|]. apply Hok; auto. left; auto.
    + destruct IH as (Hk & H1 & H2 & Hl & H3); auto. { intros x Hx. apply Hok. right. auto. }
      rewrite nonbottom_cons by auto. repeat split; cbn [tl length]; try lia; try discriminate.
      * intros x [|]; [left|right]; auto.
      * auto.
      * intros f Hf. rewrite !acc_cons by auto. rewrite H3 by auto. auto.
Qed.

Lemma simple_gc_ok (ok : txnid -> Prop) u o : cx u <> [] ->
  (forall x, In x (nonbottom (cx u)) -> x < o -> ok x) ->
  let u' := ule_simple_gc u true o in
  px u' = px u /\ ucap u' = ucap u /\ cx u' <> []
  /\ (forall x, In x (nonbottom (cx u')) -> In x (nonbottom (cx u)))
  /\ (forall x, In x (tl (nonbottom (cx u'))) -> In x (tl (nonbottom (cx u))))
  /\ (length (cx u') <= length (cx u))%nat
  /\ forall f, (forall x, ok x -> f x = true) -> accepted_committed f (cx u') = accepted_committed f (cx u).
Proof.
  intros Hne Hok. cbv zeta. unfold ule_simple_gc. destruct (cx u) as [|a [|b c]] eqn:Ec; [congruence| |].
  - rewrite Ec. repeat split; auto; discriminate.
  - rewrite <- Ec in *. destruct (keep_ok ok o (cx u) Hne Hok) as (Hk & H1 & H2 & Hl & H3).
    destruct (_ =? _)%nat.
    + repeat split; auto.
    + cbn [cx px ucap]. rewrite nonbottom_zero, zero_bottom_len. repeat split; auto.
      * intros E. apply (f_equal (@length _)) in E. rewrite zero_bottom_len in E.
        destruct (keep_until_older o (cx u)); [congruence|discriminate].
      * intros f Hf. rewrite acc_zero_bottom. auto.
Qed.
