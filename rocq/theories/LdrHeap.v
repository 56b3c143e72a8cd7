(** The heap of the loader. *)
From Verif Require Import Base Bytes LtSpec KOrd LdrModel LdrSpec LdrSort.
Open Scope nat_scope.
Ltac Zify.zify_post_hook ::= Z.to_euclidean_division_equations.

Lemma dset_length d : forall i x, length (dset d i x) = length d.
Proof. induction d; intros [|i] x; cbn; auto. Qed.
Lemma dget_dset d : forall i j x, i < length d -> dget (dset d i x) j = if j =? i then x else dget d j.
Proof.
  unfold dget. induction d as [|a d IH]; intros [|i] [|j] x L; cbn in *; try lia; auto. rewrite IH by lia. reflexivity.
Qed.
Lemma dget_same d i x : i < length d -> dget (dset d i x) i = x.
Proof. intros. rewrite dget_dset, Nat.eqb_refl by assumption. reflexivity. Qed.
Lemma dget_other d i j x : i < length d -> j <> i -> dget (dset d i x) j = dget d j.
Proof. intros. rewrite dget_dset by assumption. destruct (Nat.eqb_spec j i); [contradiction|reflexivity]. Qed.
Lemma dset_perm d : forall i x, i < length d -> Permutation (dget d i :: dset d i x) (x :: d).
Proof.
  unfold dget. induction d as [|a d IH]; intros [|i] x L; cbn in *; try lia; [apply perm_swap|].
  eapply Permutation_trans; [apply perm_swap|]. eapply Permutation_trans; [apply perm_skip, IH; lia|]. apply perm_swap.
Qed.
Lemma move_perm d i p mv : i < length d -> p < length d -> i <> p -> Permutation (dset (dset d i (dget d p)) p mv) (dset d i mv).
Proof.
  intros I P N. set (y := dget d p). set (e := dset d i y).
  assert (E1 : Permutation (y :: dset e p mv) (mv :: e)). { replace y with (dget e p) at 1 by (unfold e; rewrite dget_other by auto; reflexivity). apply dset_perm. unfold e. rewrite dset_length. exact P. }
  assert (E2 : Permutation (dget d i :: e) (y :: d)) by (apply dset_perm; exact I).
  assert (E3 : Permutation (dget d i :: dset d i mv) (mv :: d)) by (apply dset_perm; exact I).
  apply (Permutation_cons_inv (a := y)). apply (Permutation_cons_inv (a := dget d i)).
  eapply Permutation_trans; [apply perm_skip, E1|]. eapply Permutation_trans; [apply perm_swap|]. eapply Permutation_trans; [apply perm_skip, E2|].
  eapply Permutation_trans; [apply perm_swap|]. eapply Permutation_trans; [|apply perm_swap]. apply perm_skip. symmetry. exact E3.
Qed.

Section H.
Variable c : bytes -> bytes -> comparison.
Hypothesis ok : cmp_ok c.
Definition nlt (a b : node) : Prop := before c (fst a) (fst b).
Definition heap (d : list node) : Prop := forall j, 2 <= j < length d -> nlt (dget d (j / 2)) (dget d j).
Definition uniq (d : list node) : Prop := forall i j, 1 <= i < length d -> 1 <= j < length d -> i <> j -> other c (fst (dget d i)) (fst (dget d j)).
Lemma nlt_trans x y z : nlt x y -> nlt y z -> nlt x z.
Proof. apply (bef_trans c ok). Qed.
Lemma pcmp_lt a b e : pcmp c a b = (false, e) -> e = false /\ nlt a b.
Proof. unfold pcmp, nlt, before, klt, rcmp. destruct (c _ _); intros H; inversion H; auto. Qed.
Lemma pcmp_gt a b : pcmp c a b = (true, false) -> nlt b a.
Proof. unfold pcmp, nlt, before, rcmp. destruct (c _ _) eqn:E; intros H; inversion H. apply (gt_klt ok). exact E. Qed.
Lemma pcmp_eq a b g : pcmp c a b = (g, true) -> ~ other c (fst a) (fst b).
Proof. unfold pcmp, other, keq, rcmp. destruct (c _ _) eqn:E; intros H; inversion H. tauto. Qed.

Lemma uniq_move d i p mv : 1 <= i < length d -> 1 <= p < length d -> i <> p -> uniq (dset d i mv) -> uniq (dset (dset d i (dget d p)) p mv).
Proof.
  intros I P N U a b A B NE. rewrite !dset_length in A, B.
  assert (G : forall x, dget (dset (dset d i (dget d p)) p mv) x = dget (dset d i mv) (if x =? p then i else if x =? i then p else x)).
  { intros x. rewrite dget_dset by (rewrite dset_length; lia). destruct (Nat.eqb_spec x p) as [->|X]; [rewrite dget_same by lia; reflexivity|].
    rewrite dget_dset by lia. destruct (Nat.eqb_spec x i) as [->|Y]; [rewrite dget_other by lia; reflexivity|]. rewrite dget_other by lia. reflexivity. }
  rewrite !G. apply U; rewrite ?dset_length; destruct (Nat.eqb_spec a p), (Nat.eqb_spec b p), (Nat.eqb_spec a i), (Nat.eqb_spec b i); lia.
Qed.

Definition good (d A : list node) (dup : bool) (r : list node * bool) : Prop :=
  length (fst r) = length d /\ Permutation (fst r) A /\ dget (fst r) 0 = dget d 0 /\ (snd r = false -> heap (fst r)) /\ (uniq A -> snd r = dup) /\ (dup = true -> snd r = true).

Lemma bubble_ok fuel : forall d i mv dup, i <= fuel -> 1 <= i < length d ->
  (forall j, 2 <= j < length d -> j <> i -> nlt (dget (dset d i mv) (j / 2)) (dget (dset d i mv) j)) ->
  (forall j, 2 <= j < length d -> j / 2 = i -> 2 <= i -> nlt (dget (dset d i mv) (i / 2)) (dget (dset d i mv) j)) ->
  good d (dset d i mv) dup (bubble_up c fuel d i mv dup).
Proof.
  induction fuel as [|f IH]; intros d i mv dup F I E G; [lia|]. cbn [bubble_up].
  assert (Z : dget (dset d i mv) 0 = dget d 0) by (apply dget_other; lia).
  destruct (Nat.ltb_spec 1 i) as [I1|I1].
  2:{ unfold good. cbn. rewrite dset_length. repeat split; auto. intros _ j J. rewrite dset_length in J. apply E; [exact J|lia]. }
  set (p := i / 2) in *. assert (P1 : 1 <= p < i) by (unfold p; lia).
  assert (AP : dget (dset d i mv) p = dget d p) by (apply dget_other; lia). assert (AI : dget (dset d i mv) i = mv) by (apply dget_same; lia).
  destruct (pcmp c (dget d p) mv) as [g e] eqn:C. destruct g.
  - set (d1 := dset d i (dget d p)). assert (L1 : length d1 = length d) by apply dset_length.
    set (B := dset d1 p mv). assert (BP : dget B p = mv) by (apply dget_same; lia). assert (BI : dget B i = dget d p) by (unfold B; rewrite dget_other by lia; apply dget_same; lia).
    assert (BO : forall j, j <> i -> j <> p -> dget B j = dget (dset d i mv) j). { intros j J1 J2. unfold B, d1. rewrite !dget_other by (rewrite ?dset_length; lia). reflexivity. }
    destruct e.
    + (* a duplicate: the flag stays up *)
      assert (MONO : forall fuel d i mv, snd (bubble_up c fuel d i mv true) = true).
      { clear. induction fuel as [|f IH]; intros d i mv; cbn [bubble_up]; [reflexivity|]. destruct (1 <? i); [|reflexivity]. destruct (pcmp c _ mv) as [g e]. destruct g; [apply IH|reflexivity]. }
      assert (SH : forall fuel d i mv dup, 1 <= i < length d -> i <= fuel -> length (fst (bubble_up c fuel d i mv dup)) = length d /\ Permutation (fst (bubble_up c fuel d i mv dup)) (dset d i mv) /\ dget (fst (bubble_up c fuel d i mv dup)) 0 = dget d 0).
      { clear. induction fuel as [|f IH]; intros d i mv dup I F; [lia|]. cbn [bubble_up].
        assert (B : length (dset d i mv) = length d /\ Permutation (dset d i mv) (dset d i mv) /\ dget (dset d i mv) 0 = dget d 0). { split; [apply dset_length|]. split; [reflexivity|]. apply dget_other; lia. }
        destruct (Nat.ltb_spec 1 i); [|exact B]. destruct (pcmp c _ mv) as [g e]. destruct g; [|exact B].
        destruct (IH (dset d i (dget d (i / 2))) (i / 2) mv (dup || e)) as [X [Y W]]; [rewrite dset_length; lia|lia|]. rewrite dset_length in X. split; [exact X|].
        split; [eapply Permutation_trans; [exact Y|apply move_perm; lia]|]. rewrite W. apply dget_other; lia. }
      rewrite orb_true_r. destruct (SH f d1 p mv true ltac:(lia) ltac:(lia)) as [X [Y W]]. unfold good. rewrite MONO.
      split; [lia|]. split; [eapply Permutation_trans; [exact Y|apply move_perm; lia]|]. split; [rewrite W; apply dget_other; lia|].
      split; [discriminate|]. split; [|reflexivity]. intros U. exfalso. apply (pcmp_eq _ _ _ C). assert (V := U p i ltac:(rewrite dset_length; lia) ltac:(rewrite dset_length; lia) ltac:(lia)). rewrite AP, AI in V. exact V.
    + apply pcmp_gt in C.
      assert (R : good d1 B (dup || false) (bubble_up c f d1 p mv (dup || false))).
      { apply IH; [lia|lia|..]; rewrite L1.
        - intros j J N. destruct (Nat.eq_dec j i) as [->|N1].
          + change (i / 2) with p. fold B. rewrite BP, BI. exact C.
          + fold B. rewrite (BO j N1 N). destruct (Nat.eq_dec (j / 2) p) as [Q|Q]; [|destruct (Nat.eq_dec (j / 2) i) as [Q2|Q2]].
            * rewrite Q, BP. eapply nlt_trans; [exact C|]. rewrite <- AP, <- Q. apply E; auto.
            * rewrite Q2, BI, <- AP. apply G; auto.
            * rewrite BO by auto. apply E; auto.
        - intros j J Q P2. fold B. assert (PP : p / 2 <> i /\ p / 2 <> p) by (split; lia).
          rewrite (BO (p / 2)) by tauto. assert (EP : nlt (dget (dset d i mv) (p / 2)) (dget (dset d i mv) p)) by (apply E; lia). destruct (Nat.eq_dec j i) as [->|N1].
          + rewrite BI, <- AP. exact EP.
          + rewrite BO by (auto; lia). eapply nlt_trans; [exact EP|]. rewrite <- Q. apply E; auto. }
      destruct R as [R1 [R2 [R3 [R4 [R5 R6]]]]]. unfold good. rewrite orb_false_r in *. split; [lia|]. split; [eapply Permutation_trans; [exact R2|apply move_perm; lia]|].
      split; [rewrite R3; apply dget_other; lia|]. split; [exact R4|]. split; [|exact R6]. intros U. apply R5. apply uniq_move; auto; lia.
  - apply pcmp_lt in C. destruct C as [-> C]. rewrite orb_false_r. unfold good. cbn. rewrite dset_length. repeat split; auto.
    intros _ j J. rewrite dset_length in J. destruct (Nat.eq_dec j i) as [->|N]; [|apply E; auto]. change (i / 2) with p. rewrite AP, AI. exact C.
Qed.

Lemma insert_ok d x : 1 <= length d -> heap d -> good (d ++ [x]) (d ++ [x]) false (pq_insert c d x).
Proof.
  intros L Hd. unfold pq_insert.
  assert (S : dset (d ++ [x]) (length d) x = d ++ [x]). { clear. induction d as [|a d IH]; cbn; [reflexivity|]. rewrite IH. reflexivity. }
  assert (LA : length (d ++ [x]) = length d + 1) by (rewrite app_length; reflexivity).
  rewrite <- S at 2. apply bubble_ok; [lia|lia|..]; rewrite S, LA.
  - intros j J N. unfold dget. rewrite !app_nth1 by lia. apply Hd. lia.
  - intros j J Q. lia.
Qed.

Lemma heap_min d j : heap d -> 2 <= j < length d -> nlt (dget d 1) (dget d j).
Proof.
  intros Hd. induction j as [j IH] using lt_wf_ind. intros J. assert (E := Hd j J). destruct (Nat.eq_dec (j / 2) 1) as [Q|Q]; [rewrite Q in E; exact E|].
  eapply nlt_trans; [apply (IH (j / 2)); lia|exact E].
Qed.

Lemma maxchild_spec d i ch e : 1 <= i < length d -> maxchild c d i = (ch, e) ->
  (ch = 0 /\ e = false /\ length d <= 2 * i) \/
  (2 * i <= ch <= 2 * i + 1 /\ ch < length d /\
   (e = false -> forall j, 2 <= j < length d -> j / 2 = i -> j <> ch -> nlt (dget d ch) (dget d j)) /\
   (e = true -> 2 * i + 1 < length d /\ ~ other c (fst (dget d (2 * i))) (fst (dget d (2 * i + 1))))).
Proof.
  intros I. unfold maxchild. destruct (Nat.leb_spec (length d) (2 * i)) as [L|L]; [intros H; inversion H; left; auto|].
  destruct (Nat.ltb_spec (2 * i + 1) (length d)) as [L2|L2].
  - destruct (pcmp c (dget d (2 * i)) (dget d (2 * i + 1))) as [g e0] eqn:C. intros H. inversion H; subst ch e0. right. destruct g.
    + split; [lia|]. split; [lia|]. split; [|intros ->; split; [lia|eapply pcmp_eq; exact C]]. intros -> j J Q N. apply pcmp_gt in C. replace j with (2 * i) by lia. exact C.
    + split; [lia|]. split; [lia|]. apply pcmp_lt in C. destruct C as [-> C]. split; [|discriminate]. intros _ j J Q N. replace j with (2 * i + 1) by lia. exact C.
  - intros H. inversion H; subst. right. split; [lia|]. split; [lia|]. split; [|discriminate]. intros _ j J Q N. lia.
Qed.

Lemma perc_shape fuel : forall d i mv dup, 1 <= i < length d -> length d < fuel + i ->
  length (fst (percolate c fuel d i mv dup)) = length d /\ Permutation (fst (percolate c fuel d i mv dup)) (dset d i mv) /\ dget (fst (percolate c fuel d i mv dup)) 0 = dget d 0 /\
  (dup = true -> snd (percolate c fuel d i mv dup) = true).
Proof.
  induction fuel as [|f IH]; intros d i mv dup I F; [lia|]. cbn [percolate].
  assert (B : forall x, length (fst (dset d i mv, dup || x)) = length d /\ Permutation (fst (dset d i mv, dup || x)) (dset d i mv) /\ dget (fst (dset d i mv, dup || x)) 0 = dget d 0 /\ (dup = true -> snd (dset d i mv, dup || x) = true)).
  { intros x. cbn. split; [apply dset_length|]. split; [reflexivity|]. split; [apply dget_other; lia|]. intros ->. reflexivity. }
  destruct (maxchild c d i) as [ch e1] eqn:M. apply maxchild_spec in M; [|exact I]. destruct (Nat.eqb_spec ch 0) as [Z|Z]; [apply B|].
  destruct M as [[M _]|[M1 [M2 _]]]; [lia|]. destruct (pcmp c mv (dget d ch)) as [g e2]. destruct g; [|rewrite <- orb_assoc; apply B].
  destruct (IH (dset d i (dget d ch)) ch mv (dup || e1 || e2)) as [X [Y [W V]]]; [rewrite dset_length; lia|rewrite dset_length; lia|]. rewrite dset_length in X. split; [exact X|].
  split; [eapply Permutation_trans; [exact Y|apply move_perm; lia]|]. split; [rewrite W; apply dget_other; lia|]. intros ->. apply V. reflexivity.
Qed.

Lemma perc_ok fuel : forall d i mv dup, 1 <= i < length d -> length d < fuel + i ->
  (forall j, 2 <= j < length d -> j / 2 <> i -> nlt (dget (dset d i mv) (j / 2)) (dget (dset d i mv) j)) ->
  (forall j, 2 <= j < length d -> j / 2 = i -> 2 <= i -> nlt (dget (dset d i mv) (i / 2)) (dget (dset d i mv) j)) ->
  good d (dset d i mv) dup (percolate c fuel d i mv dup).
Proof.
  induction fuel as [|f IH]; intros d i mv dup I F E G; [lia|].
  destruct (perc_shape (S f) d i mv dup I F) as [S1 [S2 [S3 S4]]]. unfold good. split; [exact S1|]. split; [exact S2|]. split; [exact S3|].
  cut ((snd (percolate c (S f) d i mv dup) = false -> heap (fst (percolate c (S f) d i mv dup))) /\ (uniq (dset d i mv) -> snd (percolate c (S f) d i mv dup) = dup)); [tauto|].
  clear S1 S2 S3. cbn [percolate] in *. assert (AI : dget (dset d i mv) i = mv) by (apply dget_same; lia).
  destruct (maxchild c d i) as [ch e1] eqn:M. apply maxchild_spec in M; [|exact I]. destruct (Nat.eqb_spec ch 0) as [Z|Z].
  { destruct M as [[_ [-> M]]|[M1 _]]; [|lia]. cbn. rewrite orb_false_r. split; [|auto]. intros _ j J. rewrite dset_length in J. apply E; [exact J|lia]. }
  destruct M as [[M _]|[M1 [M2 [M3 M4]]]]; [lia|].
  assert (AC : forall j, j <> i -> dget (dset d i mv) j = dget d j) by (intros; apply dget_other; lia).
  assert (ND : e1 = true -> ~ uniq (dset d i mv)). { intros X U. destruct (M4 X) as [Y W]. apply W. rewrite <- !AC by lia. apply U; rewrite ?dset_length; lia. }
  destruct (pcmp c mv (dget d ch)) as [g e2] eqn:C.
  assert (ND2 : e2 = true -> ~ uniq (dset d i mv)). { intros -> U. apply (pcmp_eq _ _ _ C). assert (V := U i ch ltac:(rewrite dset_length; lia) ltac:(rewrite dset_length; lia) ltac:(lia)). rewrite AI, AC in V by lia. exact V. }
  destruct g.
  - set (d1 := dset d i (dget d ch)) in *. assert (L1 : length d1 = length d) by apply dset_length.
    destruct e1; [|destruct e2].
    + destruct (perc_shape f d1 ch mv (dup || true || e2) ltac:(lia) ltac:(lia)) as [_ [_ [_ P]]]. rewrite orb_true_r in *. rewrite P by reflexivity. split; [discriminate|]. intros U. exfalso. apply (ND eq_refl U).
    + destruct (perc_shape f d1 ch mv (dup || false || true) ltac:(lia) ltac:(lia)) as [_ [_ [_ P]]]. rewrite !orb_true_r in *. rewrite P by reflexivity. split; [discriminate|]. intros U. exfalso. apply (ND2 eq_refl U).
    + apply pcmp_gt in C. rewrite !orb_false_r in *. specialize (M3 eq_refl).
      set (B := dset d1 ch mv). assert (BP : dget B ch = mv) by (apply dget_same; lia). assert (BI : dget B i = dget d ch) by (unfold B; rewrite dget_other by lia; apply dget_same; lia).
      assert (BO : forall j, j <> i -> j <> ch -> dget B j = dget d j). { intros j J1 J2. unfold B, d1. rewrite !dget_other by (rewrite ?dset_length; lia). reflexivity. }
      assert (R : good d1 B dup (percolate c f d1 ch mv dup)).
      { apply IH; [lia|lia|..]; rewrite L1; fold B.
        - intros j J N. destruct (Nat.eq_dec (j / 2) i) as [Q|Q].
          + rewrite Q, BI. destruct (Nat.eq_dec j ch) as [->|N1]; [rewrite BP; exact C|]. rewrite BO by lia. apply M3; auto.
          + destruct (Nat.eq_dec j i) as [->|N1].
            * rewrite BI, BO by lia. assert (X := G ch ltac:(lia) ltac:(lia) ltac:(lia)). rewrite !AC in X by lia. exact X.
            * rewrite !BO by lia. assert (X := E j J Q). rewrite !AC in X by lia. exact X.
        - intros j J Q P2. replace (ch / 2) with i by lia. rewrite BI, BO by lia. assert (X := E j J ltac:(lia)). rewrite Q, !AC in X by lia. exact X. }
      destruct R as [R1 [R2 [R3 [R4 [R5 R6]]]]]. split; [exact R4|]. intros U. apply R5. apply uniq_move; auto; lia.
  - apply pcmp_lt in C. destruct C as [-> C]. rewrite orb_false_r. cbn. split.
    + intros X j J. rewrite dset_length in J. apply orb_false_iff in X. destruct X as [_ ->]. destruct (Nat.eq_dec (j / 2) i) as [Q|Q]; [|apply E; auto].
      rewrite Q, AI, AC by lia. destruct (Nat.eq_dec j ch) as [->|N]; [exact C|]. eapply nlt_trans; [exact C|]. apply M3; auto.
    + intros U. destruct e1; [exfalso; apply (ND eq_refl U)|apply orb_false_r].
Qed.

Lemma removelast_get d j : j < length d - 1 -> dget (removelast d) j = dget d j.
Proof.
  intros L. destruct d as [|a d] using rev_ind; [reflexivity|]. rewrite removelast_last. rewrite app_length in L. cbn in L. unfold dget. rewrite app_nth1 by lia. reflexivity.
Qed.
Lemma removelast_len {A} (d : list A) : length (removelast d) = length d - 1.
Proof. destruct d as [|a d] using rev_ind; [reflexivity|]. rewrite removelast_last, app_length. cbn. lia. Qed.
Lemma removelast_perm d : 1 <= length d -> Permutation (dget d (length d - 1) :: removelast d) d.
Proof.
  destruct d as [|a d] using rev_ind; [cbn; lia|]. intros _. rewrite removelast_last, app_length. cbn [length]. replace (length d + 1 - 1) with (length d) by lia.
  unfold dget. rewrite app_nth2, Nat.sub_diag by lia. cbn. apply Permutation_cons_append.
Qed.

Lemma pop_ok d x d' dup : 2 <= length d -> heap d -> pq_pop c d = (x, (d', dup)) ->
  x = dget d 1 /\ Permutation (x :: d') d /\ dget d' 0 = dget d 0 /\ 1 <= length d' /\ (dup = false -> heap d') /\ (uniq d -> dup = false).
Proof.
  intros L Hd H. unfold pq_pop in H. set (lst := dget d (length d - 1)) in *. assert (RL := removelast_len d). inversion H as [[H1 H2]]. clear H.
  split; [reflexivity|]. destruct (Nat.eq_dec (length d) 2) as [L2|L2].
  - rewrite L2 in H2. destruct d as [|d0 [|n0 [|]]]; try discriminate. cbn in H2. inversion H2; subst. cbn. split; [apply perm_swap|]. split; [reflexivity|]. split; [lia|]. split; [|auto]. intros _ j J. cbn in J. lia.
  - set (e := dset (removelast d) 1 lst) in *. assert (LE : length e = length d - 1) by (unfold e; rewrite dset_length; exact RL).
    assert (ES : dset e 1 lst = e). { unfold e. generalize (removelast d). intros [|a0 [|a1 l]]; reflexivity. }
    assert (EG : forall j, 2 <= j < length e -> dget e j = dget d j). { intros j J. unfold e. rewrite dget_other by lia. apply removelast_get. lia. }
    assert (E1 : dget e 1 = lst) by (unfold e; apply dget_same; lia).
    assert (R : good e (dset e 1 lst) false (percolate c (length d) e 1 lst false)).
    { apply perc_ok; [lia|lia|..]; rewrite ES.
      - intros j J N. rewrite !EG by lia. apply Hd. lia.
      - intros j J Q. lia. }
    rewrite ES, H2 in R. destruct R as [R1 [R2 [R3 [R4 [R5 R6]]]]]. cbn [fst snd] in *.
    assert (PE : Permutation (dget d 1 :: e) d).
    { eapply Permutation_trans; [|apply removelast_perm; lia]. fold lst. rewrite <- (removelast_get d 1) by lia. apply dset_perm. lia. }
    split; [eapply Permutation_trans; [apply perm_skip, R2|exact PE]|]. split; [rewrite R3; unfold e; rewrite dget_other by lia; apply removelast_get; lia|]. split; [lia|]. split; [exact R4|].
    intros U. apply R5. intros a b A B N.
    assert (GE : forall j, 1 <= j < length e -> dget e j = dget d (if j =? 1 then length d - 1 else j)). { intros j J. destruct (Nat.eqb_spec j 1) as [->|]; [exact E1|apply EG; lia]. }
    rewrite !GE by assumption. apply U; destruct (Nat.eqb_spec a 1), (Nat.eqb_spec b 1); lia.
Qed.
End H.
