(** The merge sort of the loader. *)
From Verif Require Import Base Bytes LtSpec KOrd LdrModel LdrSpec.
Open Scope nat_scope.

Lemma fop_app {A} (R : A -> A -> Prop) a b : ForallOrdPairs R (a ++ b) <-> ForallOrdPairs R a /\ ForallOrdPairs R b /\ forall x y, In x a -> In y b -> R x y.
Proof.
  induction a as [|x a IH]; cbn.
  - split; [intros H; split; [constructor|split; [exact H|tauto]]|tauto].
  - split.
    + intros H. inversion H as [|? ? F G]; subst. apply IH in G. destruct G as [G1 [G2 G3]]. rewrite Forall_app in F. destruct F as [F1 F2].
      split; [constructor; assumption|]. split; [exact G2|]. intros u v [->|U] V; [rewrite Forall_forall in F2; auto|auto].
    + intros [H [G K]]. inversion H as [|? ? F G']; subst. constructor.
      * apply Forall_app. split; [exact F|]. apply Forall_forall. auto.
      * apply IH. auto.
Qed.
Lemma fop_perm {A} (R : A -> A -> Prop) a b : (forall x y, R x y -> R y x) -> Permutation a b -> ForallOrdPairs R a -> ForallOrdPairs R b.
Proof.
  intros S P. induction P; intros H; auto.
  - inversion H; subst. constructor; [|auto]. eapply Permutation_Forall; eauto.
  - inversion H as [|? ? F G]; subst. inversion G as [|? ? F' G']; subst. inversion F; subst. constructor; [constructor; auto|constructor; auto].
Qed.
Lemma fop_nth {A} (R : A -> A -> Prop) l i j x y : ForallOrdPairs R l -> i < j -> nth_error l i = Some x -> nth_error l j = Some y -> R x y.
Proof.
  intros H. revert i j. induction H as [|a l F G IH]; intros i j L E K; [destruct i; discriminate|].
  destruct j as [|j]; [lia|]. destruct i as [|i]; cbn in *.
  - inversion E; subst. apply nth_error_In in K. rewrite Forall_forall in F. auto.
  - eapply IH; [|exact E|exact K]. lia.
Qed.

Lemma skip_skip {A} n : forall k (l : list A), skipn k (skipn n l) = skipn (n + k) l.
Proof. induction n as [|n IH]; intros k [|x l]; cbn; auto. destruct k; reflexivity. Qed.

Section P.
Variable c : bytes -> bytes -> comparison.
Hypothesis ok : cmp_ok c.
Notation bef := (before c). Notation oth := (other c).

Lemma oth_sym x y : oth x y -> oth y x.
Proof. unfold other. intros H K. apply H. apply (keq_sym ok). exact K. Qed.
Lemma bef_oth x y : bef x y -> oth x y.
Proof. unfold before, other. intros H K. kord ok. Qed.
Lemma bef_trans x y z : bef x y -> bef y z -> bef x z.
Proof. unfold before. apply (klt_trans ok). Qed.
Lemma uniq_perm a b : Permutation a b -> unique_keys c a -> unique_keys c b.
Proof. apply fop_perm, oth_sym. Qed.
Lemma order_uniq l : in_order c l -> unique_keys c l.
Proof. induction 1 as [|a l F G IH]; constructor; [|exact IH]. eapply Forall_impl; [|exact F]. intros; apply bef_oth; auto. Qed.

Lemma merge_base_ok a : forall b, in_order c a -> in_order c b ->
  match merge_base c a b with
  | LOk r => in_order c r /\ Permutation (a ++ b) r
  | LDup => ~ unique_keys c (a ++ b)
  | _ => False
  end.
Proof.
  induction a as [|x a IH]; intros b; [destruct b; cbn; auto|].
  induction b as [|y b IHb]; intros A B.
  - cbn. rewrite app_nil_r. auto.
  - cbn [merge_base]. destruct (rcmp c x y) eqn:E.
    + intros U. unfold unique_keys in U. apply fop_app in U. destruct U as [_ [_ U]]. apply (U x y); [left; reflexivity|left; reflexivity|exact E].
    + inversion A as [|? ? FA GA]; subst. specialize (IH (y :: b) GA B). destruct (merge_base c a (y :: b)) as [r| | |]; cbn; try tauto.
      * destruct IH as [O P]. split; [|cbn; auto]. constructor; [|exact O]. apply (Permutation_Forall P). apply Forall_app. split; [exact FA|].
        inversion B as [|? ? FB GB]; subst. constructor; [exact E|]. eapply Forall_impl; [|exact FB]. intros z Z. eapply bef_trans; [exact E|exact Z].
      * intros U. apply IH. inversion U; auto.
    + inversion B as [|? ? FB GB]; subst. specialize (IHb A GB). change ((fix go (b0 : list row) : lres (list row) := _) b) with (merge_base c (x :: a) b).
      assert (YX : bef y x) by (apply (gt_klt ok); exact E).
      destruct (merge_base c (x :: a) b) as [r| | |]; cbn; try tauto.
      * destruct IHb as [O P]. split.
        -- constructor; [|exact O]. apply (Permutation_Forall P). apply Forall_app. split; [|exact FB]. inversion A as [|? ? FA GA]; subst. constructor; [exact YX|]. eapply Forall_impl; [|exact FA]. intros z Z. eapply bef_trans; [exact YX|exact Z].
        -- eapply Permutation_trans; [|apply perm_skip, P]. symmetry. apply (Permutation_middle (x :: a) b y).
      * intros U. apply IHb. apply (uniq_perm _ (y :: (x :: a) ++ b)) in U; [|symmetry; apply (Permutation_middle (x :: a) b y)]. inversion U; auto.
Qed.

Lemma order_firstn n l : in_order c l -> in_order c (firstn n l).
Proof. intros H. rewrite <- (firstn_skipn n l) in H. apply fop_app in H. tauto. Qed.
Lemma order_skipn n l : in_order c l -> in_order c (skipn n l).
Proof. intros H. rewrite <- (firstn_skipn n l) in H. apply fop_app in H. tauto. Qed.

Lemma nth_split_at (l : list row) n x0 : n < length l -> l = firstn n l ++ nth n l x0 :: skipn (S n) l.
Proof. intros H. rewrite <- (firstn_skipn n l) at 1. f_equal. revert n H. induction l as [|a l IH]; intros [|n] H; cbn in *; try lia; auto. apply IH. lia. Qed.

Lemma bsearch_ok fuel : forall key a n, length a < fuel -> in_order c a ->
  match bsearch c fuel key a n with
  | LOk p => exists k, p = n + k /\ k <= length a /\ (forall x, In x (firstn k a) -> klt c (fst x) key) /\ (forall x, In x (skipn k a) -> klt c key (fst x))
  | LDup => exists x, In x a /\ keq c key (fst x)
  | _ => False
  end.
Proof.
  induction fuel as [|f IH]; intros key a n L O; [lia|]. cbn [bsearch]. destruct a as [|x0 a0].
  { exists 0. cbn. split; [lia|]. split; [lia|]. tauto. }
  remember (x0 :: a0) as a eqn:EA. assert (LA : 1 <= length a) by (rewrite EA; cbn; lia). clear EA a0.
  cbv zeta. set (a2 := length a / 2). assert (H2 : a2 < length a) by (apply Nat.div_lt; lia).
  assert (SP := nth_split_at a a2 x0 H2). assert (O2 := O). rewrite SP in O2. apply fop_app in O2. destruct O2 as [_ [O2 O3]]. inversion O2 as [|? ? F G]; subst.
  rewrite Forall_forall in F. set (m := nth a2 a x0) in *.
  destruct (c key (fst m)) eqn:E.
  - exists m. split; [rewrite SP; apply in_app_iff; right; left; reflexivity|exact E].
  - destruct (Nat.eqb_spec (length a) 1) as [L1|L1].
    + assert (Z : a2 = 0) by (unfold a2; rewrite L1; reflexivity). exists 0. split; [lia|]. split; [lia|]. split; [cbn; tauto|]. cbn. intros x X.
      rewrite SP, Z in X. cbn in X. destruct X as [<-|X]; [exact E|]. rewrite Z in F. eapply (klt_trans ok); [exact E|apply F, X].
    + assert (LF : length (firstn a2 a) = a2) by (apply firstn_length_le; lia).
      specialize (IH key (firstn a2 a) n ltac:(lia) (order_firstn a2 a O)). destruct (bsearch c f key (firstn a2 a) n); try tauto.
      * destruct IH as [k [-> [K1 [K2 K3]]]]. exists k. split; [reflexivity|]. split; [lia|]. rewrite firstn_firstn, Nat.min_l in K2 by lia. split; [exact K2|].
        intros x X. rewrite <- (firstn_skipn a2 a) in X. rewrite skipn_app in X. apply in_app_iff in X. destruct X as [X|X]; [auto|].
        replace (k - length (firstn a2 a)) with 0 in X by lia. cbn [skipn] in X. rewrite SP in X. rewrite skipn_app, LF, Nat.sub_diag in X. rewrite skipn_all2 in X by lia. cbn in X.
        destruct X as [<-|X]; [exact E|]. eapply (klt_trans ok); [exact E|apply F, X].
      * destruct IH as [x [X1 X2]]. exists x. split; [rewrite <- (firstn_skipn a2 a); apply in_app_iff; auto|exact X2].
  - assert (GT : klt c (fst m) key) by (apply (gt_klt ok); exact E). destruct (Nat.eqb_spec (length a) 1) as [L1|L1].
    + exists 1. split; [lia|]. split; [lia|]. rewrite skipn_all2 by lia. cbn [In]. split; [|tauto]. intros x X.
      assert (Z : a2 = 0) by (unfold a2; rewrite L1; reflexivity). rewrite SP, Z in X. cbn in X. destruct X as [<-|[]]. exact GT.
    + assert (H3 : 1 <= a2) by (apply Nat.div_le_lower_bound; lia).
      assert (LS := skipn_length a2 a). specialize (IH key (skipn a2 a) (n + a2) ltac:(lia) (order_skipn a2 a O)). destruct (bsearch c f key (skipn a2 a) (n + a2)); try tauto.
      * destruct IH as [k [-> [K1 [K2 K3]]]]. exists (a2 + k). split; [lia|]. split; [lia|]. split.
        -- intros x X. rewrite <- (firstn_skipn a2 a) in X. rewrite firstn_app in X. apply in_app_iff in X. assert (LF : length (firstn a2 a) = a2) by (apply firstn_length_le; lia). destruct X as [X|X].
           ++ rewrite firstn_firstn in X. apply (klt_trans ok _ (fst m)); [|exact GT]. apply (O3 x m); [|left; reflexivity]. rewrite Nat.min_r in X by lia. exact X.
           ++ rewrite LF in X. replace (a2 + k - a2) with k in X by lia. auto.
        -- intros x X. rewrite <- skip_skip in X. auto.
      * destruct IH as [x [X1 X2]]. exists x. split; [rewrite <- (firstn_skipn a2 a); apply in_app_iff; auto|exact X2].
Qed.

Lemma perm4 {A} (a1 a2 b1 b2 : list A) : Permutation ((a1 ++ a2) ++ (b1 ++ b2)) ((a1 ++ b1) ++ (a2 ++ b2)).
Proof. rewrite <- !app_assoc. apply Permutation_app_head. rewrite !app_assoc. apply Permutation_app_tail. apply Permutation_app_comm. Qed.

Variable T : nat.
Hypothesis T3 : 3 <= T.
Lemma merge_rows_ok fuel : forall a b, length a + length b < fuel -> in_order c a -> in_order c b ->
  match merge_rows c T fuel a b with
  | LOk r => in_order c r /\ Permutation (a ++ b) r
  | LDup => ~ unique_keys c (a ++ b)
  | _ => False
  end.
Proof.
  induction fuel as [|f IH]; intros a b L A B; [lia|]. cbn [merge_rows].
  destruct (Nat.ltb_spec (length a + length b) T) as [S|S]; [apply merge_base_ok; auto|].
  assert (W : forall a b, length b <= length a -> length a + length b < Datatypes.S f -> T <= length a + length b -> in_order c a -> in_order c b ->
    match (match a with [] => LBug | x0 :: _ => let a2 := length a / 2 in
            ldo b2 <- bsearch c (Datatypes.S (length b)) (fst (nth a2 a x0)) b 0;
            let ra := merge_rows c T f (firstn a2 a) (firstn b2 b) in
            let rb := merge_rows c T f (skipn a2 a) (skipn b2 b) in
            ldo l <- ra; ldo r <- rb; LOk (l ++ r) end)
    with LOk r => in_order c r /\ Permutation (a ++ b) r | LDup => ~ unique_keys c (a ++ b) | _ => False end).
  { clear a b L A B S. intros a b LE L S A B. destruct a as [|x0 a0]; [cbn in *; lia|]. remember (x0 :: a0) as a eqn:EA. clear EA a0. cbv zeta.
    set (a2 := length a / 2). assert (H2 : a2 < length a) by (apply Nat.div_lt; lia). assert (H3 : 1 <= a2) by (apply Nat.div_le_lower_bound; lia).
    assert (SP := nth_split_at a a2 x0 H2). set (m := nth a2 a x0) in *.
    assert (BS := bsearch_ok (Datatypes.S (length b)) (fst m) b 0 ltac:(lia) B). destruct (bsearch c _ (fst m) b 0) as [p| | |]; cbn [lbind]; try tauto.
    - destruct BS as [k [-> [K1 [K2 K3]]]]. cbn [plus].
      assert (L1 : length (firstn a2 a) = a2) by (apply firstn_length_le; lia). assert (L2 := skipn_length a2 a).
      assert (L3 : length (firstn k b) = k) by (apply firstn_length_le; lia). assert (L4 := skipn_length k b).
      assert (MA := IH (firstn a2 a) (firstn k b) ltac:(lia) (order_firstn _ _ A) (order_firstn _ _ B)).
      assert (MB := IH (skipn a2 a) (skipn k b) ltac:(lia) (order_skipn _ _ A) (order_skipn _ _ B)).
      assert (P4 : Permutation (a ++ b) ((firstn a2 a ++ firstn k b) ++ (skipn a2 a ++ skipn k b))).
      { rewrite <- (firstn_skipn a2 a) at 1. rewrite <- (firstn_skipn k b) at 1. apply perm4. }
      assert (UQ : unique_keys c (a ++ b) -> unique_keys c (firstn a2 a ++ firstn k b) /\ unique_keys c (skipn a2 a ++ skipn k b)).
      { intros U. apply (uniq_perm _ _ P4) in U. apply fop_app in U. tauto. }
      destruct (merge_rows c T f (firstn a2 a) (firstn k b)) as [l| | |]; cbn [lbind]; try tauto.
      destruct (merge_rows c T f (skipn a2 a) (skipn k b)) as [r| | |]; cbn [lbind]; try tauto.
      destruct MA as [OA PA]. destruct MB as [OB PB]. split.
      + apply fop_app. split; [exact OA|]. split; [exact OB|]. intros x y X Y.
        assert (X1 : bef x m). { apply (Permutation_in _ (Permutation_sym PA)) in X. apply in_app_iff in X. destruct X as [X|X]; [|apply K2, X].
          rewrite SP in A. apply fop_app in A. destruct A as [_ [_ A]]. apply A; [|left; reflexivity]. exact X. }
        assert (Y1 : kle c (fst m) (fst y)). { apply (Permutation_in _ (Permutation_sym PB)) in Y. apply in_app_iff in Y. destruct Y as [Y|Y]; [|apply (klt_kle (c := c)), K3, Y].
          rewrite SP in Y. rewrite skipn_app, L1, Nat.sub_diag in Y. rewrite skipn_all2 in Y by lia. cbn in Y. destruct Y as [<-|Y]; [apply (kle_refl ok)|].
          rewrite SP in A. apply fop_app in A. destruct A as [_ [A _]]. inversion A as [|? ? F G]; subst. rewrite Forall_forall in F. apply (klt_kle (c := c)), F, Y. }
        exact (klt_kle_trans ok _ _ _ X1 Y1).
      + eapply Permutation_trans; [exact P4|]. apply Permutation_app; assumption.
    - destruct BS as [x [X1 X2]]. intros U. apply fop_app in U. destruct U as [_ [_ U]]. apply (U m x); [|exact X1|exact X2]. rewrite SP. apply in_app_iff. right. left. reflexivity. }
  destruct (Nat.ltb_spec (length a) (length b)) as [S2|S2].
  - specialize (W b a ltac:(lia) ltac:(lia) ltac:(lia) B A). destruct (match b with [] => _ | _ => _ end); try tauto.
    + destruct W as [W1 W2]. split; [exact W1|]. eapply Permutation_trans; [apply Permutation_app_comm|exact W2].
    + intros U. apply W. eapply uniq_perm; [apply Permutation_app_comm|exact U].
  - apply W; auto.
Qed.

Lemma msort_ok fuel : forall l, length l < fuel ->
  match msort c T fuel l with
  | LOk r => in_order c r /\ Permutation l r
  | LDup => ~ unique_keys c l
  | _ => False
  end.
Proof.
  induction fuel as [|f IH]; intros l L; [lia|]. cbn [msort]. destruct (Nat.leb_spec (length l) 1) as [S|S].
  - split; [|reflexivity]. destruct l as [|x [|y l]]; cbn in S; try lia; repeat constructor.
  - set (mid := length l / 2). assert (H2 : mid < length l) by (apply Nat.div_lt; lia). assert (H3 : 1 <= mid) by (apply Nat.div_le_lower_bound; lia).
    assert (L1 : length (firstn mid l) = mid) by (apply firstn_length_le; lia). assert (L2 := skipn_length mid l).
    assert (A := IH (firstn mid l) ltac:(lia)). assert (B := IH (skipn mid l) ltac:(lia)).
    assert (U0 : unique_keys c l -> unique_keys c (firstn mid l) /\ unique_keys c (skipn mid l)). { intros U. rewrite <- (firstn_skipn mid l) in U. apply fop_app in U. tauto. }
    destruct (msort c T f (firstn mid l)) as [a| | |]; cbn [lbind]; try tauto. destruct (msort c T f (skipn mid l)) as [b| | |]; cbn [lbind]; try tauto.
    destruct A as [OA PA]. destruct B as [OB PB]. assert (LA := Permutation_length PA). assert (LB := Permutation_length PB).
    assert (PL : Permutation l (a ++ b)). { rewrite <- (firstn_skipn mid l). apply Permutation_app; assumption. }
    assert (M := merge_rows_ok (Datatypes.S (length l)) a b ltac:(lia) OA OB). destruct (merge_rows c T _ a b); try tauto.
    + destruct M as [M1 M2]. split; [exact M1|]. eapply Permutation_trans; eauto.
    + intros U. apply M. eapply uniq_perm; eauto.
Qed.
Lemma sort_rows_ok l : match sort_rows c T l with LOk r => in_order c r /\ Permutation l r | LDup => ~ unique_keys c l | _ => False end.
Proof. apply msort_ok. lia. Qed.
End P.
