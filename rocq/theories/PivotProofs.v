(** Which child the binary searches pick (PivotModel.v). *)
From Coq Require Import Sorted.
From Verif Require Import Base Bytes LtSpec KOrd PivotModel.
Open Scope nat_scope.

Section PivotProofs.
Context {c : bytes -> bytes -> comparison} (ok : cmp_ok c).

(** Pivots strictly increasing. *)
Definition psorted (pv : list bytes) : Prop := StronglySorted (klt c) pv.

Lemma psorted_nth pv i j p q : psorted pv -> i < j -> nth_error pv i = Some p -> nth_error pv j = Some q -> klt c p q.
Proof.
  intros S. revert i j. induction S as [|x l S IH F]; intros i j L Hi Hj.
  - destruct i; discriminate.
  - destruct i, j; cbn in *; try lia.
    + injection Hi as ->. eapply Forall_forall in F; eauto. eapply nth_error_In; eauto.
    + apply (IH i j); auto. lia.
Qed.

Lemma psorted_nth_le pv i j p q : psorted pv -> i <= j -> nth_error pv i = Some p -> nth_error pv j = Some q -> kle c p q.
Proof.
  intros S L Hi Hj. destruct (Nat.eq_dec i j) as [->|].
  - rewrite Hi in Hj. injection Hj as ->. apply (kle_refl ok).
  - apply klt_kle. apply (psorted_nth pv i j); auto. lia.
Qed.

(** A binary search over a predicate that is false up to some index and true
    from there on; it ends at the first true index. *)
Lemma mid_bounds lo hi : lo < hi -> lo <= Nat.div2 (lo + hi) < hi.
Proof. intros. rewrite Nat.div2_div. pose proof (Nat.div_mod_eq (lo + hi) 2). pose proof (Nat.mod_upper_bound (lo + hi) 2). lia. Qed.

Definition first_true (f : bytes -> bool) (pv : list bytes) (i : nat) : Prop :=
  i <= length pv /\
  (forall j p, j < i -> nth_error pv j = Some p -> f p = false) /\
  (forall p, nth_error pv i = Some p -> f p = true).

Definition mono (f : bytes -> bool) (pv : list bytes) : Prop :=
  forall i j p q, i <= j -> nth_error pv i = Some p -> nth_error pv j = Some q -> f p = true -> f q = true.

Definition stop (d : sdir) (f : sfun) (k : bytes) (p : bytes) : bool :=
  match d with SLeft => sf_compare c f k p | SRight => negb (sf_compare c f k p) end.

Lemma swc_loop_ok d f k pv fuel : forall lo hi,
  mono (stop d f k) pv -> lo <= hi <= length pv -> hi - lo <= fuel ->
  (forall j p, j < lo -> nth_error pv j = Some p -> stop d f k p = false) ->
  (forall p, nth_error pv hi = Some p -> stop d f k p = true) ->
  exists i, swc_loop c fuel pv d f k lo hi = Some i /\ first_true (stop d f k) pv i.
Proof.
  induction fuel as [|fuel IH]; intros lo hi M B F L H; cbn [swc_loop].
  - destruct (Nat.ltb_spec lo hi); [lia|]. exists lo. split; auto. assert (lo = hi) as -> by lia.
    split; [lia|split; auto].
  - destruct (Nat.ltb_spec lo hi) as [l|l].
    + pose proof (mid_bounds _ _ l) as [m1 m2]. set (mi := Nat.div2 (lo + hi)) in *.
      destruct (nth_error pv mi) as [p|] eqn:E; [|apply nth_error_None in E; lia].
      change (match d with SLeft => sf_compare c f k p | SRight => negb (sf_compare c f k p) end) with (stop d f k p).
      destruct (stop d f k p) eqn:G.
      * apply IH; auto; try lia. intros q Eq. rewrite E in Eq. injection Eq as <-. exact G.
      * apply IH; auto; try lia. intros j q Lj Ej. destruct (stop d f k q) eqn:Gq; auto.
        rewrite (M j mi q p ltac:(lia) Ej E Gq) in G. discriminate.
    + exists lo. split; auto. assert (lo = hi) as -> by lia. split; [lia|split; auto].
Qed.

Lemma first_true_unique f pv i j : first_true f pv i -> first_true f pv j -> i = j.
Proof.
  intros (A1 & A2 & A3) (B1 & B2 & B3). destruct (Nat.lt_trichotomy i j) as [l|[e|l]]; auto; exfalso.
  - destruct (nth_error pv i) as [p|] eqn:E; [|apply nth_error_None in E; lia].
    pose proof (B2 _ _ l E). pose proof (A3 _ eq_refl). congruence.
  - destruct (nth_error pv j) as [p|] eqn:E; [|apply nth_error_None in E; lia].
    pose proof (A2 _ _ l E). pose proof (B3 _ eq_refl). congruence.
Qed.

(** ** toku_ftnode_which_child *)
Lemma wc_loop_ok k pv fuel : forall lo hi,
  psorted pv -> lo <= hi < length pv -> hi - lo <= fuel ->
  (forall j p, j < lo -> nth_error pv j = Some p -> klt c p k) ->
  (forall p, nth_error pv hi = Some p -> kle c k p) ->
  exists i, wc_loop c fuel pv k lo hi = Some i /\ first_true (fun p => kleb c k p) pv i.
Proof.
  induction fuel as [|fuel IH]; intros lo hi S B F L H; cbn [wc_loop].
  - destruct (Nat.ltb_spec lo hi); [lia|]. exists lo. split; auto. assert (lo = hi) as -> by lia.
    split; [lia|split]. { intros j p Lj E. pose proof (L _ _ Lj E). kord ok. } { intros p E. pose proof (H _ E). kord ok. }
  - destruct (Nat.ltb_spec lo hi) as [l|l].
    + pose proof (mid_bounds _ _ l) as [m1 m2]. set (mi := Nat.div2 (lo + hi)) in *.
      destruct (nth_error pv mi) as [p|] eqn:E; [|apply nth_error_None in E; lia].
      destruct (c k p) eqn:G.
      * exists mi. split; auto. split; [lia|split].
        { intros j q Lj Ej. pose proof (psorted_nth _ _ _ _ _ S Lj Ej E). assert (keq c k p) by exact G. kord ok. }
        { intros q Ej. rewrite E in Ej. injection Ej as <-. unfold kleb. rewrite G. auto. }
      * apply IH; auto; try lia. intros q Eq. rewrite E in Eq. injection Eq as <-. apply klt_kle, G.
      * apply IH; auto; try lia. intros j q Lj Ej. pose proof (gt_klt ok _ _ G).
        pose proof (psorted_nth_le pv j mi q p S ltac:(lia) Ej E). kord ok.
    + exists lo. split; auto. assert (lo = hi) as -> by lia.
      split; [lia|split]. { intros j p Lj E. pose proof (L _ _ Lj E). kord ok. } { intros p E. pose proof (H _ E). kord ok. }
Qed.

Lemma which_child_ok k pv : psorted pv ->
  exists i, which_child c pv k = Some i /\ first_true (fun p => kleb c k p) pv i.
Proof.
  intros S. unfold which_child. destruct (Nat.eqb_spec (length pv) 0) as [z|z].
  - exists 0. split; auto. destruct pv; [|discriminate]. split; [cbn; lia|split]; [intros [|?] ? ? ?|intros ? ?]; discriminate.
  - destruct (nth_error pv (length pv - 1)) as [p|] eqn:E; [|apply nth_error_None in E; lia].
    destruct (c k p) eqn:G.
    1,2: apply wc_loop_ok; auto; try lia;
      intros q Eq; rewrite E in Eq; injection Eq as <-; unfold kle; congruence.
    exists (length pv). split; auto. split; [lia|split].
    + intros j q Lj Ej. pose proof (gt_klt ok _ _ G).
      pose proof (psorted_nth_le pv j (length pv - 1) q p S ltac:(lia) Ej E). kord ok.
    + intros q Eq. assert (length pv < length pv) by (apply nth_error_Some; congruence). lia.
Qed.

(** ** toku_ftnode_hot_next_child *)
Lemma hot_loop_ok k pv fuel : forall lo hi,
  psorted pv -> lo <= hi <= length pv -> hi - lo < fuel ->
  (forall j p, j < lo -> nth_error pv j = Some p -> klt c p k) ->
  (forall p, nth_error pv hi = Some p -> klt c k p) ->
  exists i, hot_loop c fuel pv k lo hi = Some i /\ first_true (fun p => kltb c k p) pv i.
Proof.
  induction fuel as [|fuel IH]; intros lo hi S B F L H; cbn [hot_loop]; [lia|].
  destruct (Nat.ltb_spec lo hi) as [l|l].
  - pose proof (mid_bounds _ _ l) as [m1 m2]. set (mi := Nat.div2 (lo + hi)) in *.
    destruct (nth_error pv mi) as [p|] eqn:E; [|apply nth_error_None in E; lia].
    destruct (c k p) eqn:G.
    + exists (Datatypes.S mi). split; auto. assert (keq c k p) by exact G. split; [lia|split].
      { intros j q Lj Ej. pose proof (psorted_nth_le pv j mi q p S ltac:(lia) Ej E). kord ok. }
      { intros q Ej. pose proof (psorted_nth pv mi (Datatypes.S mi) p q S ltac:(lia) E Ej). kord ok. }
    + apply IH; auto; try lia. intros q Eq. rewrite E in Eq. injection Eq as <-. exact G.
    + apply IH; auto; try lia. intros j q Lj Ej. pose proof (gt_klt ok _ _ G).
      pose proof (psorted_nth_le pv j mi q p S ltac:(lia) Ej E). kord ok.
  - assert (lo = hi) as -> by lia. rewrite Nat.eqb_refl. exists hi. split; auto.
    split; [lia|split]. { intros j p Lj E. pose proof (L _ _ Lj E). kord ok. } { intros p E. pose proof (H _ E). kord ok. }
Qed.

Lemma hot_next_child_ok k pv : psorted pv ->
  exists i, hot_next_child c pv k = Some i /\ first_true (fun p => kltb c k p) pv i.
Proof.
  intros S. apply hot_loop_ok; auto; try lia.
  intros p E. assert (length pv < length pv) by (apply nth_error_Some; congruence). lia.
Qed.

(** ** toku_ft_search_which_child *)

Lemma stop_mono d f k pv : psorted pv -> sf_dir d f = true -> mono (stop d f k) pv.
Proof.
  intros S D i j p q L Hi Hj. pose proof (psorted_nth_le pv i j p q S L Hi Hj) as K.
  unfold stop. destruct d, f; try discriminate D; cbn [sf_compare]; auto.
  - intros T. assert (kle c k p) by (unfold kle; destruct (c k p); congruence).
    assert (kle c k q) by kord ok. unfold kle in *. destruct (c k q); congruence.
  - intros T. assert (klt c k p) by (unfold klt; destruct (c k p); congruence).
    assert (klt c k q) by kord ok. unfold klt in *. destruct (c k q); congruence.
  - intros T. assert (kle c k p) by (unfold kle; destruct (c k p); cbn in T; congruence).
    assert (kle c k q) by kord ok. unfold kle in *. destruct (c k q); cbn; congruence.
  - intros T. assert (klt c k p) by (unfold klt; destruct (c k p); cbn in T; congruence).
    assert (klt c k q) by kord ok. unfold klt in *. destruct (c k q); cbn; congruence.
Qed.

Lemma bound_left_ok pv b fuel : forall lo, psorted pv -> lo <= length pv -> length pv - lo <= fuel ->
  exists i, bound_left c fuel pv b lo = Some i /\ lo <= i <= length pv /\
    (forall j p, lo <= j < i -> nth_error pv j = Some p -> kle c p b) /\
    (forall p, nth_error pv i = Some p -> klt c b p).
Proof.
  induction fuel as [|fuel IH]; intros lo S L F; cbn [bound_left].
  - destruct (Nat.ltb_spec lo (length pv)); [lia|]. exists lo. repeat split; auto; try lia.
    intros p E. assert (lo < length pv) by (apply nth_error_Some; congruence). lia.
  - destruct (Nat.ltb_spec lo (length pv)) as [l|l].
    + destruct (nth_error pv lo) as [p|] eqn:E; [|apply nth_error_None in E; lia].
      assert (D : c p b = Gt \/ kle c p b) by (unfold kle; destruct (c p b); auto; right; congruence).
      destruct (c p b) eqn:G.
      1,2: destruct (IH (Datatypes.S lo) S ltac:(lia) ltac:(lia)) as (i & Ei & B & Q & R); exists i; split; auto;
        split; [lia|]; split; auto; intros j q Lj Ej; destruct (Nat.eq_dec j lo) as [->|];
        [rewrite E in Ej; injection Ej as <-; unfold kle; congruence|apply (Q j q); auto; lia].
      exists lo. split; auto. split; [lia|]. split; [intros; lia|].
      intros q Eq. rewrite E in Eq. injection Eq as <-. apply (gt_klt ok), G.
    + exists lo. repeat split; auto; try lia.
      intros p E. assert (lo < length pv) by (apply nth_error_Some; congruence). lia.
Qed.

Lemma bound_right_ok pv b : forall lo, psorted pv -> lo <= length pv ->
  exists i, bound_right c pv b lo = Some i /\ i <= lo /\
    (forall j p, i <= j < lo -> nth_error pv j = Some p -> kle c b p) /\
    (forall p, 0 < i -> nth_error pv (i - 1) = Some p -> klt c p b).
Proof.
  induction lo as [|lo IH]; intros S L; cbn [bound_right].
  - exists 0. repeat split; auto; intros; lia.
  - destruct (nth_error pv lo) as [p|] eqn:E; [|apply nth_error_None in E; lia].
    destruct (c p b) eqn:G.
    2: { exists (Datatypes.S lo). split; auto. split; auto. split; [intros; lia|].
         intros q _ Eq. replace (Datatypes.S lo - 1) with lo in Eq by lia. rewrite E in Eq. injection Eq as <-. exact G. }
    1,2: destruct (IH S ltac:(lia)) as (i & Ei & B & Q & R); exists i; split; auto; split; [lia|]; split; auto;
      intros j q Lj Ej; destruct (Nat.eq_dec j lo) as [->|];
      [rewrite E in Ej; injection Ej as <-|apply (Q j q); auto; lia].
    + assert (keq c p b) by exact G. kord ok.
    + pose proof (gt_klt ok _ _ G). kord ok.
Qed.
End PivotProofs.
