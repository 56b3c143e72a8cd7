(** C22: child selection follows the pivots. *)
From Coq Require Import Sorted.
From Verif Require Import Base Bytes LtSpec KeyCmp KOrd PivotModel PivotProofs.
Open Scope nat_scope.

(** Specification.  A node with pivots p_0 < p_1 < ... < p_(n-2) has children
    0..n-1; child i holds the keys x with p_(i-1) < x <= p_i. *)
Definition in_child (c : bytes -> bytes -> comparison) (pv : list bytes) (i : nat) (x : bytes) : Prop :=
  i <= length pv /\
  (forall p, 0 < i -> nth_error pv (i - 1) = Some p -> klt c p x) /\
  (forall p, nth_error pv i = Some p -> kle c x p).

Lemma first_in_child c (ok : cmp_ok c) pv i x : psorted (c:=c) pv ->
  first_true (fun p => kleb c x p) pv i <-> in_child c pv i x.
Proof.
  intros S. split; intros (A & B & D); split; auto; split.
  - intros p L E. specialize (B (i - 1) p ltac:(lia) E). kord ok.
  - intros p E. specialize (D p E). kord ok.
  - intros j p L E. destruct (nth_error pv (i - 1)) as [q|] eqn:Eq; [|apply nth_error_None in Eq; lia].
    specialize (B q ltac:(lia) eq_refl).
    pose proof (psorted_nth_le ok pv j (i - 1) p q S ltac:(lia) E Eq). kord ok.
  - intros p E. specialize (D p E). kord ok.
Qed.

(** toku_ftnode_which_child finishes without leaving the pivot array, and the
    child it returns is the one and only child whose interval holds the key. *)
Theorem C22_point_child_is_the_unique_interval : forall c, cmp_ok c -> forall pv k,
  StronglySorted (klt c) pv ->
  exists i, which_child c pv k = Some i /\ in_child c pv i k /\
            (forall j, in_child c pv j k -> j = i).
Proof.
  intros c ok pv k S. destruct (which_child_ok ok k pv S) as (i & E & F).
  exists i. split; auto. split. { apply first_in_child; auto. }
  intros j J. apply (first_in_child c ok) in J; auto. eapply first_true_unique; eauto.
Qed.
Print Assumptions C22_point_child_is_the_unique_interval.

(** toku_ftnode_hot_next_child returns the child where the keys greater than
    [k] begin: no earlier child holds such a key, and the returned child has
    room for one (it is the last child, or its own upper pivot is such a key).
    The optimize scan therefore neither skips a child nor visits one twice. *)
Theorem C22_hot_next_child_is_where_greater_keys_begin : forall c, cmp_ok c -> forall pv k,
  StronglySorted (klt c) pv ->
  exists i, hot_next_child c pv k = Some i /\ i <= length pv /\
    (forall j x, j < i -> in_child c pv j x -> kle c x k) /\
    (forall p, nth_error pv i = Some p -> klt c k p /\ in_child c pv i p) /\
    (forall q x, 0 < i -> nth_error pv (i - 1) = Some q -> in_child c pv i x -> kle c q k /\ klt c q x).
Proof.
  intros c ok pv k S. destruct (hot_next_child_ok ok k pv S) as (i & E & A & B & D).
  exists i. split; auto. split; auto. split; [|split].
  - intros j x L (J1 & J2 & J3). destruct (nth_error pv j) as [p|] eqn:Ej; [|apply nth_error_None in Ej; lia].
    specialize (J3 _ eq_refl). specialize (B _ _ L Ej). kord ok.
  - intros p Ep. specialize (D _ Ep). split; [kord ok|]. split; auto. split.
    + intros q Lq Eq. apply (psorted_nth pv (i - 1) i); auto. lia.
    + intros q Eq. rewrite Ep in Eq. injection Eq as <-. apply (kle_refl ok).
  - intros q x L Eq (J1 & J2 & J3). specialize (B (i - 1) q ltac:(lia) Eq). specialize (J2 _ L Eq). split; kord ok.
Qed.
Print Assumptions C22_hot_next_child_is_where_greater_keys_begin.

(** What a cursor operation is looking for ([k] is the key it was given). *)
Definition wanted (c : bytes -> bytes -> comparison) (f : sfun) (k x : bytes) : Prop :=
  match f with
  | CmpOne => True              (* first, last *)
  | CmpSet => kle c k x         (* set, set_range: the first x >= k *)
  | CmpNext => klt c k x        (* next: the first x > k *)
  | CmpPrev => klt c x k        (* prev: the last x < k *)
  | CmpRevSet => kle c x k      (* set_range_reverse: the last x <= k *)
  end.

(** [bound] is the pivot the search saved before it tried again: everything up
    to it (from it, when searching backwards) has been searched already.  For
    a forward search the child returned is the first one that can hold a
    wanted key not yet searched: no earlier child holds one, and the child's
    own upper pivot would be one.  For a backward search it is the last one:
    no later child holds one, and the child's lower pivot does not exclude
    one. *)
Definition todo_left c (b : option bytes) x := match b with None => True | Some b => klt c b x end.
Definition todo_right c (b : option bytes) x := match b with None => True | Some b => kle c x b end.

Lemma sf_wanted c (ok : cmp_ok c) f k x : sf_compare c f k x = true <-> wanted c f k x.
Proof.
  destruct f; cbn [sf_compare wanted]; [tauto| | | |]; unfold kle, klt; try rewrite (cmp_sym _ ok k x);
  destruct (c k x); cbn; split; congruence.
Qed.

Theorem C22_forward_search_child : forall c, cmp_ok c -> forall pv f k b,
  StronglySorted (klt c) pv -> sf_dir SLeft f = true ->
  exists i, search_which_child c pv SLeft f k b = Some i /\ i <= length pv /\
    (forall j x, j < i -> in_child c pv j x -> wanted c f k x -> todo_left c b x -> False) /\
    (forall p, nth_error pv i = Some p -> in_child c pv i p /\ wanted c f k p /\ todo_left c b p).
Proof.
  intros c ok pv f k b S D. pose proof (stop_mono ok SLeft f k pv S D) as M.
  unfold search_which_child. destruct (Nat.eqb_spec (length pv) 0) as [z|z].
  { exists 0. split; auto. destruct pv; [|discriminate]. split; [lia|]. split; [intros; lia|intros [|] ?; discriminate]. }
  destruct (swc_loop_ok SLeft f k pv (Datatypes.S (length pv)) 0 (length pv) M ltac:(lia) ltac:(lia) ltac:(intros; lia)) as (i & Ei & F).
  { intros p E. assert (length pv < length pv) by (apply nth_error_Some; congruence). lia. }
  rewrite Ei. destruct F as (A & B & C).
  assert (own : forall i p, i <= length pv -> nth_error pv i = Some p -> in_child c pv i p).
  { intros i' p L E. split; auto. split.
    - intros q Lq Eq. apply (psorted_nth pv (i' - 1) i'); auto. lia.
    - intros q Eq. rewrite E in Eq. injection Eq as <-. apply (kle_refl ok). }
  assert (before : forall j x, j < i -> in_child c pv j x -> wanted c f k x -> False).
  { intros j x L (J1 & J2 & J3) W. destruct (nth_error pv j) as [p|] eqn:Ej; [|apply nth_error_None in Ej; lia].
    specialize (J3 _ eq_refl). specialize (B _ _ L Ej). unfold stop in B.
    assert (W' : ~ wanted c f k p) by (rewrite <- (sf_wanted c ok); congruence).
    destruct f; try discriminate D; cbn [wanted] in *; [tauto| |]; kord ok. }
  destruct b as [b|].
  - destruct (bound_left_ok ok pv b (length pv) i S A ltac:(lia)) as (i' & Ei' & Bi & Q & R).
    exists i'. split; auto. split; [lia|]. split.
    + intros j x L J W T. cbn [todo_left] in T. destruct (Nat.lt_ge_cases j i) as [l|l]; [eapply before; eauto|].
      destruct J as (J1 & J2 & J3). destruct (nth_error pv j) as [p|] eqn:Ej; [|apply nth_error_None in Ej; lia].
      specialize (J3 _ eq_refl). specialize (Q j p ltac:(lia) Ej). kord ok.
    + intros p E. split; [apply own; auto; lia|]. split; [|exact (R p E)].
      apply (sf_wanted c ok). destruct (nth_error pv i) as [q|] eqn:Eq.
      * change (stop (c:=c) SLeft f k p = true). apply (M i i' q p); auto; lia.
      * apply nth_error_None in Eq. assert (i' < length pv) by (apply nth_error_Some; congruence). lia.
  - exists i. split; auto. split; auto. split.
    + intros j x L J W _. eapply before; eauto.
    + intros p E. split; [apply own; auto|]. split; [|exact Logic.I]. apply (sf_wanted c ok). exact (C p E).
Qed.
Print Assumptions C22_forward_search_child.

Theorem C22_backward_search_child : forall c, cmp_ok c -> forall pv f k b,
  StronglySorted (klt c) pv -> sf_dir SRight f = true ->
  exists i, search_which_child c pv SRight f k b = Some i /\ i <= length pv /\
    (forall j x, i < j -> in_child c pv j x -> wanted c f k x -> todo_right c b x -> False) /\
    (forall p, 0 < i -> nth_error pv (i - 1) = Some p ->
       wanted c f k p /\ match b with None => True | Some b => klt c p b end).
Proof.
  intros c ok pv f k b S D. pose proof (stop_mono ok SRight f k pv S D) as M.
  unfold search_which_child. destruct (Nat.eqb_spec (length pv) 0) as [z|z].
  { exists 0. split; auto. split; [lia|]. split; [|intros; lia].
    intros j x L (J & _). lia. }
  destruct (swc_loop_ok SRight f k pv (Datatypes.S (length pv)) 0 (length pv) M ltac:(lia) ltac:(lia) ltac:(intros; lia)) as (i & Ei & F).
  { intros p E. assert (length pv < length pv) by (apply nth_error_Some; congruence). lia. }
  rewrite Ei. destruct F as (A & B & C).
  assert (after : forall j x, i < j -> in_child c pv j x -> wanted c f k x -> False).
  { intros j x L (J1 & J2 & J3) W. destruct (nth_error pv i) as [p|] eqn:Ep; [|apply nth_error_None in Ep; lia].
    specialize (C _ eq_refl). unfold stop in C.
    assert (W' : ~ wanted c f k p) by (rewrite <- (sf_wanted c ok); destruct (sf_compare c f k p); cbn in C; congruence).
    destruct (nth_error pv (j - 1)) as [q|] eqn:Eq; [|apply nth_error_None in Eq; lia].
    specialize (J2 q ltac:(lia) eq_refl).
    pose proof (psorted_nth_le ok pv i (j - 1) p q S ltac:(lia) Ep Eq).
    destruct f; try discriminate D; cbn [wanted] in *; [tauto| |]; kord ok. }
  destruct b as [b|].
  - destruct (bound_right_ok ok pv b i S A) as (i' & Ei' & Bi & Q & R).
    exists i'. split; auto. split; [lia|]. split.
    + intros j x L J W T. cbn [todo_right] in T. destruct (Nat.lt_ge_cases i j) as [l|l]; [eapply after; eauto|].
      destruct J as (J1 & J2 & J3). destruct (nth_error pv (j - 1)) as [p|] eqn:Ej; [|apply nth_error_None in Ej; lia].
      specialize (J2 p ltac:(lia) eq_refl). specialize (Q (j - 1) p ltac:(lia) Ej). kord ok.
    + intros p L E. split; [|exact (R p L E)].
      specialize (B (i' - 1) p ltac:(lia) E). unfold stop in B.
      apply (sf_wanted c ok). destruct (sf_compare c f k p); cbn in B; congruence.
  - exists i. split; auto. split; auto. split.
    + intros j x L J W _. eapply after; eauto.
    + intros p L E. split; [|exact Logic.I]. specialize (B (i - 1) p ltac:(lia) E). unfold stop in B.
      apply (sf_wanted c ok). destruct (sf_compare c f k p); cbn in B; congruence.
Qed.
Print Assumptions C22_backward_search_child.

(** Three pivots, byte-string keys: a key equal to a pivot goes left of it, the
    optimize scan goes right of it, a cursor continues behind its bound. *)
Example C22_case :
  let pv := [[10%N]; [20%N]; [20%N; 0%N]] in
  StronglySorted (klt key_cmp) pv /\
  which_child key_cmp pv [20%N] = Some 1 /\ hot_next_child key_cmp pv [20%N] = Some 2 /\
  which_child key_cmp pv [99%N] = Some 3 /\
  search_which_child key_cmp pv SLeft CmpSet [15%N] (Some [20%N]) = Some 2 /\
  search_which_child key_cmp pv SRight CmpPrev [20%N; 0%N] None = Some 2 /\
  search_which_child key_cmp pv SRight CmpPrev [20%N; 0%N] (Some [20%N]) = Some 1.
Proof. cbn zeta. split; [|vm_compute; repeat split; reflexivity]. repeat constructor. Qed.
