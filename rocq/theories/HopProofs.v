(** Lemmas about hot optimize. *)
From Coq Require Import Sorted Permutation.
From Verif Require Import Base Bytes LtSpec KeyCmp KOrd PivotModel PivotProofs HopModel HopSpec.
Open Scope nat_scope.

Lemma hset_nth {A} i (x : A) l j : i < length l ->
  nth_error (hset i x l) j = if j =? i then Some x else nth_error l j.
Proof.
  revert l j. induction i as [|i IH]; intros [|a l] [|j] L; cbn in *; auto; try lia.
  apply IH. lia.
Qed.
Lemma hset_len {A} i (x : A) l : length (hset i x l) = length l.
Proof. revert l. induction i as [|i IH]; intros [|a l]; cbn; auto. Qed.

Lemma flat_set {A B} (f : A -> list B) i y l x : nth_error l i = Some x ->
  Permutation (flat_map f (hset i y l) ++ f x) (flat_map f l ++ f y).
Proof.
  revert l. induction i as [|i IH]; intros [|a l] E; cbn in E; try discriminate; cbn.
  - injection E as ->.
    rewrite (Permutation_app_comm (f y) (flat_map f l)), (Permutation_app_comm (f x) (flat_map f l)), <- !app_assoc.
    apply Permutation_app_head, Permutation_app_comm.
  - rewrite <- !app_assoc. apply Permutation_app_head. auto.
Qed.

Lemma flat_set_same {A B} (f : A -> list B) i y l x : nth_error l i = Some x -> f y = f x ->
  flat_map f (hset i y l) = flat_map f l.
Proof.
  revert l. induction i as [|i IH]; intros [|a l] E F; cbn in E; try discriminate; cbn.
  - injection E as ->. rewrite F. auto.
  - rewrite IH; auto.
Qed.

Definition everything (t : htree) : list hmsg := waiting t ++ in_leaves t.

Definition hmsg_dec : forall x y : hmsg, {x = y} + {x <> y}.
Proof. repeat decide equality. Defined.

Notation wof := (fun e : list hmsg * htree => match e with (b, t1) => b ++ waiting t1 end).
Notation lof := (fun e : list hmsg * htree => match e with (_, t1) => in_leaves t1 end).
Notation pof := (fun e : list hmsg * htree => match e with (_, t1) => pivots t1 end).

Section HopProofs.
Context {c : bytes -> bytes -> comparison} (ok : cmp_ok c).

Lemma good_height h : forall lo hi t, good_tree c h lo hi t -> height t = h.
Proof.
  induction h as [|h IH]; intros lo hi [l|pv chs] G; cbn [good_tree] in G; try contradiction; auto.
  destruct G as (_ & _ & L & G). cbn [height]. destruct chs as [|[b t1] r]; [cbn in L; lia|].
  f_equal. destruct (G 0 b t1 eq_refl) as [G1 _]. eapply IH, G1.
Qed.

(** A child's bounds lie within its parent's. *)
Lemma child_above pv lo hi i k : (forall p, In p pv -> above c lo p /\ upto c p hi) -> i <= length pv ->
  above c (child_lo pv lo i) k -> above c lo k.
Proof.
  intros P L. destruct i as [|j]; cbn [child_lo]; auto.
  destruct (nth_error pv j) as [p|] eqn:E; [|apply nth_error_None in E; lia].
  intros A. destruct (P p (nth_error_In _ _ E)) as [B _]. destruct lo; cbn in *; auto. kord ok.
Qed.
Lemma child_upto pv lo hi i k : (forall p, In p pv -> above c lo p /\ upto c p hi) ->
  upto c k (child_hi pv hi i) -> upto c k hi.
Proof.
  intros P. unfold child_hi. destruct (nth_error pv i) as [p|] eqn:E; auto.
  intros A. destruct (P p (nth_error_In _ _ E)) as [_ B]. destruct hi; cbn in *; auto. kord ok.
Qed.

Lemma waiting_range h : forall lo hi t m, good_tree c h lo hi t -> In m (waiting t) ->
  above c lo (fst m) /\ upto c (fst m) hi.
Proof.
  induction h as [|h IH]; intros lo hi [l|pv chs] m G I; cbn [good_tree] in G; try contradiction.
  destruct G as (_ & P & L & G). cbn [waiting] in I. apply in_flat_map in I. destruct I as ([b t1] & I1 & I2).
  apply In_nth_error in I1. destruct I1 as [i E]. destruct (G i b t1 E) as [G1 G2].
  assert (i < length chs) by (apply nth_error_Some; congruence).
  assert (above c (child_lo pv lo i) (fst m) /\ upto c (fst m) (child_hi pv hi i)) as [A B].
  { apply in_app_or in I2. destruct I2; eauto. }
  split; [apply (child_above pv lo hi i); auto; lia|apply (child_upto pv lo hi i); auto].
Qed.

(** Putting one message into a node. *)
Lemma put_one_ok h lo hi pv chs m : good_tree c (S h) lo hi (HNode pv chs) ->
  above c lo (fst m) -> upto c (fst m) hi ->
  exists chs1, put_one c pv chs m = Some chs1 /\ good_tree c (S h) lo hi (HNode pv chs1) /\
    Permutation (flat_map wof chs1) (flat_map wof chs ++ [m]) /\
    flat_map lof chs1 = flat_map lof chs /\ flat_map pof chs1 = flat_map pof chs.
Proof.
  intros (SS & P & L & G) A U. unfold put_one.
  destruct (which_child_ok ok (fst m) pv SS) as (i & -> & F). destruct F as (F1 & F2 & F3).
  destruct (nth_error chs i) as [[b t1]|] eqn:E; [|apply nth_error_None in E; lia]. cbn [fst snd].
  assert (Li : i < length chs) by lia.
  eexists. split; [reflexivity|]. split; [|split; [|split]].
  - split; [auto|]. split; [auto|]. split; [rewrite hset_len; auto|].
    intros j b1 t2. rewrite hset_nth by auto. destruct (Nat.eqb_spec j i) as [->|n]; [|apply G].
    intros Q. injection Q as <- <-. destruct (G i b t1 E) as [G1 G2]. split; auto.
    intros x I. apply in_app_or in I. destruct I as [I|[<-|[]]]; auto. split.
    + destruct i as [|j]; cbn [child_lo]; auto. destruct (nth_error pv j) as [p|] eqn:Ej; [|apply nth_error_None in Ej; lia].
      specialize (F2 j p ltac:(lia) Ej). cbn. kord ok.
    + unfold child_hi. destruct (nth_error pv i) as [p|] eqn:Ei; auto. specialize (F3 p eq_refl). cbn. kord ok.
  - pose proof (flat_set wof i (b ++ [m], t1) chs (b, t1) E) as Q. cbn beta iota in Q.
    apply (Permutation_count_occ hmsg_dec). intros x.
    pose proof (proj1 (Permutation_count_occ hmsg_dec _ _) Q x) as K. rewrite !count_occ_app in K. rewrite count_occ_app. lia.
  - apply (flat_set_same lof i _ chs (b, t1)); auto.
  - apply (flat_set_same pof i _ chs (b, t1)); auto.
Qed.

Lemma put_each_ok h lo hi pv ms : forall chs, good_tree c (S h) lo hi (HNode pv chs) ->
  (forall m, In m ms -> above c lo (fst m) /\ upto c (fst m) hi) ->
  exists chs1, put_each c pv chs ms = Some chs1 /\ good_tree c (S h) lo hi (HNode pv chs1) /\
    Permutation (flat_map wof chs1) (flat_map wof chs ++ ms) /\
    flat_map lof chs1 = flat_map lof chs /\ flat_map pof chs1 = flat_map pof chs.
Proof.
  induction ms as [|m ms IH]; intros chs G R; cbn [put_each].
  - exists chs. rewrite app_nil_r. auto.
  - destruct (R m (or_introl eq_refl)) as [A U].
    destruct (put_one_ok h lo hi pv chs m G A U) as (chs1 & -> & G1 & W1 & L1 & P1).
    destruct (IH chs1 G1 ltac:(intros; apply R; right; auto)) as (chs2 & -> & G2 & W2 & L2 & P2).
    exists chs2. split; auto. split; auto. split; [|split; congruence].
    rewrite W2, W1, <- app_assoc. auto.
Qed.

Lemma flush_ok h lo hi t ms : good_tree c h lo hi t ->
  (forall m, In m ms -> above c lo (fst m) /\ upto c (fst m) hi) ->
  exists t1, flush_to_child c t ms = Some t1 /\ good_tree c h lo hi t1 /\
    Permutation (everything t1) (everything t ++ ms) /\
    (forall m, In m (waiting t1) -> In m (waiting t) \/ In m ms) /\ pivots t1 = pivots t.
Proof.
  intros G R. destruct h as [|h]; destruct t as [l|pv chs]; cbn [good_tree] in G; try contradiction.
  - exists (HLeaf (l ++ ms)). cbn. split; auto. 
  - cbn [flush_to_child]. destruct (put_each_ok h lo hi pv ms chs G R) as (chs1 & -> & G1 & W1 & L1 & P1).
    eexists. split; [reflexivity|]. split; auto. split; [|split].
    + unfold everything. cbn [waiting in_leaves]. rewrite L1, W1, <- !app_assoc. apply Permutation_app_head, Permutation_app_comm.
    + intros m I. cbn [waiting] in *. rewrite W1 in I. apply in_app_or in I. auto.
    + cbn [pivots]. rewrite P1. auto.
Qed.

(** Below: a left bound not above [H]; [H] strictly below a right bound. *)
Definition lo_le (lo H : option bytes) : Prop :=
  match lo with None => True | Some p => match H with None => False | Some k => kle c p k end end.
Definition lt_hi (H hi : option bytes) : Prop :=
  match hi with None => True | Some p => above c H p end.
Definition hi_le (a b : option bytes) : Prop :=
  match a with None => b = None | Some p => upto c p b end.

Lemma upto_hi_le k a b : upto c k a -> hi_le a b -> upto c k b.
Proof. destruct a as [p|], b as [q|]; cbn; auto; try discriminate. intros. kord ok. Qed.

Lemma pick_ok pv H : StronglySorted (klt c) pv ->
  exists i, hot_just_pick_child c pv H = Some i /\ i <= length pv /\
    (forall j p, j < i -> nth_error pv j = Some p -> exists k, H = Some k /\ kle c p k) /\
    (forall p, nth_error pv i = Some p -> above c H p).
Proof.
  intros SS. destruct H as [k|]; cbn [hot_just_pick_child].
  - destruct (hot_next_child_ok ok k pv SS) as (i & E & A & B & D). exists i. split; auto. split; auto. split.
    + intros j p L N. exists k. split; auto. specialize (B j p L N). kord ok.
    + intros p N. specialize (D p N). cbn. kord ok.
  - exists 0. split; auto. split; [lia|]. split; [lia|]. intros; cbn; auto.
Qed.

Lemma round_ok h : forall lo hi H t, good_tree c h lo hi t -> lo_le lo H -> lt_hi H hi ->
  exists t1 mc, hot_round c h H hi t = Some (t1, mc) /\ good_tree c h lo hi t1 /\
    Permutation (everything t1) (everything t) /\
    (forall m, In m (waiting t1) -> In m (waiting t)) /\ pivots t1 = pivots t /\
    lt_hi H mc /\ hi_le mc hi /\
    (forall m, In m (waiting t1) -> above c H (fst m) -> upto c (fst m) mc -> False) /\
    (mc = hi \/ exists p, mc = Some p /\ In p (pivots t)).
Proof.
  induction h as [|h IH]; intros lo hi H t G A B.
  { destruct t as [l|pv chs]; cbn [good_tree] in G; try contradiction. exists (HLeaf l), hi. cbn. repeat split; auto.
    destruct hi; cbn; auto. apply (kle_refl ok). }
  destruct t as [l|pv chs]; cbn [good_tree] in G; try contradiction.
  pose proof G as G0. destruct G as (SS & P & L & G). cbn [hot_round].
  destruct (pick_ok pv H SS) as (i & -> & Li & F1 & F2).
  destruct (nth_error chs i) as [[b ch]|] eqn:E; [|apply nth_error_None in E; lia]. cbn [fst snd].
  assert (M : hot_update_keys pv i hi = child_hi pv hi i).
  { unfold hot_update_keys, child_hi. destruct (Nat.ltb_spec i (length pv)) as [l|l].
    - destruct (nth_error pv i) eqn:Q; auto. apply nth_error_None in Q. lia.
    - apply nth_error_None in l. rewrite l. auto. }
  rewrite M. destruct (G i b ch E) as [G1 G2].
  destruct (flush_ok h _ _ ch b G1 G2) as (ch1 & -> & G3 & E3 & W3 & P3).
  assert (A1 : lo_le (child_lo pv lo i) H).
  { destruct i as [|j]; cbn [child_lo]; auto. destruct (nth_error pv j) as [p|] eqn:Q; [|apply nth_error_None in Q; lia].
    destruct (F1 j p ltac:(lia) Q) as (k & -> & K). auto. }
  assert (B1 : lt_hi H (child_hi pv hi i)).
  { unfold child_hi. destruct (nth_error pv i) as [p|] eqn:Q; auto. cbn. auto. }
  destruct (IH _ _ H ch1 G3 A1 B1) as (ch2 & mc & -> & G4 & E4 & W4 & P4 & X1 & X2 & X3 & X4). cbn [fst snd].
  assert (Lc : i < length chs) by lia.
  assert (H2 : hi_le mc hi).
  { destruct mc as [p|]; cbn in *.
    - eapply child_upto; eauto.
    - unfold child_hi in X2. destruct (nth_error pv i); congruence. }
  assert (GN : good_tree c (S h) lo hi (HNode pv (hset i ([], ch2) chs))).
  { split; [auto|]. split; [auto|]. split; [rewrite hset_len; auto|].
    intros j b1 t2. rewrite hset_nth by auto. destruct (Nat.eqb_spec j i) as [->|n]; [|apply G].
    intros Q. injection Q as <- <-. split; auto. intros ? []. }
  exists (HNode pv (hset i ([], ch2) chs)), mc. split; [auto|]. split; [exact GN|].
  split; [|split; [|split; [|split; [|split; [|split]]]]]; auto.
  - pose proof (flat_set wof i ([], ch2) chs (b, ch) E) as Q1.
    pose proof (flat_set lof i ([], ch2) chs (b, ch) E) as Q2. cbn beta iota in Q1, Q2.
    unfold everything in *. cbn [waiting in_leaves].
    apply (Permutation_count_occ hmsg_dec). intros x.
    pose proof (proj1 (Permutation_count_occ hmsg_dec _ _) Q1 x) as K1.
    pose proof (proj1 (Permutation_count_occ hmsg_dec _ _) Q2 x) as K2.
    pose proof (proj1 (Permutation_count_occ hmsg_dec _ _) E3 x) as K3.
    pose proof (proj1 (Permutation_count_occ hmsg_dec _ _) E4 x) as K4.
    rewrite ?count_occ_app in *. change (count_occ hmsg_dec [] x) with 0 in K1. lia.
  - intros m I. cbn [waiting] in *. apply in_flat_map in I. destruct I as ([b1 t2] & I1 & I2).
    apply In_nth_error in I1. destruct I1 as [j N]. rewrite hset_nth in N by auto.
    apply in_flat_map. destruct (Nat.eqb j i) eqn:Ji.
    + injection N as <- <-. cbn [app] in I2. exists (b, ch). split; [eapply nth_error_In; eauto|].
      apply in_or_app. destruct (W3 m (W4 m I2)); auto.
    + exists (b1, t2). split; [eapply nth_error_In; eauto|auto].
  - cbn [pivots]. f_equal. apply (flat_set_same pof i _ chs (b, ch)); auto. congruence.
  - intros m I AB UP. cbn [waiting] in I. apply in_flat_map in I. destruct I as ([b1 t2] & I1 & I2).
    apply In_nth_error in I1. destruct I1 as [j N].
    destruct (Nat.eq_dec j i) as [->|n].
    + rewrite hset_nth, Nat.eqb_refl in N by auto. injection N as <- <-. eapply X3; eauto.
    + pose proof N as N0. rewrite hset_nth in N by auto. rewrite (proj2 (Nat.eqb_neq j i) n) in N.
      assert (Lj : j < length chs) by (apply nth_error_Some; congruence).
      destruct (G j b1 t2 N) as [G5 G6].
      assert (above c (child_lo pv lo j) (fst m) /\ upto c (fst m) (child_hi pv hi j)) as [C1 C2].
      { apply in_app_or in I2. destruct I2 as [I2|I2]; auto. eapply waiting_range; eauto. }
      destruct (Nat.lt_ge_cases j i) as [l|l].
      * unfold child_hi in C2. destruct (nth_error pv j) as [p|] eqn:Q; [|apply nth_error_None in Q; lia].
        destruct (F1 j p l Q) as (k & -> & K). cbn in *. kord ok.
      * assert (i < j) by lia. destruct j as [|j1]; [lia|]. cbn [child_lo] in C1.
        destruct (nth_error pv j1) as [p|] eqn:Q; [|apply nth_error_None in Q; lia].
        unfold child_hi in X2. destruct (nth_error pv i) as [q|] eqn:Qi; [|apply nth_error_None in Qi; lia].
        pose proof (psorted_nth_le ok pv i j1 q p SS ltac:(lia) Qi Q).
        pose proof (upto_hi_le _ _ _ UP X2). cbn in *. kord ok.
  - destruct X4 as [-> | (p & -> & I)].
    + unfold child_hi. destruct (nth_error pv i) as [p|] eqn:Q; auto. right. exists p. split; auto.
      cbn [pivots]. apply in_or_app. left. eapply nth_error_In; eauto.
    + right. exists p. split; auto. cbn [pivots]. apply in_or_app. right. apply in_flat_map.
      exists (b, ch). split; [eapply nth_error_In; eauto|]. congruence.
Qed.
End HopProofs.
