(** C60: the kibbutz does every job once, in order, loses no wake-up and shuts down. *)
From Coq Require Import Permutation.
From Verif Require Import Base KibModel.

(** ** Specification *)

(** The jobs workers are at. *)
Fixpoint running (w : list wst) : list nat :=
  match w with [] => [] | WRun j :: r => j :: running r | _ :: r => running r end.
Definition awake (s : kib) : Prop := In WAwake (k_w s).
Definition sleeper (s : kib) : Prop := In WSleep (k_w s).
Definition busy (s : kib) : Prop := exists j, In (WRun j) (k_w s).

(** ** Lemmas *)
Lemma wset_nth w : forall i x j y, nth_error w i = Some y -> nth_error (wset w i x) j = if j =? i then Some x else nth_error w j.
Proof. induction w as [|a w IH]; intros [|i] x [|j] y E; cbn in *; try discriminate; auto. eapply IH; eauto. Qed.
Lemma wset_in w i x y z : nth_error w i = Some y -> In z (wset w i x) -> z = x \/ In z w.
Proof.
  intros E J. apply In_nth_error in J. destruct J as [j J]. rewrite (wset_nth w i x j y E) in J.
  destruct (j =? i); [injection J as <-; auto|]. right. eapply nth_error_In; eauto.
Qed.
Lemma wset_new w i x y : nth_error w i = Some y -> In x (wset w i x).
Proof. intros E. apply nth_error_In with (n := i). rewrite (wset_nth w i x i y E), Nat.eqb_refl. auto. Qed.
Lemma wset_keep w i x y z : nth_error w i = Some y -> In z w -> z <> y -> In z (wset w i x).
Proof.
  intros E J N. apply In_nth_error in J. destruct J as [j J]. apply nth_error_In with (n := j). rewrite (wset_nth w i x j y E).
  destruct (Nat.eqb_spec j i) as [H|H]; auto. subst. congruence.
Qed.
Lemma wset_len w : forall i x, length (wset w i x) = length w.
Proof. induction w as [|a w IH]; intros [|i] x; cbn; auto. Qed.
Lemma running_set w : forall i x y, nth_error w i = Some y ->
  Permutation (running (wset w i x) ++ running [y]) (running w ++ running [x]).
Proof.
  induction w as [|a w IH]; intros [|i] x y E; cbn [nth_error wset] in *; try discriminate.
  - injection E as ->. change (running (x :: w)) with (running ([x] ++ w)). change (running (y :: w)) with (running ([y] ++ w)).
    assert (A : forall u v, running (u ++ v) = running u ++ running v).
    { induction u as [|[] u IHu]; intros v; cbn; auto. f_equal. auto. }
    rewrite !A. rewrite Permutation_app_comm. rewrite app_assoc, <- !app_assoc. apply Permutation_app_head, Permutation_app_comm.
  - specialize (IH i x y E). destruct a; cbn [running]; auto. cbn [app]. constructor. auto.
Qed.

Lemma signal_spec w c w1 : ksignal w c = Some w1 ->
  (w1 = w /\ ~ In WSleep w) \/ (exists i, nth_error w i = Some WSleep /\ w1 = wset w i WAwake).
Proof.
  unfold ksignal. destruct c as [i|].
  - destruct (nth_error w i) as [[]|] eqn:E; try discriminate. intros H. injection H as <-. eauto.
  - destruct (existsb asleep w) eqn:X; [discriminate|]. intros H. injection H as <-. left. split; auto.
    intros J. assert (existsb asleep w = true); [|congruence]. apply existsb_exists. exists WSleep. auto.
Qed.
Lemma signal_running w c w1 : ksignal w c = Some w1 -> Permutation (running w1) (running w).
Proof.
  intros H. destruct (signal_spec w c w1 H) as [[-> _]|(i & E & ->)]; auto.
  pose proof (running_set w i WAwake WSleep E) as P. cbn [running] in P. rewrite !app_nil_r in P. auto.
Qed.
Lemma signal_len w c w1 : ksignal w c = Some w1 -> length w1 = length w.
Proof. intros H. destruct (signal_spec w c w1 H) as [[-> _]|(i & E & ->)]; auto. apply wset_len. Qed.
Lemma signal_some w c w1 : ksignal w c = Some w1 -> In WAwake w1 \/ ~ In WSleep w1.
Proof. intros H. destruct (signal_spec w c w1 H) as [[-> X]|(i & E & ->)]; auto. left. eapply wset_new; eauto. Qed.
Lemma signal_keep w c w1 x : ksignal w c = Some w1 -> x <> WSleep -> In x w -> In x w1.
Proof. intros H N J. destruct (signal_spec w c w1 H) as [[-> _]|(i & E & ->)]; auto. eapply wset_keep; eauto. Qed.
Lemma signal_done w c w1 : ksignal w c = Some w1 -> In WDone w1 -> In WDone w.
Proof. intros H J. destruct (signal_spec w c w1 H) as [[-> _]|(i & E & ->)]; auto. eapply wset_in in J; eauto. destruct J; [discriminate|auto]. Qed.

Record kinv (n : nat) (s : kib) : Prop := {
  ki_len : length (k_w s) = n;
  ki_order : k_start s ++ k_q s = k_enq s;
  ki_jobs : Permutation (k_fin s ++ running (k_w s)) (k_start s);
  ki_work : k_q s <> [] -> In WAwake (k_w s) \/ ~ In WSleep (k_w s);
  ki_shut : k_shut s = true -> In WAwake (k_w s) \/ (exists j, In (WRun j) (k_w s)) \/ ~ In WSleep (k_w s);
  ki_done : In WDone (k_w s) -> k_q s = [] /\ k_shut s = true }.

Lemma init_kinv n : kinv n (kib_init n).
Proof.
  split; cbn; auto; try discriminate; try congruence.
  - apply repeat_length.
  - induction n; cbn; auto.
  - intros J. apply repeat_spec in J. discriminate.
Qed.

Lemma step_kinv n s e s1 : kinv n s -> kstep s e = Some s1 -> kinv n s1.
Proof.
  intros [I1 I2 I3 I4 I5 I6] X. destruct e as [j c|c|i c|i|i]; cbn [kstep] in X.
  - destruct (negb (k_shut s)) eqn:N; [|discriminate]. destruct (ksignal (k_w s) c) as [w|] eqn:G; [|discriminate]. injection X as <-.
    apply negb_true_iff in N. split; cbn [k_w k_q k_shut k_enq k_start k_fin].
    + rewrite (signal_len _ _ _ G). auto.
    + rewrite app_assoc, I2. auto.
    + rewrite (signal_running _ _ _ G). auto.
    + intros _. eapply signal_some; eauto.
    + congruence.
    + intros J. apply (signal_done _ _ _ G) in J. destruct (I6 J). congruence.
  - destruct (negb (k_shut s)) eqn:N; [|discriminate]. destruct (ksignal (k_w s) c) as [w|] eqn:G; [|discriminate]. injection X as <-.
    apply negb_true_iff in N. split; cbn [k_w k_q k_shut k_enq k_start k_fin]; auto.
    + rewrite (signal_len _ _ _ G). auto.
    + rewrite (signal_running _ _ _ G). auto.
    + intros _. eapply signal_some; eauto.
    + intros _. destruct (signal_some _ _ _ G); auto.
    + intros J. apply (signal_done _ _ _ G) in J. destruct (I6 J). congruence.
  - destruct (nth_error (k_w s) i) as [[]|] eqn:E; try discriminate. destruct (k_q s) as [|j q] eqn:Q.
    + rewrite app_nil_r in I2. destruct (k_shut s) eqn:SH.
      * destruct (ksignal (wset (k_w s) i WDone) c) as [w|] eqn:G; [|discriminate]. injection X as <-.
        split; cbn [k_w k_q k_shut k_enq k_start k_fin]; auto; try congruence.
        -- rewrite (signal_len _ _ _ G), wset_len. auto.
        -- rewrite app_nil_r. auto.
        -- rewrite (signal_running _ _ _ G). pose proof (running_set _ _ WDone _ E) as P. cbn [running] in P. rewrite !app_nil_r in P. rewrite P. auto.
        -- intros _. destruct (signal_some _ _ _ G); auto.
      * destruct c; [discriminate|]. injection X as <-. split; cbn [k_w k_q k_shut k_enq k_start k_fin]; auto; try congruence.
        -- rewrite wset_len. auto.
        -- rewrite app_nil_r. auto.
        -- pose proof (running_set _ _ WSleep _ E) as P. cbn [running] in P. rewrite !app_nil_r in P. rewrite P. auto.
        -- intros J. eapply wset_in in J; eauto. destruct J as [J|J]; [discriminate|]. destruct (I6 J). congruence.
    + assert (RP : Permutation (running (wset (k_w s) i (WRun j))) (running (k_w s) ++ [j])).
      { pose proof (running_set _ _ (WRun j) _ E) as P. cbn [running] in P. rewrite app_nil_r in P. auto. }
      assert (NR : In (WRun j) (wset (k_w s) i (WRun j))) by (eapply wset_new; eauto).
      assert (ND : ~ In WDone (k_w s)) by (intros J; destruct (I6 J); discriminate).
      assert (exists w1, s1 = mkKib q (k_shut s) w1 (k_enq s) (k_start s ++ [j]) (k_fin s) /\ length w1 = n /\
        Permutation (running w1) (running (k_w s) ++ [j]) /\ In (WRun j) w1 /\ ~ In WDone w1 /\ (q <> [] -> In WAwake w1 \/ ~ In WSleep w1))
        as (w1 & -> & W1 & W2 & W3 & W4 & W5).
      { assert (ND2 : ~ In WDone (wset (k_w s) i (WRun j))) by (intros J; eapply wset_in in J; eauto; destruct J; [discriminate|auto]).
        destruct q as [|j2 q].
        - destruct c; [discriminate|]. injection X as <-. eexists. split; [reflexivity|]. rewrite wset_len. repeat (split; auto); try congruence.
        - destruct (ksignal _ c) as [w|] eqn:G; [|discriminate]. injection X as <-. exists w. split; [reflexivity|].
          rewrite (signal_len _ _ _ G), wset_len. split; auto. split; [rewrite (signal_running _ _ _ G); auto|].
          split; [apply (signal_keep _ _ _ _ G); auto; discriminate|]. split; [intros J; apply (signal_done _ _ _ G) in J; auto|].
          intros _. eapply signal_some; eauto. }
      split; cbn [k_w k_q k_shut k_enq k_start k_fin]; auto.
      * rewrite <- app_assoc. auto.
      * rewrite W2, app_assoc. apply Permutation_app_tail. auto.
      * intros _. right. left. eauto.
      * intros J. contradiction.
  - destruct (nth_error (k_w s) i) as [[| |j|]|] eqn:E; try discriminate. injection X as <-.
    assert (A : In WAwake (wset (k_w s) i WAwake)) by (eapply wset_new; eauto).
    split; cbn [k_w k_q k_shut k_enq k_start k_fin]; auto.
    + rewrite wset_len. auto.
    + pose proof (running_set _ _ WAwake _ E) as P. cbn [running] in P. rewrite app_nil_r in P.
      rewrite <- I3, <- app_assoc. apply Permutation_app_head. rewrite <- P. apply Permutation_app_comm.
    + intros J. eapply wset_in in J; eauto. destruct J as [J|J]; [discriminate|auto].
  - destruct (nth_error (k_w s) i) as [[| |j|]|] eqn:E; try discriminate. injection X as <-.
    assert (A : In WAwake (wset (k_w s) i WAwake)) by (eapply wset_new; eauto).
    split; cbn [k_w k_q k_shut k_enq k_start k_fin]; auto.
    + rewrite wset_len. auto.
    + pose proof (running_set _ _ WAwake _ E) as P. cbn [running] in P. rewrite !app_nil_r in P. rewrite P. auto.
    + intros J. eapply wset_in in J; eauto. destruct J as [J|J]; [discriminate|auto].
Qed.
Lemma run_kinv n es : forall s s1, kinv n s -> krun s es = Some s1 -> kinv n s1.
Proof.
  induction es as [|e es IH]; intros s s1 I X; cbn [krun] in X; [injection X as <-; auto|].
  destruct (kstep s e) as [s2|] eqn:E; [|discriminate]. apply (IH s2); auto. eapply step_kinv; eauto.
Qed.

(** ** The theorems *)

(** Jobs begin in the order in which they were enqueued; each is still queued, being
    done by one worker, or finished. *)
Theorem C60_fifo_once : forall n es s, krun (kib_init n) es = Some s ->
  k_start s ++ k_q s = k_enq s /\ Permutation (k_fin s ++ running (k_w s)) (k_start s).
Proof. intros n es s X. destruct (run_kinv n es _ s (init_kinv n) X). auto. Qed.
Print Assumptions C60_fifo_once.

(** No lost wake-up: while a job waits, a worker is on its way to take it, or none sleeps. *)
Theorem C60_no_lost_wakeup : forall n es s, krun (kib_init n) es = Some s -> k_q s <> [] -> awake s \/ ~ sleeper s.
Proof. intros n es s X. destruct (run_kinv n es _ s (init_kinv n) X). auto. Qed.
Print Assumptions C60_no_lost_wakeup.

Lemma in_awake_moves s : awake s -> exists i c s1, kstep s (KLoop i c) = Some s1.
Proof.
  intros A. apply In_nth_error in A. destruct A as [i E]. exists i.
  assert (SG : forall w, exists c w1, ksignal w c = Some w1).
  { intros w. destruct (existsb asleep w) eqn:B.
    - apply existsb_exists in B. destruct B as (x & J & B). destruct x; try discriminate. apply In_nth_error in J. destruct J as [j J].
      exists (Some j), (wset w j WAwake). cbn [ksignal]. rewrite J. auto.
    - exists None, w. cbn [ksignal]. rewrite B. auto. }
  cbn [kstep]. rewrite E. destruct (k_q s) as [|j q] eqn:Q.
  - destruct (k_shut s).
    + destruct (SG (wset (k_w s) i WDone)) as (c & w1 & G). exists c. rewrite G. eauto.
    + exists None. eauto.
  - destruct q as [|j2 q].
    + exists None. eauto.
    + destruct (SG (wset (k_w s) i (WRun j))) as (c & w1 & G). exists c. rewrite G. eauto.
Qed.

(** Shutting down cannot get stuck: as long as a worker has not returned, one that is
    awake or at a job goes on; and once all have, every job enqueued has been done. *)
Theorem C60_shutdown : forall n es s, krun (kib_init n) es = Some s -> k_shut s = true ->
  (all_joined s \/ (exists i c s1, kstep s (KLoop i c) = Some s1) \/ busy s) /\
  (n > 0 -> all_joined s -> Permutation (k_fin s) (k_enq s)).
Proof.
  intros n es s X SH. destruct (run_kinv n es _ s (init_kinv n) X) as [I1 I2 I3 I4 I5 I6]. split.
  - destruct (I5 SH) as [A|[A|A]]; [right; left; apply in_awake_moves; auto|right; right; exact A|].
    destruct (in_dec (fun a b : wst => ltac:(decide equality; apply Nat.eq_dec)) WAwake (k_w s)) as [Y|Y]; [right; left; apply in_awake_moves; auto|].
    destruct (running (k_w s)) as [|j r] eqn:R.
    + left. apply Forall_forall. intros x J. destruct x; auto; try contradiction.
      exfalso. clear - R J. induction (k_w s) as [|a w IH]; [auto|]. destruct J as [->|J]; [discriminate|]. destruct a; cbn in R; try discriminate; auto.
    + right. right. exists j. assert (K : In j (running (k_w s))) by (rewrite R; left; auto). clear - K.
      induction (k_w s) as [|a w IH]; cbn in K; [contradiction|]. destruct a; try (right; apply IH; auto; fail).
      destruct K as [->|K]; [left|right]; auto.
  - intros L J. unfold all_joined in J. destruct (k_w s) as [|x w] eqn:W; [cbn in I1; lia|]. inversion J as [|? ? J0 J1]; subst x.
    destruct (I6 (or_introl eq_refl)) as [Q _]. rewrite Q, app_nil_r in I2. rewrite <- I2, <- I3.
    assert (running (WDone :: w) = []) as ->.
    { cbn. clear - J1. induction w as [|a w IH]; auto. inversion J1; subst. cbn. auto. }
    rewrite app_nil_r. auto.
Qed.
Print Assumptions C60_shutdown.

(** And it ends: after shutdown the workers' steps are bounded, whatever order they are
    taken in, by the jobs and workers left and the wake-ups nobody asked for. *)
Definition wcost (x : wst) : nat := match x with WAwake => 2 | WSleep => 1 | WRun _ => 3 | WDone => 0 end.
Fixpoint wsum (w : list wst) : nat := match w with [] => 0 | x :: r => wcost x + wsum r end.
Lemma wsum_set w : forall i x y, nth_error w i = Some y -> wsum (wset w i x) + wcost y = wsum w + wcost x.
Proof. induction w as [|a w IH]; intros [|i] x y E; cbn [nth_error wset wsum] in *; try discriminate; [injection E as ->; lia|]. specialize (IH i x y E). lia. Qed.
Lemma wsum_bound w : wsum w <= 3 * length w.
Proof. induction w as [|[] w IH]; cbn [wsum wcost length] in *; lia. Qed.
Lemma wsum_signal w c w1 : ksignal w c = Some w1 -> wsum w1 <= S (wsum w).
Proof.
  intros H. destruct (signal_spec w c w1 H) as [[-> _]|(i & E & ->)]; [lia|]. pose proof (wsum_set w i WAwake _ E) as P. cbn [wcost] in P. lia.
Qed.
Definition spurious (e : kev) : bool := match e with KSpur _ => true | _ => false end.

Theorem C60_shutdown_ends : forall n es s es2 s2,
  krun (kib_init n) es = Some s -> k_shut s = true -> krun s es2 = Some s2 ->
  length es2 <= 3 * length (k_q s) + 3 * n + 2 * length (filter spurious es2).
Proof.
  intros n es s es2 s2 X SH Y. destruct (run_kinv n es _ s (init_kinv n) X) as [I1 _ _ _ _ _].
  pose proof (wsum_bound (k_w s)) as B. rewrite I1 in B. clear X I1 es.
  cut (length es2 <= 3 * length (k_q s) + wsum (k_w s) + 2 * length (filter spurious es2)); [lia|]. clear B n.
  revert s SH Y. induction es2 as [|e es2 IH]; intros s SH Y; cbn [krun] in Y; [cbn; lia|].
  destruct (kstep s e) as [s1|] eqn:E; [|discriminate].
  assert (K : k_shut s1 = true /\ 1 + 3 * length (k_q s1) + wsum (k_w s1) <= 3 * length (k_q s) + wsum (k_w s) + 2 * length (filter spurious [e])).
  { destruct e as [j c|c|i c|i|i]; cbn [kstep] in E; rewrite ?SH in E; cbn [negb] in E; try discriminate; cbn [filter spurious length].
    - destruct (nth_error (k_w s) i) as [[]|] eqn:N; try discriminate. destruct (k_q s) as [|j q] eqn:Q.
      + destruct (ksignal _ c) as [w|] eqn:G; [|discriminate]. injection E as <-. cbn [k_shut k_q k_w length]. split; auto.
        apply wsum_signal in G. pose proof (wsum_set _ _ WDone _ N) as P. cbn [wcost] in P. lia.
      + pose proof (wsum_set _ _ (WRun j) _ N) as P. cbn [wcost] in P. destruct q as [|j2 q].
        * destruct c; [discriminate|]. injection E as <-. cbn [k_shut k_q k_w length]. split; auto. lia.
        * destruct (ksignal _ c) as [w|] eqn:G; [|discriminate]. injection E as <-. cbn [k_shut k_q k_w length]. split; auto.
          apply wsum_signal in G. lia.
    - destruct (nth_error (k_w s) i) as [[| |j|]|] eqn:N; try discriminate. injection E as <-. cbn [k_shut k_q k_w length]. split; auto.
      pose proof (wsum_set _ _ WAwake _ N) as P. cbn [wcost] in P. lia.
    - destruct (nth_error (k_w s) i) as [[| |j|]|] eqn:N; try discriminate. injection E as <-. cbn [k_shut k_q k_w length]. split; auto.
      pose proof (wsum_set _ _ WAwake _ N) as P. cbn [wcost] in P. lia. }
  destruct K as [K1 K2]. specialize (IH s1 K1 Y). cbn [filter length] in *. destruct (spurious e); cbn [length] in *; lia.
Qed.
Print Assumptions C60_shutdown_ends.

(** Two workers fall asleep; three jobs come, one wake-up is passed on, and shutting down
    with a job queued does the job first. *)
Definition c60_es : list kev :=
  [KLoop 0 None; KLoop 1 None; KEnq 10 (Some 1); KEnq 20 (Some 0); KLoop 1 None; KLoop 0 None; KEnq 30 None;
   KFinish 1; KShut None; KLoop 1 None; KFinish 0; KLoop 0 None; KFinish 1; KLoop 1 None].
Example c60_ex : exists s, krun (kib_init 2) c60_es = Some s /\ k_shut s = true /\ all_joined s /\ k_fin s = [10; 20; 30].
Proof. eexists. split; [vm_compute; reflexivity|]. repeat split. repeat constructor. Qed.
Example c60_ex_sleep : exists s, krun (kib_init 2) [KLoop 0 None; KLoop 1 None; KEnq 10 (Some 1); KEnq 20 (Some 0)] = Some s /\ k_q s = [10; 20] /\ awake s.
Proof. eexists. split; [vm_compute; reflexivity|]. split; auto. left. auto. Qed.
