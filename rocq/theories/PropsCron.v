(** C61: minicron. *)
From Coq Require Import ZArith.
From Verif Require Import Base CronModel.
Local Open Scope Z_scope.

(** ** Specification *)

(** Periods in whole seconds, or at most one second: all but the fsync period. *)
Definition whole (p : Z) : Prop := 0 <= p <= 1000 \/ (p mod 1000 = 0 /\ 0 <= p).
Definition ev_whole (e : cev) : Prop := match e with EPeriod p => whole p | _ => True end.
(** When the last call with a period above one second began (or when it was set up). *)
Fixpoint base (t0 : Z) (log : list (Z * Z)) : Z :=
  match log with [] => t0 | (t, p) :: r => if 1000 <? p then t else base t0 r end.
(** Calls are a period apart, from begin to begin. *)
Fixpoint spaced (t0 : Z) (log : list (Z * Z)) : Prop :=
  match log with [] => True | (t, p) :: r => (1000 < p -> base t0 r + p * 1000 <= t) /\ spaced t0 r end.

(** ** Lemmas *)
Lemma due_whole t p : p mod 1000 = 0 -> due (gettime t) p = gettime (t + p * 1000).
Proof.
  intros M. unfold due, gettime. cbn [fst snd].
  pose proof (Z.div_mod p 1000 ltac:(lia)) as D. rewrite M in D.
  assert (E : p * 1000 = p / 1000 * 1000000) by lia.
  rewrite E, Z.div_add, Z.mod_add, M by lia. f_equal; lia.
Qed.
Lemma gettime_valid t : ts_valid (gettime t) = true.
Proof.
  unfold ts_valid, gettime. cbn [snd]. pose proof (Z.mod_pos_bound t 1000000 ltac:(lia)) as B.
  rewrite (proj2 (Z.leb_le _ _)), (proj2 (Z.ltb_lt _ _)) by lia. auto.
Qed.
Lemma compare_gettime a b : ts_compare (gettime a) (gettime b) = (a ?= b).
Proof.
  unfold ts_compare, gettime. cbn [fst snd].
  pose proof (Z.div_mod a 1000000 ltac:(lia)) as A. pose proof (Z.mod_pos_bound a 1000000 ltac:(lia)) as A2.
  pose proof (Z.div_mod b 1000000 ltac:(lia)) as B. pose proof (Z.mod_pos_bound b 1000000 ltac:(lia)) as B2.
  destruct (Z.compare_spec (a / 1000000) (b / 1000000)) as [E|E|E].
  - destruct (Z.compare_spec (a mod 1000000 * 1000) (b mod 1000000 * 1000)) as [F|F|F]; symmetry.
    + apply Z.compare_eq_iff. lia.
    + apply Z.compare_lt_iff. lia.
    + apply Z.compare_gt_iff. lia.
  - symmetry. apply Z.compare_lt_iff. nia.
  - symmetry. apply Z.compare_gt_iff. nia.
Qed.

Record cinv (s : cron) : Prop := {
  ci_whole : whole (c_period s);
  ci_last : c_last s = gettime (base (c_t0 s) (c_log s));
  ci_nobug : c_pc s <> CBug;
  ci_timed : forall w, c_pc s = CTimed w -> 1000 < c_period s /\ w = gettime (base (c_t0 s) (c_log s) + c_period s * 1000);
  ci_shut : c_shut s = true -> c_pc s <> CCond /\ forall w, c_pc s <> CTimed w;
  ci_spaced : spaced (c_t0 s) (c_log s) }.

Lemma setup_cinv t p : whole p -> cinv (cron_setup t p).
Proof. intros W. split; cbn; auto; discriminate. Qed.

Lemma whole_big p : whole p -> 1000 < p -> p mod 1000 = 0.
Proof. intros [H|[H _]] L; auto; lia. Qed.

Lemma step_cinv s e s1 : cinv s -> ev_whole e -> cstep s e = Some s1 -> cinv s1.
Proof.
  intros [I1 I2 I3 I4 I5 I6] EW X. destruct e as [d| | |d| |p|]; cbn [cstep] in X.
  - destruct (0 <=? d); [|discriminate]. injection X as <-. split; cbn; auto.
  - destruct (c_pc s) eqn:P; try discriminate. destruct (c_shut s) eqn:SH; [injection X as <-; split; cbn; auto; try discriminate; try (intros; split; discriminate)|].
    destruct (c_period s =? 0); [injection X as <-; split; cbn; auto; try discriminate; congruence|].
    destruct (Z.leb_spec (c_period s) 1000) as [L|L]; [injection X as <-; split; cbn; auto; try discriminate; congruence|].
    cbn zeta in X. rewrite I2, (due_whole _ _ (whole_big _ I1 L)), gettime_valid, compare_gettime in X.
    destruct (_ ?= _); injection X as <-; split; cbn; auto; try discriminate; try congruence.
    intros w E. injection E as <-. auto.
  - destruct (c_pc s) eqn:P; try discriminate; try (injection X as <-; split; cbn; auto; try discriminate; try (intros; split; discriminate); fail).
    destruct (until <=? c_now s); [|discriminate]. injection X as <-. split; cbn; auto; try discriminate; intros; split; discriminate.
  - destruct (c_pc s) eqn:P; try discriminate. destruct (Z.leb_spec 0 d) as [D|]; [|discriminate].
    destruct (c_shut s) eqn:SH; [injection X as <-; split; cbn; auto; try discriminate; intros; split; discriminate|].
    destruct (Z.ltb_spec 1000 (c_period s)) as [L|L].
    + rewrite I2, (due_whole _ _ (whole_big _ I1 L)), compare_gettime in X.
      assert (K : base (c_t0 s) (c_log s) + c_period s * 1000 <= c_now s ->
        cinv (mkCron CCall (gettime (c_now s + d)) (c_period s) false (c_now s + d) (c_t0 s) ((c_now s + d, c_period s) :: c_log s) (c_fin s))).
      { intros H. split; cbn [c_pc c_last c_period c_shut c_now c_t0 c_log c_fin]; auto; try discriminate.
        - cbn [base]. rewrite (proj2 (Z.ltb_lt 1000 (c_period s)) L). auto.
        - cbn [spaced]. split; auto. intros _. lia. }
      destruct (Z.compare_spec (base (c_t0 s) (c_log s) + c_period s * 1000) (c_now s)); injection X as <-; try (apply K; lia).
      split; cbn; auto; try discriminate; intros; split; discriminate.
    + destruct (c_period s =? 0); injection X as <-; split; cbn [with_pc c_pc c_last c_period c_shut c_now c_t0 c_log c_fin]; auto; try discriminate; try congruence.
      * cbn [base]. rewrite (proj2 (Z.ltb_ge 1000 (c_period s)) L). auto.
      * cbn [spaced]. split; auto. lia.
  - destruct (c_pc s) eqn:P; try discriminate. injection X as <-. split; cbn; auto; try discriminate; intros; split; discriminate.
  - destruct (0 <=? p) eqn:Z0; [|discriminate]. injection X as <-. split; cbn [c_pc c_last c_period c_shut c_now c_t0 c_log c_fin]; auto.
    + destruct (c_pc s); cbn; congruence.
    + intros w E. destruct (c_pc s); discriminate.
    + intros _. destruct (c_pc s); cbn; split; discriminate.
  - destruct (negb (c_shut s)); [|discriminate]. injection X as <-. split; cbn [c_pc c_last c_period c_shut c_now c_t0 c_log c_fin]; auto.
    + destruct (c_pc s); cbn; congruence.
    + intros w E. destruct (c_pc s); discriminate.
    + intros _. destruct (c_pc s); cbn; split; discriminate.
Qed.
Lemma run_cinv es : forall s s1, cinv s -> Forall ev_whole es -> crun s es = Some s1 -> cinv s1.
Proof.
  induction es as [|e es IH]; intros s s1 I W X; cbn [crun] in X; [injection X as <-; auto|]. inversion W; subst.
  destruct (cstep s e) as [s2|] eqn:E; [|discriminate]. apply (IH s2); auto. eapply step_cinv; eauto.
Qed.

(** ** The theorems *)

(** With periods of whole seconds or at most one second: the thread does not abort; it
    waits for the last call's begin plus the period of now, so a changed period counts
    at once; and calls with a period above a second begin at least a period after the
    begin of the one before. *)
Theorem C61_periodic_partial : forall t p es s, whole p -> Forall ev_whole es -> crun (cron_setup t p) es = Some s ->
  c_pc s <> CBug /\
  (forall w, c_pc s = CTimed w -> w = gettime (base t (c_log s) + c_period s * 1000)) /\
  spaced t (c_log s).
Proof.
  intros t p es s W F X. destruct (run_cinv es _ s (setup_cinv t p W) F X) as [I1 I2 I3 I4 I5 I6].
  assert (T : c_t0 s = t).
  { change t with (c_t0 (cron_setup t p)). clear - X. revert X. generalize (cron_setup t p). induction es as [|e es IH]; intros c X; cbn [crun] in X; [injection X as <-; auto|].
    destruct (cstep c e) as [c2|] eqn:E; [|discriminate]. rewrite (IH c2 X). clear - E.
    destruct e; cbn [cstep] in E; destruct (c_pc c); cbn zeta in E; unfold with_pc in E;
      repeat match type of E with context [match ?b with _ => _ end] => destruct b end; try discriminate; injection E as <-; reflexivity. }
  rewrite T in *. split; auto. split; auto. intros w E. apply I4; auto.
Qed.
Print Assumptions C61_periodic_partial.

(** With other periods it aborts: DB_ENV->change_fsync_log_period(1500), 0.7 seconds
    past a full second. *)
Theorem C61_periodic_refuted : exists t p es s, 0 <= p /\ crun (cron_setup t p) es = Some s /\ c_pc s = CBug.
Proof. exists 700000, 1500, [ETop]. eexists. split; [lia|]. split; [vm_compute; reflexivity|]. reflexivity. Qed.
Print Assumptions C61_periodic_refuted.
(** Or it calls early: set up 0.7 seconds past a second with 1500 ms, held up until
    1.3 seconds later, it calls although 0.2 seconds are missing. *)
Theorem C61_early_refuted : exists t p es s r, 1000 < p /\ crun (cron_setup t p) es = Some s /\
  c_log s = (r, p) :: nil /\ r < t + p * 1000.
Proof. exists 700000, 1500, [ETick 1300000; ETop; EWoke 0]. eexists. exists 2000000. split; [lia|]. split; [vm_compute; reflexivity|]. split; [reflexivity|]. lia. Qed.
Print Assumptions C61_early_refuted.

(** minicron.h: "The period is measured from when the previous call to f finishes to
    when the new call starts."  It is measured from its begin: *)
Theorem C61_from_finish_refuted : exists p es s r, whole p /\ Forall ev_whole es /\ crun (cron_setup 0 p) es = Some s /\
  c_pc s = CCall /\ hd_error (c_log s) = Some (r, p) /\ r < c_fin s + p * 1000.
Proof.
  exists 2000, [ETop; ETick 2000000; EWake; EWoke 0; ETick 1500000; ERet; ETop; ETick 500000; EWake; EWoke 0]. eexists. exists 4000000.
  split; [right; split; [reflexivity|lia]|]. split; [repeat constructor|]. split; [vm_compute; reflexivity|]. repeat split.
Qed.
Print Assumptions C61_from_finish_refuted.
(** "The time since f finished is applied to the new period": not when the old period
    was at most a second; [f] is called at once. *)
Theorem C61_change_refuted : exists p p1 es s r r1, whole p /\ Forall ev_whole es /\ crun (cron_setup 0 p) es = Some s /\
  c_log s = (r1, p1) :: (r, p) :: nil /\ p1 = 2000 /\ r1 = c_fin s.
Proof.
  exists 1000, 2000, [ETop; ETick 1000000; EWake; EWoke 0; ETick 1000000; ERet; EPeriod 2000; ETop; EWoke 0]. eexists. exists 1000000, 2000000.
  split; [left; lia|]. split; [repeat apply Forall_cons; try exact Logic.I; [right; split; [reflexivity|lia]|apply Forall_nil]|]. split; [vm_compute; reflexivity|]. repeat split.
Qed.
Print Assumptions C61_change_refuted.

(** Shutdown is not lost, whatever the periods: once it has been asked for the thread
    waits on no condition, and it begins no call: from wherever it is it comes to its
    end, after the call or the sleep (at most a second) it is in. *)
Theorem C61_shutdown : forall t p es s, crun (cron_setup t p) es = Some s -> c_shut s = true ->
  match c_pc s with
  | CCond | CTimed _ => False
  | CTop => exists s1, cstep s ETop = Some s1 /\ c_pc s1 = CExit
  | CWoke => exists s1, cstep s (EWoke 0) = Some s1 /\ c_pc s1 = CExit
  | CUsleep u => u <= c_now s + 1000000 /\ (u <= c_now s -> exists s1, crun s [EWake; EWoke 0] = Some s1 /\ c_pc s1 = CExit)
  | CCall => exists s1, crun s [ERet; ETop] = Some s1 /\ c_pc s1 = CExit
  | CExit | CBug => True
  end /\ forall e s1, cstep s e = Some s1 -> c_shut s1 = true /\ c_log s1 = c_log s.
Proof.
  intros t p es s X SH.
  assert (K : (c_shut s = true -> c_pc s <> CCond /\ forall w, c_pc s <> CTimed w) /\ (forall u, c_pc s = CUsleep u -> u <= c_now s + 1000000)).
  { assert (K0 : (c_shut (cron_setup t p) = true -> c_pc (cron_setup t p) <> CCond /\ forall w, c_pc (cron_setup t p) <> CTimed w) /\
      (forall u, c_pc (cron_setup t p) = CUsleep u -> u <= c_now (cron_setup t p) + 1000000)) by (split; cbn; discriminate).
    clear SH. revert X K0. generalize (cron_setup t p). induction es as [|e es IH]; intros c X K0; cbn [crun] in X; [injection X as <-; auto|].
    destruct (cstep c e) as [c2|] eqn:E; [|discriminate]. apply (IH c2); auto. clear - E K0. destruct K0 as [K1 K2].
    destruct e as [d| | |d| |q|]; cbn [cstep] in E.
    - destruct (Z.leb_spec 0 d); [|discriminate]. injection E as <-. cbn. split; auto. intros u H1. specialize (K2 u H1). lia.
    - destruct (c_pc c) eqn:P; try discriminate. destruct (c_shut c) eqn:SH; [injection E as <-; cbn; split; [split; discriminate|discriminate]|].
      destruct (c_period c =? 0); [injection E as <-; cbn; split; [congruence|discriminate]|].
      destruct (Z.leb_spec (c_period c) 1000) as [L|L]; [injection E as <-; cbn; split; [split; discriminate|intros u H1; injection H1 as <-; lia]|].
      cbn zeta in E. destruct (ts_compare (due (c_last c) (c_period c)) (gettime (c_now c))), (ts_valid (due (c_last c) (c_period c))); injection E as <-; cbn; split; try discriminate; try congruence; split; discriminate.
    - destruct (c_pc c) eqn:P; try discriminate; try (injection E as <-; cbn; split; [split; discriminate|discriminate]).
      destruct (until <=? c_now c); [|discriminate]. injection E as <-; cbn; split; [split; discriminate|discriminate].
    - destruct (c_pc c) eqn:P; try discriminate. destruct (0 <=? d); [|discriminate].
      destruct (c_shut c), (1000 <? c_period c), (c_period c =? 0), (ts_compare (due (c_last c) (c_period c)) (gettime (c_now c))); injection E as <-; cbn; split; try discriminate; split; discriminate.
    - destruct (c_pc c) eqn:P; try discriminate. injection E as <-; cbn; split; [split; discriminate|discriminate].
    - destruct (0 <=? q); [|discriminate]. injection E as <-. cbn. split; [intros _; destruct (c_pc c); split; discriminate|].
      intros u H. apply K2. destruct (c_pc c); cbn in H; congruence.
    - destruct (negb (c_shut c)); [|discriminate]. injection E as <-. cbn. split; [intros _; destruct (c_pc c); split; discriminate|].
      intros u H. apply K2. destruct (c_pc c); cbn in H; congruence. }
  destruct K as [K1 K2]. destruct (K1 SH) as [K3 K4]. split.
  - destruct (c_pc s) eqn:P; auto.
    + eexists. cbn [cstep]. rewrite P, SH. split; reflexivity.
    + exact (K4 w eq_refl).
    + split; [apply K2; auto|]. intros L. eexists. cbn [crun cstep]. rewrite P, (proj2 (Z.leb_le _ _) L). cbn [with_pc c_pc c_shut Z.leb Z.compare]. rewrite SH. split; reflexivity.
    + eexists. cbn [cstep]. rewrite P, SH. split; reflexivity.
    + eexists. cbn [crun cstep]. rewrite P. cbn [c_pc c_shut]. rewrite SH. split; reflexivity.
  - intros e s1 E. destruct e as [d| | |d| |q|]; cbn [cstep] in E; rewrite ?SH in E; cbn [negb] in E; try discriminate.
    + destruct (0 <=? d); [|discriminate]. injection E as <-. auto.
    + destruct (c_pc s); try discriminate. injection E as <-. auto.
    + destruct (c_pc s) as [| | |u| | | |]; try discriminate; try (injection E as <-; auto). destruct (u <=? c_now s); [|discriminate]. injection E as <-. auto.
    + destruct (c_pc s); try discriminate. destruct (0 <=? d); [|discriminate]. injection E as <-. auto.
    + destruct (c_pc s); try discriminate. injection E as <-. auto.
    + destruct (0 <=? q); [|discriminate]. injection E as <-. auto.
Qed.
Print Assumptions C61_shutdown.

(** Two calls with a period of two seconds, then shutdown while it waits. *)
Example c61_ex : exists s, crun (cron_setup 5 2000)
  [ETop; ETick 2000000; EWake; EWoke 3; ERet; ETop; EWake; EWoke 0; ETop; ETick 2000000; EWake; EWoke 0; ERet; ETop; EShut; EWoke 0] = Some s /\
  c_log s = [(4000008, 2000); (2000008, 2000)] /\ c_shut s = true /\ c_pc s = CExit.
Proof. eexists. split; [vm_compute; reflexivity|]. repeat split. Qed.
