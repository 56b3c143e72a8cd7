(** C65: waiting for background jobs. *)
From Verif Require Import Base BjmModel.

(** ** Specification *)
Fixpoint jobs_in (l : list jst) : nat := match l with [] => 0 | JIn :: r => S (jobs_in r) | _ :: r => jobs_in r end.
(** A wait is under way. *)
Definition waiting (s : bjm) : Prop := exists k v, nth_error (b_wait s) k = Some v /\ v <> VRet.
(** The callers do not reset while a wait is under way. *)
Fixpoint calm (s : bjm) (es : list bev) : Prop :=
  match es with
  | [] => True
  | e :: r => (e = BReset -> ~ waiting s) /\ match bstep s e with Some s1 => calm s1 r | None => True end
  end.

(** ** Lemmas *)
Lemma jobs_app a b : jobs_in (a ++ b) = jobs_in a + jobs_in b.
Proof. induction a as [|[| |] a IH]; cbn; auto. Qed.
Lemma jobs_rem l : forall i, nth_error l i = Some JIn -> S (jobs_in (bset l i JOut)) = jobs_in l.
Proof. induction l as [|a l IH]; intros [|i] E; cbn in E; try discriminate; [injection E as ->; auto|]. cbn [bset]. specialize (IH i E). destruct a; cbn [jobs_in]; lia. Qed.
Lemma bset_nth {A} (l : list A) : forall i x j y, nth_error l i = Some y -> nth_error (bset l i x) j = if j =? i then Some x else nth_error l j.
Proof. induction l as [|a l IH]; intros [|i] x [|j] y E; cbn in *; try discriminate; auto. eapply IH; eauto. Qed.

Lemma step_num s e s1 : bstep s e = Some s1 -> b_num s = jobs_in (b_job s) -> b_num s1 = jobs_in (b_job s1).
Proof.
  unfold bstep. destruct (b_abort s); [discriminate|]. cbn [negb]. intros X H. destruct e as [|i| |k| |k].
  - destruct (b_acc s); injection X as <-; cbn [b_num b_job]; rewrite jobs_app; cbn; lia.
  - destruct (nth_error (b_job s) i) as [[| |]|] eqn:E; try discriminate. destruct (b_num s =? 0); injection X as <-; cbn [b_num b_job]; auto.
    pose proof (jobs_rem _ _ E). lia.
  - injection X as <-. auto.
  - destruct (nth_error (b_wait s) k) as [[| |]|]; try discriminate. injection X as <-. auto.
  - destruct (Nat.eqb_spec (b_num s) 0); injection X as <-; cbn [b_num b_job]; congruence.
  - destruct (nth_error (b_wait s) k) as [[| |]|]; try discriminate. injection X as <-. auto.
Qed.
Lemma run_num es : forall s s1, brun s es = Some s1 -> b_num s = jobs_in (b_job s) -> b_num s1 = jobs_in (b_job s1).
Proof.
  induction es as [|e es IH]; intros s s1 X H; cbn [brun] in X; [injection X as <-; auto|].
  destruct (bstep s e) as [s2|] eqn:E; [|discriminate]. apply (IH s2); auto. eapply step_num; eauto.
Qed.

Record binv (s : bjm) : Prop := {
  bi_acc : waiting s \/ b_ret s = true -> b_acc s = false;
  bi_ret : b_ret s = true -> b_num s = 0;
  bi_slp : forall k, nth_error (b_wait s) k = Some VSleep -> b_num s > 0 }.
Lemma step_binv s e s1 : (e = BReset -> ~ waiting s) -> bstep s e = Some s1 -> binv s -> b_abort s1 = true \/ binv s1.
Proof.
  intros C X [I1 I2 I3]. unfold bstep in X. destruct (b_abort s); [discriminate|]. cbn [negb] in X. destruct e as [|i| |k| |k].
  - right. destruct (b_acc s) eqn:A; injection X as <-; (split; cbn [b_acc b_num b_wait b_ret]; auto).
    + intros H. exfalso. assert (true = false) by (apply I1; auto). discriminate.
    + intros. lia.
  - destruct (nth_error (b_job s) i) as [[| |]|]; try discriminate. destruct (Nat.eqb_spec (b_num s) 0) as [Z|Z]; injection X as <-; [left; auto|right].
    set (w := if (b_num s - 1 =? 0) && negb (b_acc s) then map vwake (b_wait s) else b_wait s).
    assert (W : forall k v, nth_error w k = Some v -> exists u, nth_error (b_wait s) k = Some u /\ (v <> VRet -> u <> VRet) /\ (v = VSleep -> u = VSleep /\ ((b_num s - 1 =? 0) && negb (b_acc s) = false))).
    { intros k v. unfold w. destruct ((b_num s - 1 =? 0) && negb (b_acc s)) eqn:B.
      - rewrite nth_error_map. destruct (nth_error (b_wait s) k) as [u|]; cbn; [|discriminate]. intros H. injection H as <-. exists u. split; auto. split; destruct u; cbn; congruence.
      - intros H. exists v. auto. }
    split; cbn [b_acc b_num b_wait b_ret].
    + intros [(k & v & N & V)|H]; [|auto]. cbn [b_wait] in N. destruct (W k v N) as (u & U & U1 & _). apply I1. left. exists k, u. auto.
    + intros H. specialize (I2 H). lia.
    + intros k N. destruct (W k _ N) as (u & U & _ & U2). destruct (U2 eq_refl) as [-> B].
      assert (A : b_acc s = false) by (apply I1; left; exists k, VSleep; split; [auto|discriminate]). rewrite A in B. cbn [negb] in B. rewrite andb_true_r in B. apply Nat.eqb_neq in B. lia.
  - right. injection X as <-. split; cbn [b_acc b_num b_wait b_ret]; auto.
    + destruct (Nat.eqb_spec (b_num s) 0); auto.
    + intros k N. destruct (Nat.eq_dec (b_num s) 0) as [Z|Z]; [|lia]. destruct (Nat.lt_ge_cases k (length (b_wait s))) as [L|L].
      * rewrite nth_error_app1 in N by auto. eauto.
      * rewrite nth_error_app2 in N by auto. rewrite Z in N. destruct (k - length (b_wait s)) as [|[|m]]; cbn in N; discriminate.
  - destruct (nth_error (b_wait s) k) as [[| |]|] eqn:E; try discriminate. injection X as <-. right.
    assert (A : b_acc s = false) by (apply I1; left; exists k, VAwk; split; [auto|discriminate]).
    split; cbn [b_acc b_num b_wait b_ret]; auto.
    + destruct (Nat.eqb_spec (b_num s) 0); auto.
    + intros m N. rewrite (bset_nth _ _ _ _ _ E) in N. destruct (m =? k); [|eauto]. unfold vnext in N. destruct (Nat.ltb_spec 0 (b_num s)); [lia|discriminate].
  - destruct (Nat.eqb_spec (b_num s) 0) as [Z|Z]; injection X as <-; [right|left; auto].
    split; cbn [b_acc b_num b_wait b_ret]; try discriminate.
    + intros [H|H]; [|discriminate]. exfalso. apply C; auto.
    + intros k N. exfalso. apply C; auto. exists k, VSleep. split; [auto|discriminate].
  - destruct (nth_error (b_wait s) k) as [[| |]|] eqn:E; try discriminate. injection X as <-. right.
    assert (A : b_acc s = false) by (apply I1; left; exists k, VSleep; split; [auto|discriminate]).
    split; cbn [b_acc b_num b_wait b_ret]; auto.
    intros m N. rewrite (bset_nth _ _ _ _ _ E) in N. destruct (m =? k); [discriminate|eauto].
Qed.
Lemma run_binv es : forall s s1, brun s es = Some s1 -> calm s es -> binv s -> b_abort s1 = true \/ binv s1.
Proof.
  induction es as [|e es IH]; intros s s1 X C I; cbn [brun calm] in *; [injection X as <-; auto|]. destruct C as [C1 C2].
  destruct (bstep s e) as [s2|] eqn:E; [|discriminate]. destruct (step_binv s e s2 C1 E I) as [A|J].
  - left. destruct es as [|e2 es]; cbn [brun] in X; [injection X as <-; auto|]. unfold bstep in X. rewrite A in X. discriminate.
  - apply (IH s2); auto.
Qed.
Lemma init_binv : binv bjm_init.
Proof. split; cbn; auto; try discriminate. - intros [(k & v & N & _)|H]; [destruct k; discriminate|discriminate]. - intros [|k]; discriminate. Qed.

(** ** The theorems *)

(** The count is the number of jobs in; removing a job never fails its assertion; resetting
    (and destroying, whose assertion is the same) fails only while a job is in. *)
Theorem C65_count : forall es s, brun bjm_init es = Some s -> b_num s = jobs_in (b_job s) /\
  (forall i s1, bstep s (BRem i) = Some s1 -> b_abort s1 = false) /\
  (forall s1, bstep s BReset = Some s1 -> (b_abort s1 = true <-> jobs_in (b_job s) > 0)).
Proof.
  intros es s X. assert (N : b_num s = jobs_in (b_job s)) by (apply (run_num es bjm_init s X); reflexivity). split; auto. split.
  - intros i s1 Y. unfold bstep in Y. destruct (b_abort s); [discriminate|]. cbn [negb] in Y. destruct (nth_error (b_job s) i) as [[| |]|] eqn:E; try discriminate.
    pose proof (jobs_rem _ _ E). destruct (Nat.eqb_spec (b_num s) 0); [lia|]. injection Y as <-. auto.
  - intros s1 Y. unfold bstep in Y. destruct (b_abort s); [discriminate|]. cbn [negb] in Y. destruct (Nat.eqb_spec (b_num s) 0); injection Y as <-; cbn [b_abort]; split; intros; try discriminate; auto; lia.
Qed.
Print Assumptions C65_count.

(** Once a wait has returned, no job is in until the next reset. *)
Theorem C65_drained : forall es s, brun bjm_init es = Some s -> calm bjm_init es -> b_abort s = false -> b_ret s = true ->
  jobs_in (b_job s) = 0 /\ (forall s1, bstep s BAdd = Some s1 -> b_job s1 = b_job s ++ [JNo]).
Proof.
  intros es s X C A R. destruct (run_binv es _ s X C init_binv) as [H|[I1 I2 I3]]; [congruence|].
  split; [rewrite <- (run_num es bjm_init s X eq_refl); auto|]. intros s1 Y. unfold bstep in Y. rewrite A, (I1 (or_intror R)) in Y. cbn in Y. injection Y as <-. auto.
Qed.
Print Assumptions C65_drained.

(** A wait sleeps only while a job is in, none is let in meanwhile, and a woken one that
    finds none in returns. *)
Theorem C65_wait_ends : forall es s, brun bjm_init es = Some s -> calm bjm_init es -> b_abort s = false ->
  (forall k, nth_error (b_wait s) k = Some VSleep -> jobs_in (b_job s) > 0) /\
  (waiting s -> forall s1, bstep s BAdd = Some s1 -> b_job s1 = b_job s ++ [JNo]) /\
  (forall k, nth_error (b_wait s) k = Some VAwk -> jobs_in (b_job s) = 0 -> exists s1, bstep s (BGo k) = Some s1 /\ nth_error (b_wait s1) k = Some VRet /\ b_ret s1 = true).
Proof.
  intros es s X C A. destruct (run_binv es _ s X C init_binv) as [H|[I1 I2 I3]]; [congruence|]. pose proof (run_num es bjm_init s X eq_refl) as N.
  rewrite <- N. split; [auto|]. split.
  - intros W s1 Y. unfold bstep in Y. rewrite A, (I1 (or_introl W)) in Y. cbn in Y. injection Y as <-. auto.
  - intros k E Z. unfold bstep. rewrite A, E, Z. cbn. eexists. split; [reflexivity|]. cbn [b_wait b_ret]. rewrite (bset_nth _ _ _ _ _ E), Nat.eqb_refl. auto.
Qed.
Print Assumptions C65_wait_ends.

(** Without the hypothesis on resets a wait can be left asleep although no job is in: a
    reset and a new job come between its wake-up and its lock; when that job goes, jobs
    are accepted, so nobody broadcasts. *)
Theorem C65_reset_refuted : exists es s, brun bjm_init es = Some s /\ b_abort s = false /\ nth_error (b_wait s) 0 = Some VSleep /\ jobs_in (b_job s) = 0.
Proof. exists [BAdd; BWait; BRem 0; BReset; BAdd; BGo 0; BRem 1]. eexists. split; [vm_compute; reflexivity|]. split; [|split]; reflexivity. Qed.
Print Assumptions C65_reset_refuted.

(** Two jobs, a wait, a refused job, the wait returns; reset and again. *)
Definition c65_es : list bev := [BAdd; BAdd; BWait; BAdd; BRem 1; BRem 0; BGo 0; BReset; BAdd; BWait].
Example c65_calm : calm bjm_init c65_es.
Proof.
  cbn. repeat split; try discriminate. intros _ ([|k] & v & N & V); cbn in N; [injection N as <-; congruence|destruct k; discriminate].
Qed.
Example c65_ex : exists s, brun bjm_init c65_es = Some s /\ b_wait s = [VRet; VSleep] /\ b_job s = [JOut; JOut; JNo; JIn].
Proof. eexists. split; [vm_compute; reflexivity|]. split; reflexivity. Qed.
Example c65_ret : exists s, brun bjm_init (firstn 7 c65_es) = Some s /\ b_ret s = true.
Proof. eexists. split; [vm_compute; reflexivity|]. reflexivity. Qed.
