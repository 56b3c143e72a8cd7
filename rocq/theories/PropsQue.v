(** C55: the bounded queue. *)
From Verif Require Import Base QueModel.
From Coq Require Import NArith.
Open Scope nat_scope.

Definition total (l : list (nat * N)) : N := fold_right N.add 0%N (map snd l).
(** One producer, thread 0, and one consumer, thread 1. *)
Definition pair_may (i : nat) (o : qop) : bool :=
  match i, o with
  | 0, (QEnq _ _ | QEof | QResume | QSpurious) => true
  | 1, (QDeq | QResume | QSpurious) => true
  | _, _ => false
  end.
Definition sleeps (q : que) (i : nat) : Prop := exists t, qget q i = Some t /\ asleep t = true.

Lemma total_app a b : total (a ++ b) = (total a + total b)%N.
Proof. unfold total. induction a as [|x a IH]; cbn; [reflexivity|]. rewrite IH. lia. Qed.
Lemma qset_length l : forall i t, length (qset l i t) = length l.
Proof. induction l; intros [|i] t; cbn; auto. Qed.
Lemma signal_eq q j q' : signal q j = Some q' ->
  exists l, q' = mkQ (q_items q) (q_weight q) (q_limit q) (q_eof q) l (q_put q) (q_got q) (q_ends q) /\
    (l = q_thr q /\ existsb asleep l = false \/ exists t, nth_error (q_thr q) j = Some t /\ asleep t = true /\ l = qset (q_thr q) j (woken t)).
Proof.
  unfold signal. destruct (existsb asleep (q_thr q)) eqn:E.
  - unfold qget. destruct (nth_error (q_thr q) j) as [t|] eqn:G; [|discriminate]. destruct (asleep t) eqn:A; [|discriminate]. intros H. inversion H; subst. exists (qset (q_thr q) j (woken t)). split; [reflexivity|]. right. exists t. auto.
  - intros H. inversion H; subst. exists (q_thr q'). split; [destruct q'; reflexivity|]. left. auto.
Qed.
Lemma signal_can q : exists j q', signal q j = Some q'.
Proof.
  unfold signal. destruct (existsb asleep (q_thr q)) eqn:E; [|exists 0; eauto]. apply existsb_exists in E. destruct E as [t [I A]]. apply In_nth_error in I. destruct I as [j J].
  exists j. unfold qget. rewrite J, A. eauto.
Qed.

Definition base (limit : N) (q : que) : Prop :=
  q_put q = q_got q ++ q_items q /\ q_weight q = total (q_items q) /\ q_limit q = limit /\ (0 < q_ends q -> q_eof q = true /\ q_items q = []).
Lemma base_thr limit q l : base limit q -> base limit (mkQ (q_items q) (q_weight q) (q_limit q) (q_eof q) l (q_put q) (q_got q) (q_ends q)).
Proof. intros H. exact H. Qed.
Lemma deq_base limit q i j q' : base limit q -> deq_rest q i j = Some (Some q') -> base limit q'.
Proof.
  intros [B1 [B2 [B3 B4]]]. unfold deq_rest. destruct (q_items q) as [|x l] eqn:E.
  - destruct (q_eof q) eqn:F; intros H; injection H as <-; unfold base; cbn; rewrite ?E, ?F; auto.
  - destruct (signal _ j) as [q1|] eqn:S; [|discriminate]. intros H. injection H as <-. apply signal_eq in S. destruct S as [l' [-> _]]. apply base_thr. unfold base. cbn.
    split; [rewrite B1, <- app_assoc; reflexivity|]. split; [rewrite B2; unfold total; cbn; lia|]. split; [exact B3|]. intros P. apply B4 in P. destruct P; discriminate.
Qed.
Lemma step_base limit q i o j q' : base limit q -> qstep q i o j = Some (Some q') -> base limit q'.
Proof.
  intros B. assert (B' := B). destruct B' as [B1 [B2 [B3 B4]]]. unfold qstep. destruct (qget q i) as [t|]; [|discriminate]. destruct t, o; cbn [asleep]; intros H; try discriminate; try (injection H as <-; exact B); try (eapply deq_base; eassumption).
  - destruct (q_eof q) eqn:F; [discriminate|]. destruct (signal _ j) as [q1|] eqn:S; [|discriminate]. injection H as <-. apply signal_eq in S. destruct S as [l' [-> _]]. unfold base. cbn.
    split; [rewrite B1, <- app_assoc; reflexivity|]. split; [rewrite B2; fold (total (q_items q ++ [(x, w)])); rewrite total_app; unfold total; cbn; lia|]. split; [exact B3|]. intros P. apply B4 in P. destruct P; discriminate.
  - destruct (q_eof q) eqn:F; [discriminate|]. destruct (signal _ j) as [q1|] eqn:S; [|discriminate]. injection H as <-. apply signal_eq in S. destruct S as [l' [-> _]]. unfold base. cbn.
    split; [exact B1|]. split; [exact B2|]. split; [exact B3|]. intros P. apply B4 in P. destruct P; discriminate.
Qed.
Lemma reach_base may n limit q : qreach may n limit q -> base limit q.
Proof.
  induction 1 as [|q i o j q' R IH M S].
  - unfold base. cbn. repeat split; try reflexivity; lia.
  - eapply step_base; eassumption.
Qed.

(** First in, first out, nothing lost and nothing twice, for any number of threads:
    what was handed out, followed by what is in the queue, is what was put in; the
    weight kept is that of the contents; EOF is answered only when the end was
    announced and everything was handed out. *)
Theorem C55_fifo : forall may n limit q, qreach may n limit q ->
  q_put q = q_got q ++ q_items q /\ q_weight q = total (q_items q) /\ (0 < q_ends q -> q_eof q = true /\ q_got q = q_put q).
Proof.
  intros may n limit q R. destruct (reach_base _ _ _ _ R) as [B1 [B2 [_ B4]]]. split; [exact B1|]. split; [exact B2|]. intros P. destruct (B4 P) as [E I]. split; [exact E|]. rewrite B1, I, app_nil_r. reflexivity.
Qed.

(** One producer and one consumer. *)
Definition duo (q : que) : Prop := exists p d, q_thr q = [p; d] /\ (p = QOut \/ p = QEnqSleep \/ p = QEnqWoke) /\ (d = QOut \/ d = QDeqSleep \/ d = QDeqWoke) /\
  (p = QEnqSleep -> (q_limit q < q_weight q)%N) /\ (d = QDeqSleep -> q_items q = [] /\ q_eof q = false) /\
  (q_weight q <= q_limit q + snd (last (q_put q) (0%nat, 0%N)))%N /\ (p = QOut -> q_weight q <= q_limit q)%N.
Ltac three H := let A := fresh in destruct H as [A|[A|A]]; subst.
Lemma deq_duo limit q j q' : base limit q -> duo q -> (exists d, qget q 1 = Some d /\ asleep d = false) -> deq_rest q 1 j = Some (Some q') -> duo q'.
Proof.
  intros [B1 [B2 _]] [p [d [T [P [D [S1 [S2 [W1 W2]]]]]]]] NS. unfold deq_rest. rewrite T. cbn [qset]. destruct (q_items q) as [|x l] eqn:E.
  - assert (Z : q_weight q = 0%N) by (rewrite B2; reflexivity). destruct (q_eof q) eqn:F; intros H; injection H as <-; unfold duo, set_thr; cbn; rewrite ?T; cbn.
    + exists p, QOut. repeat split; auto; try discriminate; lia.
    + exists p, QDeqSleep. rewrite E, F. repeat split; auto; lia.
  - destruct (signal _ j) as [q1|] eqn:S; [|discriminate]. intros H. injection H as <-. apply signal_eq in S. destruct S as [l' [-> L]]. cbn in L. unfold duo. cbn.
    assert (WX : q_weight q = (snd x + total l)%N) by (rewrite B2; reflexivity).
    destruct L as [[-> L]|[t [N [A ->]]]].
    + exists p, QOut. split; [reflexivity|]. split; [exact P|]. split; [auto|]. split; [intros ->; discriminate|]. split; [discriminate|]. split; [lia|]. intros PO. specialize (W2 PO). lia.
    + destruct j as [|[|j]]; cbn in N; [|injection N as <-; discriminate|destruct j; discriminate]. injection N as <-. exists (woken p), QOut.
      split; [reflexivity|]. three P; try discriminate. repeat split; auto; try discriminate; lia.
Qed.
Lemma step_duo limit q i o j q' : base limit q -> duo q -> pair_may i o = true -> qstep q i o j = Some (Some q') -> duo q'.
Proof.
  intros B Du M H. assert (Du' := Du). destruct Du' as [p [d [T [P [D [S1 [S2 [W1 W2]]]]]]]]. unfold qstep, qget in H. rewrite T in H.
  destruct i as [|[|i]]; [| |destruct o; discriminate].
  - cbn [nth_error] in H. destruct o; try discriminate.
    + three P; try discriminate. destruct (q_eof q) eqn:F; [discriminate|]. destruct (signal _ j) as [q1|] eqn:S; [|discriminate]. injection H as <-. apply signal_eq in S. destruct S as [l' [-> L]]. cbn in L.
      unfold duo, enq_rest, set_thr. cbn. specialize (W2 eq_refl).
      assert (L2 : exists d', l' = [QOut; d'] /\ (d' = QOut \/ d' = QDeqWoke)).
      { destruct L as [[-> L]|[t [N [A ->]]]].
        - try rewrite T in *. exists d. split; [reflexivity|]. three D; try discriminate; auto.
        - try rewrite T in *. destruct j as [|[|j]]; cbn in N; [injection N as <-; discriminate| |destruct j; discriminate]. injection N as <-. exists (woken d). split; [reflexivity|]. three D; try discriminate; auto. }
      destruct L2 as [d' [-> D']]. cbn [qset]. rewrite last_last. cbn [snd].
      destruct (N.ltb_spec (q_limit q) (q_weight q + w)); [exists QEnqSleep, d'|exists QOut, d']; (split; [reflexivity|]; split; [auto|]; split; [tauto|]; split; [auto; discriminate|]; split; [intros ->; destruct D'; discriminate|]; split; [lia|]; first [discriminate|lia]).
    + three P; try discriminate. destruct (q_eof q) eqn:F; [discriminate|]. destruct (signal _ j) as [q1|] eqn:S; [|discriminate]. injection H as <-. apply signal_eq in S. destruct S as [l' [-> L]]. cbn in L.
      unfold duo. cbn.
      assert (L2 : exists d', l' = [QOut; d'] /\ (d' = QOut \/ d' = QDeqWoke)).
      { destruct L as [[-> L]|[t [N [A ->]]]].
        - try rewrite T in *. exists d. split; [reflexivity|]. three D; try discriminate; auto.
        - try rewrite T in *. destruct j as [|[|j]]; cbn in N; [injection N as <-; discriminate| |destruct j; discriminate]. injection N as <-. exists (woken d). split; [reflexivity|]. three D; try discriminate; auto. }
      destruct L2 as [d' [-> D']]. exists QOut, d'. split; [reflexivity|]. split; [auto|]. split; [tauto|]. split; [discriminate|]. split; [intros ->; destruct D'; discriminate|]. auto.
    + three P; try discriminate. injection H as <-. unfold duo, enq_rest, set_thr. cbn. rewrite T. cbn [qset].
      destruct (N.ltb_spec (q_limit q) (q_weight q)); [exists QEnqSleep, d|exists QOut, d]; repeat split; auto; try discriminate; try (apply S2; assumption); try lia.
    + three P; try discriminate. cbn in H. injection H as <-. unfold duo, set_thr. cbn. rewrite T. cbn [qset]. exists QEnqWoke, d. repeat split; auto; try discriminate; try (apply S2; assumption).
  - cbn [nth_error] in H. destruct o; try discriminate.
    + three D; try discriminate. apply (deq_duo limit q j q' B Du); [|exact H]. exists QOut. unfold qget. rewrite T. auto.
    + three D; try discriminate. apply (deq_duo limit q j q' B Du); [|exact H]. exists QDeqWoke. unfold qget. rewrite T. auto.
    + three D; try discriminate. cbn in H. injection H as <-. unfold duo, set_thr. cbn. rewrite T. cbn [qset]. exists p, QDeqWoke. repeat split; auto; try discriminate.
Qed.
Lemma reach_duo limit q : qreach pair_may 2 limit q -> duo q.
Proof.
  induction 1 as [|q i o j q' R IH M S].
  - exists QOut, QOut. cbn. repeat split; auto; try discriminate; lia.
  - eapply step_duo; [eapply reach_base; exact R|exact IH|exact M|exact S].
Qed.

(** No wake-up is lost between one producer and one consumer: whoever sleeps has reason
    to, and the other one is awake and can go on. *)
Theorem C55_no_lost_wakeup : forall limit q, qreach pair_may 2 limit q ->
  (sleeps q 0 -> (limit < q_weight q)%N /\ q_items q <> [] /\ ~ sleeps q 1) /\
  (sleeps q 1 -> q_items q = [] /\ q_eof q = false /\ ~ sleeps q 0) /\
  (~ sleeps q 1 -> exists o j q', (o = QDeq \/ o = QResume) /\ qstep q 1 o j = Some (Some q')) /\
  (~ sleeps q 0 -> q_eof q = false -> exists o j q', (o = QEof \/ o = QResume) /\ qstep q 0 o j = Some (Some q')).
Proof.
  intros limit q R. destruct (reach_base _ _ _ _ R) as [B1 [B2 [B3 _]]]. destruct (reach_duo _ _ R) as [p [d [T [P [D [S1 [S2 [W1 W2]]]]]]]].
  assert (G0 : qget q 0 = Some p) by (unfold qget; rewrite T; reflexivity). assert (G1 : qget q 1 = Some d) by (unfold qget; rewrite T; reflexivity).
  assert (SP : sleeps q 0 -> p = QEnqSleep) by (intros [t [A1 A2]]; rewrite G0 in A1; injection A1 as <-; three P; try discriminate; auto).
  assert (SD : sleeps q 1 -> d = QDeqSleep) by (intros [t [A1 A2]]; rewrite G1 in A1; injection A1 as <-; three D; try discriminate; auto).
  assert (EM : q_items q = [] -> q_weight q = 0%N) by (intros E; rewrite B2, E; reflexivity).
  assert (DQ : forall i, exists j q', deq_rest q i j = Some (Some q')).
  { intros i. unfold deq_rest. destruct (q_items q) as [|x l]; [destruct (q_eof q); exists 0; eauto|]. match goal with |- context [signal ?X _] => destruct (signal_can X) as [j [q' E]] end. exists j, q'. rewrite E. reflexivity. }
  split; [|split; [|split]].
  - intros H. apply SP in H. specialize (S1 H). split; [lia|]. split; [intros E; apply EM in E; lia|]. intros K. apply SD, S2 in K. destruct K as [K _]. apply EM in K. lia.
  - intros H. apply SD in H. destruct (S2 H) as [K1 K2]. split; [exact K1|]. split; [exact K2|]. intros K. apply SP, S1 in K. apply EM in K1. lia.
  - intros H. destruct (DQ 1) as [j [q' E]]. three D.
    + exists QDeq, j, q'. split; [auto|]. unfold qstep. rewrite G1. exact E.
    + destruct H. exists QDeqSleep. auto.
    + exists QResume, j, q'. split; [auto|]. unfold qstep. rewrite G1. exact E.
  - intros H F. three P.
    + destruct (signal_can (mkQ (q_items q) (q_weight q) (q_limit q) true (q_thr q) (q_put q) (q_got q) (q_ends q))) as [j [q' E]]. exists QEof, j, q'. split; [auto|]. unfold qstep. rewrite G0, F, E. reflexivity.
    + destruct H. exists QEnqSleep. auto.
    + exists QResume, 0. eexists. split; [auto|]. unfold qstep. rewrite G0. reflexivity.
Qed.

(** The contents never weigh more than the limit and the last item put in; when the
    producer is not in a call, not more than the limit. *)
Theorem C55_bounded : forall limit q, qreach pair_may 2 limit q ->
  (total (q_items q) <= limit + snd (last (q_put q) (0%nat, 0%N)))%N /\ (qget q 0 = Some QOut -> total (q_items q) <= limit)%N.
Proof.
  intros limit q R. destruct (reach_base _ _ _ _ R) as [_ [B2 [B3 _]]]. destruct (reach_duo _ _ R) as [p [d [T [_ [_ [_ [_ [W1 W2]]]]]]]]. rewrite <- B2, <- B3. split; [exact W1|].
  unfold qget. rewrite T. intros H. apply W2. injection H. auto.
Qed.

(** What toku_queue_deq does when it gets the mutex: hands out the oldest item; answers
    EOF when there is none and the end was announced; sleeps otherwise. *)
Theorem C55_deq : forall q i j q', (qstep q i QDeq j = Some (Some q') \/ qget q i = Some QDeqWoke /\ qstep q i QResume j = Some (Some q')) ->
  match q_items q with
  | x :: l => q_got q' = q_got q ++ [x] /\ q_items q' = l /\ q_ends q' = q_ends q
  | [] => q_got q' = q_got q /\ q_items q' = [] /\ (if q_eof q then q_ends q' = S (q_ends q) else q_ends q' = q_ends q /\ sleeps q' i)
  end.
Proof.
  intros q i j q' H. assert (G : exists t, qget q i = Some t /\ deq_rest q i j = Some (Some q')).
  { destruct H as [H|[G H]]; unfold qstep in H; [|rewrite G in H; eauto]. destruct (qget q i) as [t|]; [|discriminate]. destruct t; try discriminate; eauto. }
  destruct G as [t [G E]]. unfold deq_rest in E. destruct (q_items q) as [|x l] eqn:I.
  - destruct (q_eof q); injection E as <-; cbn; auto. split; [reflexivity|]. split; [exact I|]. split; [reflexivity|]. exists QDeqSleep. split; [|reflexivity]. unfold qget, set_thr in *. cbn.
    clear H. revert i G. generalize (q_thr q). induction l as [|a l IH]; intros [|i] G; cbn in *; try discriminate; auto.
  - destruct (signal _ j) as [q1|] eqn:S; [|discriminate]. injection E as <-. apply signal_eq in S. destruct S as [l' [-> _]]. cbn. auto.
Qed.

(** queue.h asks only for a single consumer.  With two producers it is not enough: the
    signal meant for the consumer may wake a producer, and then all threads sleep while
    an item is in the queue. *)
Definition trio_may (i : nat) (o : qop) : bool :=
  match o with QResume => true | QEnq _ _ => i <? 2 | QDeq => i =? 2 | _ => false end.
Definition trio : list (nat * qop * nat) :=
  [(0, QEnq 1 2, 0); (1, QEnq 2 2, 0); (0, QResume, 0); (2, QDeq, 0); (0, QResume, 0); (2, QDeq, 0); (0, QResume, 0);
   (2, QDeq, 0); (0, QEnq 3 2, 1); (1, QResume, 0)].
Fixpoint q_run (q : que) (l : list (nat * qop * nat)) : option que :=
  match l with
  | [] => Some q
  | (i, o, j) :: l' => if trio_may i o then match qstep q i o j with Some (Some q') => q_run q' l' | _ => None end else None
  end.
Lemma q_run_reach n limit l : forall q q', qreach trio_may n limit q -> q_run q l = Some q' -> qreach trio_may n limit q'.
Proof.
  induction l as [|[[i o] j] l IH]; intros q q' R H; cbn in H; [inversion H; subst; exact R|]. destruct (trio_may i o) eqn:M; [|discriminate]. destruct (qstep q i o j) as [[q1|]|] eqn:S; try discriminate.
  eapply IH; [|exact H]. eapply QRS; eauto.
Qed.
Theorem C55_two_producers_refuted : exists q, qreach trio_may 3 1 q /\ q_items q <> [] /\ q_eof q = false /\ forall i, i < 3 -> sleeps q i.
Proof.
  eexists. split; [apply (q_run_reach 3 1 trio (q_init 3 1)); [constructor|vm_compute; reflexivity]|]. cbn. split; [discriminate|]. split; [reflexivity|].
  intros i I. unfold sleeps, qget. cbn. destruct i as [|[|[|i]]]; [exists QEnqSleep|exists QEnqSleep|exists QDeqSleep|lia]; auto.
Qed.

(** Hypotheses met: the producer over the limit asleep, the consumer taking an item. *)
Example duo_ex : exists q, qreach pair_may 2 3 q /\ sleeps q 0 /\ q_items q = [(7, 2%N); (8, 2%N)].
Proof.
  eexists. split; [|split].
  - eapply (QRS _ _ _ _ 0 (QEnq 8 2) 0); [eapply (QRS _ _ _ _ 0 (QEnq 7 2) 0); [apply QR0|reflexivity|vm_compute; reflexivity]|reflexivity|vm_compute; reflexivity].
  - exists QEnqSleep. split; reflexivity.
  - reflexivity.
Qed.

Print Assumptions C55_fifo.
Print Assumptions C55_no_lost_wakeup.
Print Assumptions C55_bounded.
Print Assumptions C55_deq.
Print Assumptions C55_two_producers_refuted.
