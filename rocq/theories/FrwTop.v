(** The order in which the fair lock serves threads, and that it always drains. *)
From Verif Require Import Base FrwModel FrwProofs FrwSpec.

Lemma count_cnt p l : count p l = cnt p l.
Proof. unfold cnt. induction l as [|a l IH]; cbn; [reflexivity|]. destruct (p a); cbn; lia. Qed.
Lemma upd_same {A} (l : list A) i x y : nth_error l i = Some y -> nth_error (upd l i x) i = Some x.
Proof. intros E. rewrite nth_upd, Nat.eqb_refl, E. reflexivity. Qed.
Lemma upd_other {A} (l : list A) i j x : j <> i -> nth_error (upd l i x) j = nth_error l j.
Proof. intros N. rewrite nth_upd. apply Nat.eqb_neq in N. rewrite N. reflexivity. Qed.

Lemma asleep_cnt l : cnt asleep l = (cnt is_waitr l + cnt is_waitw l)%nat.
Proof. unfold cnt. induction l as [|[| |[]| | |[]|[]] l IH]; cbn; lia. Qed.
Lemma granted_cnt l : cnt granted l = (cnt is_write l + cnt is_wokew l + cnt is_read l + cnt is_woker l)%nat.
Proof. unfold cnt. induction l as [|[| |[]| | |[]|[]] l IH]; cbn; lia. Qed.
Lemma dear_cnt l : cnt dear l = (cnt is_expw l + cnt is_expc l)%nat.
Proof. unfold cnt. induction l as [|[| |[]| | |[]|[]] l IH]; cbn; lia. Qed.
Lemma calling_cnt l : cnt calling l = (cnt is_waitr l + cnt is_woker l + cnt is_waitw l + cnt is_wokew l)%nat.
Proof. unfold cnt. induction l as [|[| |[]| | |[]|[]] l IH]; cbn; lia. Qed.
Lemma inside_cnt l : cnt (fun t => negb (outside t)) l = (cnt is_read l + cnt is_write l + cnt is_waitr l + cnt is_woker l + cnt is_waitw l + cnt is_wokew l)%nat.
Proof. unfold cnt. induction l as [|[| |[]| | |[]|[]] l IH]; cbn; lia. Qed.

Section T.
Variable paranoid : bool.

Lemma inv_check_ok b r s' : inv_check paranoid b r = FOk s' -> r = FOk s'.
Proof. unfold inv_check. destruct (paranoid && negb b); [discriminate|auto]. Qed.

(** One thread changes and the queue stays. *)
Lemma keep_fcfs s s' i y x : nth_error (thr s) i = Some y -> thr s' = upd (thr s) i x -> queue s' = queue s ->
  (granted y = false -> granted x = true -> y = TOut /\ cnt asleep (thr s) = 0%nat) -> fcfs s i s'.
Proof.
  intros E T Q G. left. split; [exact Q|]. intros j t [A [B [t' [C D]]]]. rewrite T in C. destruct (Nat.eq_dec j i) as [->|N].
  - rewrite (upd_same _ _ _ _ E) in C. rewrite E in A. inversion A; inversion C; subst. destruct (G B D). rewrite count_cnt. auto.
  - rewrite (upd_other _ _ _ _ N) in C. congruence.
Qed.
Lemma push_fcfs s s' i y x z : nth_error (thr s) i = Some y -> thr s' = upd (thr s) i x -> queue s' = queue s ++ [z] -> waits_at i x = Some z -> fcfs s i s'.
Proof.
  intros E T Q W. right. left. exists z, x. split; [exact Q|]. rewrite T. split; [eapply upd_same; exact E|]. split; [exact W|].
  intros j t [A [B [t' [C D]]]]. rewrite T in C. destruct (Nat.eq_dec j i) as [->|N].
  - rewrite (upd_same _ _ _ _ E) in C. inversion C; subst. destruct t'; discriminate.
  - rewrite (upd_other _ _ _ _ N) in C. congruence.
Qed.
(** The holder [i] leaves and the writer [k] at the head is woken. *)
Lemma pop_fcfs s s' i y k q e : nth_error (thr s) i = Some y -> granted y = true -> nth_error (thr s) k = Some (TWaitW e) ->
  thr s' = upd (upd (thr s) i TOut) k (TWokeW e) -> queue s = QW k :: q -> queue s' = q -> fcfs s i s'.
Proof.
  intros E G K T Q Q'. assert (NE : k <> i) by (intros ->; rewrite E in K; inversion K; subst; discriminate).
  right. right. exists (QW k), q. split; [exact Q|]. split; [exact Q'|].
  assert (NK : nth_error (upd (thr s) i TOut) k = Some (TWaitW e)) by (rewrite upd_other; auto).
  assert (W : newly s s' k (TWaitW e)).
  { split; [exact K|]. split; [reflexivity|]. exists (TWokeW e). rewrite T. split; [eapply upd_same; exact NK|reflexivity]. }
  split; [|eauto]. intros j t. split.
  - intros [A [B [t' [C D]]]]. split; [exact A|]. rewrite T in C. destruct (Nat.eq_dec j k) as [->|N].
    + rewrite A in K. inversion K; subst. reflexivity.
    + rewrite (upd_other _ _ _ _ N) in C. destruct (Nat.eq_dec j i) as [->|N2]; [congruence|]. rewrite (upd_other _ _ _ _ N2) in C. congruence.
  - intros [A B]. destruct t; try discriminate. inversion B; subst. rewrite A in K. inversion K; subst. exact W.
Qed.

Lemma queue_none s : finv s -> queue s = [] -> cnt asleep (thr s) = 0%nat.
Proof.
  intros IV Q. rewrite asleep_cnt. ctx IV.
  destruct (Nat.eq_dec (cnt is_waitw (thr s)) 0) as [W|W]; [|exfalso; apply (waitw_queue s BA); [lia|exact Q]].
  destruct (Nat.eq_dec (cnt is_waitr (thr s)) 0) as [R|R]; [lia|]. assert (X : In QR (queue s)) by (apply waitr_queue; [exact BA|lia]). rewrite Q in X. destruct X.
Qed.
Lemma noww_queue s : finv s -> n_writers s = 0%nat -> n_want_write s = 0%nat -> queue s = [].
Proof.
  intros IV A B. ctx IV. destruct (queue s) as [|[|j] q] eqn:Q; [reflexivity|exfalso; eapply (I16 ltac:(lia)); reflexivity|].
  assert (X : (0 < cnt is_waitw (thr s))%nat) by (apply (queue_waitw s j BA); rewrite Q; left; reflexivity). lia.
Qed.

Lemma fstep_fcfs s i o s' : finv s -> fstep paranoid false s i o = FOk s' -> fcfs s i s'.
Proof.
  intros IV H. unfold fstep in H. destruct (nth_error (thr s) i) as [t|] eqn:E; [|discriminate].
  assert (TW : forall e s2, try_write paranoid s i e = Some (FOk s2) -> t = TOut -> fcfs s i s2).
  { intros e s2 X ->. destruct (try_write_ok paranoid s i e IV E) as [[N _]|[s3 [Y [_ [Q1 [Q2 [T _]]]]]]]; [congruence|]. rewrite X in Y. inversion Y; subst s3.
    eapply keep_fcfs; [exact E|exact T|congruence|]. intros _ _. split; [reflexivity|apply queue_none; auto]. }
  assert (ST : forall y, nth_error (thr s) i = Some y -> fcfs s i s). { intros y _. left. split; [reflexivity|]. intros j t0 [A [B [t' [C D]]]]. congruence. }
  assert (NR : n_writers s = 0%nat -> n_want_write s = 0%nat -> cnt asleep (thr s) = 0%nat). { intros A B. apply queue_none; [exact IV|]. apply noww_queue; auto. }
  destruct t, o; try discriminate H.
  - unfold write_lock in H. destruct (try_write paranoid s i e) as [r|] eqn:W; [subst r; apply (TW e s' W eq_refl)|]. inversion H; subst.
    eapply push_fcfs; [exact E|reflexivity|reflexivity|reflexivity].
  - destruct (try_write paranoid s i e) as [r|] eqn:W; [subst r; apply (TW e s' W eq_refl)|]. inversion H; subst. eauto.
  - unfold read_lock in H. destruct (pos (n_writers s) || pos (n_want_write s)) eqn:B.
    + destruct (rinq s).
      * inversion H; subst. eapply keep_fcfs; [exact E|reflexivity|reflexivity|discriminate].
      * apply inv_check_ok in H. inversion H; subst. eapply push_fcfs; [exact E|reflexivity|reflexivity|reflexivity].
    + inversion H; subst. rewrite orb_false_iff, !pos_false in B. destruct B. eapply keep_fcfs; [exact E|reflexivity|reflexivity|auto].
  - unfold try_read in H. destruct (pos (n_writers s) || pos (n_want_write s)) eqn:B; inversion H; subst; [eauto|].
    rewrite orb_false_iff, !pos_false in B. destruct B. eapply keep_fcfs; [exact E|reflexivity|reflexivity|auto].
  - unfold read_unlock in H. apply inv_check_ok in H. unfold signal_next_writer in H.
    cbn [n_readers n_want_write n_signaled queue] in H. ctx IV.
    assert (RD : (0 < cnt is_read (thr s))%nat) by (eapply cnt_pos; [exact E|reflexivity]).
    assert (W0 : (cnt is_write (thr s) + cnt is_wokew (thr s) = 0)%nat). { destruct (Nat.eq_dec (cnt is_write (thr s) + cnt is_wokew (thr s)) 0) as [Z|Z]; [exact Z|]. destruct (I14 ltac:(lia)). lia. }
    destruct (pos (n_want_write s) && zero (n_signaled s) && zero (n_readers s - 1)) eqn:B.
    + destruct (queue s) as [|[|k] q] eqn:Q; [discriminate|exfalso; eapply (I16 W0); reflexivity|].
      assert (X : In (QW k) (QW k :: q)) by (left; reflexivity). apply I12 in X. destruct X as [e K].
      assert (NE : k <> i) by congruence.
      inversion H; subst s'. eapply pop_fcfs; [exact E|reflexivity|exact K| |exact Q|reflexivity].
      unfold signal_w, set_t, set_q. cbn [thr]. f_equal. erewrite (nth_error_nth (upd (thr s) i TOut)); [|rewrite upd_other; [exact K|exact NE]]. reflexivity.
    + inversion H; subst s'. eapply keep_fcfs; [exact E|reflexivity|reflexivity|discriminate].
  - unfold write_unlock in H. apply inv_check_ok in H. unfold signal_next in H. apply inv_check_ok in H. cbn [queue] in H. ctx IV.
    destruct (queue s) as [|[|k] q] eqn:Q.
    + apply inv_check_ok in H. inversion H; subst s'. eapply keep_fcfs; [exact E|reflexivity|exact (eq_sym Q)|discriminate].
    + apply inv_check_ok in H. inversion H; subst s'. right. right. exists QR, q. split; [exact Q|]. split; [reflexivity|].
      assert (NW : forall j t, newly s (mkF (n_readers s) 0 (n_want_write s) (n_want_read s) (n_want_read s) (n_exp_want s) false false false q (map wake_r (upd (thr s) i TOut))) j t <-> nth_error (thr s) j = Some t /\ waits_at j t = Some QR).
      { intros j t. unfold newly. cbn [thr]. rewrite nth_error_map. split.
        - intros [A [C [t' [D F]]]]. split; [exact A|]. destruct (Nat.eq_dec j i) as [->|N]; [rewrite E in A; inversion A; subst; discriminate|].
          rewrite upd_other, A in D by exact N. cbn in D. inversion D; subst t'. destruct t; try discriminate; reflexivity.
        - intros [A C]. split; [exact A|]. destruct t; try discriminate. split; [reflexivity|]. exists TWokeR.
          assert (N : j <> i) by congruence. rewrite upd_other, A by exact N. split; reflexivity. }
      split; [exact NW|]. assert (X : In QR (QR :: q)) by (left; reflexivity). rewrite <- Q in X. apply (queue_waitr s BA) in X. apply cnt_ex in X.
      destruct X as [j [t [A C]]]. exists j, t. apply NW. split; [exact A|]. destruct t; try discriminate. reflexivity.
    + assert (X : In (QW k) (QW k :: q)) by (left; reflexivity). apply I12 in X. destruct X as [e0 K].
      assert (NE : k <> i) by congruence. apply inv_check_ok in H.
      inversion H; subst s'. eapply pop_fcfs; [exact E|reflexivity|exact K| |exact Q|reflexivity].
      unfold signal_w, set_t, set_q. cbn [thr]. f_equal. erewrite (nth_error_nth (upd (thr s) i TOut)); [|rewrite upd_other; [exact K|exact NE]]. reflexivity.
  - apply inv_check_ok in H. inversion H; subst s'. eapply keep_fcfs; [exact E|reflexivity|reflexivity|discriminate].
  - apply inv_check_ok in H. inversion H; subst s'. eapply keep_fcfs; [exact E|reflexivity|reflexivity|discriminate].
Qed.

(** Draining. *)
Definition wt (t : tst) : nat := match t with TOut => 0 | TRead | TWrite _ => 1 | TWokeR | TWokeW _ => 2 | TWaitR | TWaitW _ => 3 end.
Fixpoint load (l : list tst) : nat := match l with [] => 0 | t :: l' => wt t + load l' end.
Lemma load_upd l i x y : nth_error l i = Some y -> (load (upd l i x) + wt y = load l + wt x)%nat.
Proof. revert i. induction l as [|a l IH]; intros [|i]; cbn; try discriminate; [intros E; inversion E; subst; lia|]. intros E. specialize (IH i E). lia. Qed.
Lemma load_wake l : (load (map wake_r l) <= load l)%nat.
Proof. induction l as [|[] l IH]; cbn; lia. Qed.
Lemma load_sig s j : (load (thr (signal_w s j)) <= load (thr s))%nat.
Proof.
  unfold signal_w, set_t. cbn [thr]. destruct (nth_error (thr s) j) as [t|] eqn:E.
  - rewrite (nth_error_nth _ _ TOut E). assert (X := load_upd _ _ (wake_w t) _ E). destruct t; cbn in *; lia.
  - assert (Y : forall (l : list tst) j x, nth_error l j = None -> upd l j x = l). { induction l as [|a l IH]; intros [|k] x; cbn; try discriminate; auto. intros Z. f_equal. apply IH, Z. }
    rewrite Y; auto.
Qed.
Lemma load_max l : (load l <= 3 * length l)%nat.
Proof. induction l as [|[] l IH]; cbn; lia. Qed.

Lemma drain_step s i o s' : comes o = false -> fstep paranoid false s i o = FOk s' -> (load (thr s') < load (thr s))%nat.
Proof.
  intros C H. unfold fstep in H. destruct (nth_error (thr s) i) as [t|] eqn:E; [|discriminate].
  assert (LU := fun x => load_upd _ _ x _ E).
  destruct t, o; try discriminate C; try discriminate H.
  - unfold read_unlock in H. apply inv_check_ok in H. unfold signal_next_writer in H. specialize (LU TOut). cbn [wt] in LU.
    destruct (_ && _ && _).
    + cbn [queue] in H. destruct (queue s) as [|[|k] q]; [discriminate| |].
      * apply inv_check_ok in H. inversion H; subst. cbn [thr]. lia.
      * inversion H; subst s'. eapply Nat.le_lt_trans; [apply load_sig|]. unfold set_q. cbn [thr]. lia.
    + inversion H; subst. cbn [thr]. lia.
  - unfold write_unlock in H. apply inv_check_ok in H. unfold signal_next in H. apply inv_check_ok in H. cbn [queue] in H. specialize (LU TOut). cbn [wt] in LU.
    destruct (queue s) as [|[|k] q]; apply inv_check_ok in H; inversion H; subst s'.
    + cbn [thr]. lia.
    + cbn [thr]. assert (X := load_wake (upd (thr s) i TOut)). lia.
    + eapply Nat.le_lt_trans; [apply load_sig|]. unfold set_q. cbn [thr]. lia.
  - apply inv_check_ok in H. inversion H; subst s'. cbn [thr]. specialize (LU TRead). cbn [wt] in LU. lia.
  - apply inv_check_ok in H. inversion H; subst s'. cbn [thr]. specialize (LU (TWrite e)). cbn [wt] in LU. lia.
Qed.
Lemma fstep_length s i o s' : fstep paranoid false s i o = FOk s' -> length (thr s') = length (thr s).
Proof.
  assert (SG : forall s0 q j, length (thr (signal_w (set_q s0 q) j)) = length (thr s0)). { intros. unfold signal_w, set_t, set_q. cbn [thr]. apply upd_length. }
  intros H. unfold fstep in H. destruct (nth_error (thr s) i) as [t|] eqn:E; [|discriminate].
  unfold write_lock, try_write, read_lock, try_read, read_unlock, write_unlock, signal_next_writer, signal_next, read_resume, write_resume, inv_check in H.
  destruct t, o; try discriminate H; cbn [queue] in H;
  repeat (match type of H with context[match ?x with _ => _ end] => match type of x with bool => destruct x | list _ => destruct x | item => destruct x end end; try discriminate H); injection H as <-; rewrite ?SG; cbn [thr]; rewrite ?map_length, ?upd_length; reflexivity.
Qed.
Lemma freach_length n s : freach paranoid false n s -> length (thr s) = n.
Proof. induction 1 as [|s i o s' R IH H]; [apply repeat_length|]. apply fstep_length in H. congruence. Qed.
Lemma drain_run l : forall s s', Forall (fun p => comes (snd p) = false) l -> frun paranoid s l = FOk s' -> (length l + load (thr s') <= load (thr s))%nat.
Proof.
  induction l as [|[i o] l IH]; cbn; intros s s' F H; [inversion H; lia|]. inversion F; subst. cbn in H2.
  destruct (fstep paranoid false s i o) as [s1| |] eqn:X; try discriminate. apply IH in H; [|assumption]. apply drain_step in X; [lia|assumption].
Qed.
Lemma frun_reach n l : forall s s', freach paranoid false n s -> frun paranoid s l = FOk s' -> freach paranoid false n s'.
Proof.
  induction l as [|[i o] l IH]; cbn; intros s s' R H; [inversion H; subst; exact R|].
  destruct (fstep paranoid false s i o) as [s1| |] eqn:X; try discriminate. eapply IH; [|exact H]. eapply FStep; eauto.
Qed.
Lemma granted_moves s i t : finv s -> nth_error (thr s) i = Some t -> granted t = true -> exists o s', comes o = false /\ fstep paranoid false s i o = FOk s'.
Proof.
  intros IV E G. destruct t; try discriminate.
  - destruct (read_unlock_ok paranoid s i IV E) as [s' [X _]]. exists FReadUnlock, s'. unfold fstep. rewrite E. auto.
  - destruct (write_unlock_ok paranoid s i e IV E) as [s' [X _]]. exists FWriteUnlock, s'. unfold fstep. rewrite E. auto.
  - destruct (read_resume_ok paranoid s i IV E) as [s' [X _]]. exists FResume, s'. unfold fstep. rewrite E. auto.
  - destruct (write_resume_ok paranoid s i e IV E) as [s' [X _]]. exists FResume, s'. unfold fstep. rewrite E. auto.
Qed.
Lemma asleep_granted s : finv s -> (0 < cnt asleep (thr s))%nat -> exists i t, nth_error (thr s) i = Some t /\ granted t = true.
Proof.
  intros IV A. apply cnt_ex. rewrite granted_cnt. ctx IV. destruct (Nat.eq_dec (cnt is_write (thr s) + cnt is_wokew (thr s) + cnt is_read (thr s) + cnt is_woker (thr s)) 0) as [Z|Z]; [|lia].
  apply I15 in Z. apply queue_none in Z; [lia|exact IV].
Qed.
Lemma drain_moves s : finv s -> (exists i t, nth_error (thr s) i = Some t /\ t <> TOut) -> exists i o s', comes o = false /\ fstep paranoid false s i o = FOk s'.
Proof.
  intros IV [i [t [E N]]]. assert (G : exists i t, nth_error (thr s) i = Some t /\ granted t = true).
  { destruct (granted t) eqn:G; [eauto|]. apply asleep_granted; [exact IV|]. eapply cnt_pos; [exact E|]. destruct t; try reflexivity; try discriminate; congruence. }
  destruct G as [k [t' [K G]]]. destruct (granted_moves s k t' IV K G) as [o [s' X]]. exists k, o, s'. exact X.
Qed.
End T.
