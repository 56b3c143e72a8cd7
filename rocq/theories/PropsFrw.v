(** C52: the fair reader/writer lock. *)
From Verif Require Import Base FrwModel FrwSpec FrwProofs FrwTop FrwSnap.

(** While one thread has the write lock no other thread has the lock in any way. *)
Theorem C52_exclusion : forall paranoid n s i e j t,
  freach paranoid false n s -> nth_error (thr s) i = Some (TWrite e) -> nth_error (thr s) j = Some t -> j <> i -> reads t = false /\ writes t = false.
Proof.
  intros p n s i e j t R E J N. assert (IV := freach_inv _ _ _ R). ctx IV.
  assert (W : (0 < cnt is_write (thr s))%nat) by (eapply cnt_pos; [exact E|reflexivity]). destruct (I14 ltac:(lia)) as [A1 A2].
  destruct t; try (split; reflexivity).
  - assert (X : (0 < cnt is_read (thr s))%nat) by (eapply cnt_pos; [exact J|reflexivity]). lia.
  - assert (C := cnt_upd is_write (thr s) i TOut _ E). assert (X : (0 < cnt is_write (upd (thr s) i TOut))%nat).
    { eapply (cnt_pos is_write _ j); [rewrite upd_other; [exact J|exact N]|reflexivity]. } cbn in C. lia.
Qed.

(** No paranoid invariant of the lock fails and the queue is never found empty where
    an item is taken from it. *)
Theorem C52_no_assert : forall paranoid n s i o, freach paranoid false n s -> fstep paranoid false s i o <> FBug.
Proof. intros p n s i o R H. destruct (fstep_ok p s i o (freach_inv _ _ _ R)) as [X|[s' [X _]]]; congruence. Qed.

(** First come, first served. *)
Theorem C52_fcfs : forall paranoid n s i o s', freach paranoid false n s -> fstep paranoid false s i o = FOk s' -> fcfs s i s'.
Proof. intros p n s i o s' R H. eapply fstep_fcfs; [eapply freach_inv; exact R|exact H]. Qed.

(** No wake-up is lost: if nobody new comes and those who have the lock give it back,
    then after at most three steps a thread everyone has had it and left; until then
    some thread can always move. *)
Theorem C52_drains : forall paranoid n s l s',
  freach paranoid false n s -> Forall (fun p => comes (snd p) = false) l -> frun paranoid s l = FOk s' ->
  (length l <= 3 * n)%nat /\
  ((forall i t, nth_error (thr s') i = Some t -> t = TOut) \/ exists i o s2, comes o = false /\ fstep paranoid false s' i o = FOk s2).
Proof.
  intros p n s l s' R F H. assert (R' := frun_reach p n l s s' R H). split.
  - apply drain_run in H; [|exact F]. assert (M := load_max (thr s)). rewrite (freach_length _ _ _ R) in M. lia.
  - assert (D : (forall i t, nth_error (thr s') i = Some t -> t = TOut) \/ exists i t, nth_error (thr s') i = Some t /\ t <> TOut).
    { generalize (thr s') as l0. induction l0 as [|a l0 IH]; [left; intros [|i] t X; discriminate|].
      destruct a; try (right; exists 0%nat; eexists; split; [reflexivity|discriminate]).
      destruct IH as [IH|[i [t X]]]; [left; intros [|i] t X; [inversion X; reflexivity|apply (IH i t X)]|right; exists (S i), t; exact X]. }
    destruct D as [D|D]; [left; exact D|right]. apply drain_moves; [eapply freach_inv; exact R'|exact D].
Qed.

(** What the lock tells about itself is what the threads are doing. *)
Theorem C52_accounting : forall paranoid n s, freach paranoid false n s ->
  n_readers s = count reads (thr s) /\ n_writers s = count writes (thr s) /\
  blocked_users s = count calling (thr s) /\ users s = count (fun t => negb (outside t)) (thr s) /\
  (write_is_expensive s = true <-> exists i t, nth_error (thr s) i = Some t /\ dear t = true).
Proof.
  intros p n s R. assert (IV := freach_inv _ _ _ R). ctx IV. rewrite !count_cnt, calling_cnt, inside_cnt. unfold users, blocked_users.
  split; [exact I1|]. split; [exact I2|]. split; [lia|]. split; [lia|].
  unfold write_is_expensive. rewrite orb_true_iff, I7, !pos_true, I6. assert (D := dear_cnt (thr s)). split.
  - intros X. apply cnt_ex. lia.
  - intros [i [t [E X]]]. assert (Y := cnt_pos dear _ _ _ E X). lia.
Qed.

(** When a read is said to be cheap, no writer whose work is expensive has the lock,
    has been given it, or stands in the queue before the readers that sleep (or at
    all, when none sleeps). *)
Theorem C52_cheap_read : forall paranoid n s i t, freach paranoid false n s -> read_is_expensive s = false ->
  nth_error (thr s) i = Some t -> dear t = true -> asleep t = true /\ exists pre suf, queue s = pre ++ QR :: suf /\ In (QW i) suf.
Proof.
  intros p n s i t R X E D. assert (IV := freach_inv _ _ _ R). assert (SN := freach_snap _ _ _ R). ctx IV.
  unfold read_is_expensive in X. destruct (rinq s) eqn:Q.
  - assert (A : asleep t = true). { destruct (granted t) eqn:G; [rewrite (sn_held s SN Q X i t E G) in D; discriminate|]. destruct t; try discriminate; reflexivity. }
    split; [exact A|]. assert (QI : In QR (queue s)) by (apply I9; reflexivity). apply in_split in QI. destruct QI as [pre [suf P]]. exists pre, suf. split; [exact P|].
    destruct t; try discriminate. cbn in D. subst e. assert (Y : In (QW i) (queue s)) by (apply I12; eauto). rewrite P in Y. apply in_app_iff in Y.
    destruct Y as [Y|[Y|Y]]; [exfalso; eapply (sn_ahead s SN Q X); eauto|discriminate|exact Y].
  - rewrite orb_false_iff, I7, !pos_false in X. assert (Y := cnt_pos dear _ _ _ E D). rewrite dear_cnt in Y. lia.
Qed.

(** cond_wait may return with no signal (POSIX), and the lock calls it once, not in a
    loop (frwlock.cc:152, 220): a writer woken this way takes the lock beside the one
    that has it. *)
Theorem C52_spurious_refuted : exists s e e', freach false true 2 s /\ nth_error (thr s) 0 = Some (TWrite e) /\ nth_error (thr s) 1 = Some (TWrite e').
Proof.
  eexists _, false, false. split.
  - eapply (FStep _ _ _ _ 1 FResume); [eapply (FStep _ _ _ _ 1 FSpurious); [eapply (FStep _ _ _ _ 1 (FWrite false)); [eapply (FStep _ _ _ _ 0 (FWrite false)); [apply FStart|reflexivity]|reflexivity]|reflexivity]|reflexivity].
  - split; reflexivity.
Qed.

(** Thread 0 writes (an expensive one), threads 1 and 2 ask to read, thread 3 asks to
    write and thread 4 asks to read: 4 goes with the other readers, before the writer. *)
Definition busy : list (nat * fop) := [(0, FWrite true); (1, FRead); (3, FWrite false); (2, FRead); (4, FRead)]%nat.
Example C52_busy : exists s, frun true (finit 5) busy = FOk s /\ freach true false 5 s /\ queue s = [QR; QW 3] /\
  thr s = [TWrite true; TWaitR; TWaitR; TWaitW false; TWaitR] /\ read_is_expensive s = true /\ users s = 5%nat.
Proof. eexists. split; [vm_compute; reflexivity|]. split; [apply (frun_reach true 5 busy (finit 5)); [apply FStart|vm_compute; reflexivity]|]. repeat split. Qed.
(** The writer leaves, the readers run and leave, and the waiting writer gets its turn. *)
Example C52_turns : exists s, frun true (finit 5) (busy ++ [(0, FWriteUnlock); (2, FResume); (1, FResume); (2, FReadUnlock); (4, FResume); (1, FReadUnlock); (4, FReadUnlock); (3, FResume)])%nat = FOk s /\
  thr s = [TOut; TOut; TOut; TWrite false; TOut] /\ queue s = [].
Proof. eexists. split; [vm_compute; reflexivity|]. split; reflexivity. Qed.

Print Assumptions C52_exclusion.
Print Assumptions C52_no_assert.
Print Assumptions C52_fcfs.
Print Assumptions C52_drains.
Print Assumptions C52_accounting.
Print Assumptions C52_cheap_read.
Print Assumptions C52_spurious_refuted.
