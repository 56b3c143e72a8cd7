(** What read_lock_is_expensive stands for. *)
From Verif Require Import Base FrwModel FrwProofs FrwSpec FrwTop.

Record fsnap (s : frw) : Prop := {
  sn_held : rinq s = true -> rwait_exp s = false -> forall j t, nth_error (thr s) j = Some t -> granted t = true -> dear t = false;
  sn_ahead : rinq s = true -> rwait_exp s = false -> forall pre suf j, queue s = pre ++ QR :: suf -> In (QW j) pre -> nth_error (thr s) j <> Some (TWaitW true) }.

Lemma snap_no s : rinq s = false -> fsnap s.
Proof. intros R. split; congruence. Qed.

Lemma app_qr (l : list item) x pre suf : x <> QR -> l ++ [x] = pre ++ QR :: suf -> exists suf', l = pre ++ QR :: suf'.
Proof.
  intros N H. destruct suf as [|y suf] using rev_ind.
  - apply app_inj_tail in H. destruct H. congruence.
  - change (pre ++ QR :: suf ++ [y]) with (pre ++ (QR :: suf) ++ [y]) in H. rewrite app_assoc in H. apply app_inj_tail in H. destruct H as [H _]. exists suf. exact H.
Qed.

Section N.
Variable paranoid : bool.

(** One thread changes state and the queue stays. *)
Lemma snap_upd s s' i y x : fsnap s -> nth_error (thr s) i = Some y -> thr s' = upd (thr s) i x -> queue s' = queue s -> rinq s' = rinq s -> rwait_exp s' = rwait_exp s ->
  (granted x = true -> dear x = true -> granted y = true /\ dear y = true) -> (forall e, x <> TWaitW e) -> fsnap s'.
Proof.
  intros S E T Q R W G NW. split; rewrite R, W.
  - intros A B j t J GT. rewrite T in J. destruct (Nat.eq_dec j i) as [->|N].
    + rewrite (upd_same _ _ _ _ E) in J. inversion J; subst t. destruct (dear x) eqn:D; [|reflexivity]. destruct (G GT eq_refl). rewrite (sn_held s S A B i y E H) in H0. discriminate.
    + rewrite upd_other in J by exact N. eapply (sn_held s S A B); eauto.
  - intros A B pre suf j QQ IN X. rewrite Q in QQ. rewrite T in X. destruct (Nat.eq_dec j i) as [->|N].
    + rewrite (upd_same _ _ _ _ E) in X. inversion X. eapply NW; eauto.
    + rewrite upd_other in X by exact N. eapply (sn_ahead s S A B); eauto.
Qed.
(** The first writer is woken. *)
Lemma snap_wake s k q : finv0 s -> fsnap s -> queue s = QW k :: q -> fsnap (signal_w (set_q s q) k).
Proof.
  intros IV S Q. assert (X : In (QW k) (queue s)) by (rewrite Q; left; reflexivity). apply (f_qw _ IV) in X. destruct X as [e K].
  assert (AH : rinq s = true -> exists pre suf, q = pre ++ QR :: suf).
  { intros R. apply (f_rq _ IV) in R. rewrite Q in R. destruct R as [R|R]; [discriminate|]. apply in_split in R. destruct R as [a [b R]]. eauto. }
  unfold signal_w, set_t, set_q. cbn [thr queue rinq rwait_exp]. rewrite (nth_error_nth _ _ TOut K). cbn [wake_w].
  split; cbn [thr queue rinq rwait_exp].
  - intros A B j t J GT. destruct (Nat.eq_dec j k) as [->|N].
    + rewrite (upd_same _ _ _ _ K) in J. inversion J; subst t. destruct e; [|reflexivity]. exfalso.
      destruct (AH A) as [pre [suf P]]. apply (sn_ahead s S A B (QW k :: pre) suf k); [rewrite Q, P; reflexivity|left; reflexivity|exact K].
    + rewrite upd_other in J by exact N. eapply (sn_held s S A B); eauto.
  - intros A B pre suf j P IN X. destruct (Nat.eq_dec j k) as [->|N].
    + rewrite (upd_same _ _ _ _ K) in X. discriminate.
    + rewrite upd_other in X by exact N. apply (sn_ahead s S A B (QW k :: pre) suf j); [rewrite Q, P; reflexivity|right; exact IN|exact X].
Qed.

Lemma fstep_snap s i o s' : finv s -> fsnap s -> fstep paranoid false s i o = FOk s' -> fsnap s'.
Proof.
  intros IV S H. unfold fstep in H. destruct (nth_error (thr s) i) as [t|] eqn:E; [|discriminate]. ctx IV.
  assert (TW : forall e s2, try_write paranoid s i e = Some (FOk s2) -> t = TOut -> fsnap s2).
  { intros e s2 X ->. destruct (try_write_ok paranoid s i e IV E) as [[N _]|[s3 [Y [F [Q1 [Q2 _]]]]]]; [congruence|]. rewrite X in Y. inversion Y; subst s3.
    apply snap_no. destruct (rinq s2) eqn:R; [|reflexivity]. apply (f_rq _ (f_base _ F)) in R. rewrite Q2 in R. destruct R. }
  destruct t, o; try discriminate H.
  - unfold write_lock in H. destruct (try_write paranoid s i e) as [r|] eqn:W; [subst r; apply (TW e s' W eq_refl)|]. inversion H; subst s'.
    split; cbn [thr queue rinq rwait_exp].
    + intros A B j t J GT. destruct (Nat.eq_dec j i) as [->|N].
      * rewrite (upd_same _ _ _ _ E) in J. inversion J; subst t. discriminate.
      * rewrite upd_other in J by exact N. eapply (sn_held s S A B); eauto.
    + intros A B pre suf j P IN X. apply app_qr in P; [|discriminate]. destruct P as [suf' P].
      assert (NE : j <> i). { intros ->. assert (Y : In (QW i) (queue s)) by (rewrite P; apply in_app_iff; auto). apply I12 in Y. destruct Y. congruence. }
      rewrite upd_other in X by exact NE. eapply (sn_ahead s S A B); eauto.
  - destruct (try_write paranoid s i e) as [r|] eqn:W; [subst r; apply (TW e s' W eq_refl)|]. inversion H; subst. exact S.
  - unfold read_lock in H. destruct (pos (n_writers s) || pos (n_want_write s)) eqn:B.
    + destruct (rinq s) eqn:R.
      * inversion H; subst s'. eapply snap_upd; [exact S|exact E|reflexivity|reflexivity|exact (eq_sym R)|reflexivity|discriminate|discriminate].
      * apply inv_check_ok in H. inversion H; subst s'.
        assert (D : cur_exp s || pos (n_exp_want s) = false -> forall j t, nth_error (upd (thr s) i TWaitR) j = Some t -> dear t = false).
        { intros D j t J. rewrite orb_false_iff, I7, !pos_false in D. destruct D as [D1 D2]. destruct (dear t) eqn:DT; [|reflexivity]. exfalso.
          destruct (Nat.eq_dec j i) as [->|N]; [rewrite (upd_same _ _ _ _ E) in J; inversion J; subst; discriminate|]. rewrite upd_other in J by exact N.
          assert (X : (0 < cnt dear (thr s))%nat) by (eapply cnt_pos; eauto). rewrite dear_cnt in X. lia. }
        split; cbn [thr queue rinq rwait_exp].
        -- intros _ C j t J _. eapply D; eauto.
        -- intros _ C pre suf j _ _ X. apply D in X; [discriminate|exact C].
    + inversion H; subst s'. eapply snap_upd; [exact S|exact E|reflexivity|reflexivity|reflexivity|reflexivity|discriminate|discriminate].
  - unfold try_read in H. destruct (pos (n_writers s) || pos (n_want_write s)) eqn:B; inversion H; subst; [exact S|].
    eapply snap_upd; [exact S|exact E|reflexivity|reflexivity|reflexivity|reflexivity|discriminate|discriminate].
  - unfold read_unlock in H. apply inv_check_ok in H. revert H.
    set (s1 := mkF _ _ _ _ _ _ _ _ _ _ _). intros H.
    assert (B1 : finv0 s1) by exact (read_unlock_base s i IV E).
    assert (S1 : fsnap s1) by (eapply snap_upd; [exact S|exact E|reflexivity|reflexivity|reflexivity|reflexivity|discriminate|discriminate]).
    assert (RD : (0 < cnt is_read (thr s))%nat) by (eapply cnt_pos; [exact E|reflexivity]).
    assert (W0 : (cnt is_write (thr s) + cnt is_wokew (thr s) = 0)%nat). { destruct (Nat.eq_dec (cnt is_write (thr s) + cnt is_wokew (thr s)) 0) as [Z|Z]; [exact Z|]. destruct (I14 ltac:(lia)). lia. }
    unfold signal_next_writer in H. destruct (_ && _ && _); [|inversion H; subst s'; exact S1].
    assert (Q1 : queue s1 = queue s) by reflexivity. rewrite Q1 in H. destruct (queue s) as [|[|k] q] eqn:Q; [discriminate|exfalso; eapply (I16 W0); reflexivity|].
    inversion H; subst s'. apply snap_wake; [exact B1|exact S1|exact Q1].
  - unfold write_unlock in H. apply inv_check_ok in H. revert H. set (s1 := mkF _ _ _ _ _ _ _ _ _ _ _). intros H.
    assert (B1 : finv0 s1) by exact (write_unlock_base s i _ IV E).
    assert (S1 : fsnap s1) by (eapply snap_upd; [exact S|exact E|reflexivity|reflexivity|reflexivity|reflexivity|discriminate|discriminate]).
    unfold signal_next in H. apply inv_check_ok in H. assert (Q1 : queue s1 = queue s) by reflexivity. rewrite Q1 in H.
    destruct (queue s) as [|[|k] q] eqn:Q; apply inv_check_ok in H; inversion H; subst s'.
    + exact S1.
    + apply snap_no. reflexivity.
    + apply snap_wake; [exact B1|exact S1|exact Q1].
  - apply inv_check_ok in H. inversion H; subst s'. eapply snap_upd; [exact S|exact E|reflexivity|reflexivity|reflexivity|reflexivity|discriminate|discriminate].
  - apply inv_check_ok in H. inversion H; subst s'. eapply snap_upd; [exact S|exact E|reflexivity|reflexivity|reflexivity|reflexivity| |discriminate]. auto.
Qed.
Lemma freach_snap n s : freach paranoid false n s -> fsnap s.
Proof. induction 1 as [|s i o s' R IH H]; [apply snap_no; reflexivity|]. eapply fstep_snap; [eapply freach_inv; exact R|exact IH|exact H]. Qed.
End N.
