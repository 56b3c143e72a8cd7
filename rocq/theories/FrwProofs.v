(** Lemmas about the fair reader/writer lock. *)
From Verif Require Import Base FrwModel.

Definition cnt (p : tst -> bool) (l : list tst) : nat := length (filter p l).
Arguments cnt : simpl never.
Arguments pos : simpl never.
Arguments zero : simpl never.
Definition is_read t := match t with TRead => true | _ => false end.
Definition is_write t := match t with TWrite _ => true | _ => false end.
Definition is_waitr t := match t with TWaitR => true | _ => false end.
Definition is_woker t := match t with TWokeR => true | _ => false end.
Definition is_waitw t := match t with TWaitW _ => true | _ => false end.
Definition is_wokew t := match t with TWokeW _ => true | _ => false end.
Definition is_expw t := match t with TWaitW true | TWokeW true => true | _ => false end.
Definition is_expc t := match t with TWrite true => true | _ => false end.

Lemma upd_length {A} (l : list A) i x : length (upd l i x) = length l.
Proof. revert i. induction l; intros [|i]; cbn; auto. Qed.
Lemma nth_upd {A} (l : list A) i j x : nth_error (upd l i x) j = if (j =? i)%nat then match nth_error l j with Some _ => Some x | None => None end else nth_error l j.
Proof.
  revert i j. induction l as [|a l IH]; intros [|i] [|j]; cbn; auto; try (destruct (_ =? _)%nat; reflexivity).
Qed.
Lemma cnt_upd p l i x y : nth_error l i = Some y -> (cnt p (upd l i x) + b2n (p y) = cnt p l + b2n (p x))%nat.
Proof.
  unfold cnt. revert i. induction l as [|a l IH]; intros [|i]; cbn; try discriminate.
  - intros E. inversion E; subst. destruct (p y), (p x); cbn; lia.
  - intros E. specialize (IH i E). destruct (p a); cbn; lia.
Qed.
Lemma cnt_pos p l i y : nth_error l i = Some y -> p y = true -> (0 < cnt p l)%nat.
Proof. unfold cnt. revert i. induction l as [|a l IH]; intros [|i]; cbn; try discriminate; intros E P; [inversion E; subst; rewrite P; cbn; lia|specialize (IH i E P); destruct (p a); cbn; lia]. Qed.
Lemma cnt_ex p l : (0 < cnt p l)%nat -> exists i y, nth_error l i = Some y /\ p y = true.
Proof.
  unfold cnt. induction l as [|a l IH]; cbn; [lia|]. destruct (p a) eqn:P; [intros _; exists 0%nat, a; auto|].
  intros H. destruct (IH H) as [i [y E]]. exists (S i), y. exact E.
Qed.
Lemma cnt_map p f l : cnt p (map f l) = cnt (fun t => p (f t)) l.
Proof. unfold cnt. induction l as [|a l IH]; cbn; auto. destruct (p (f a)); cbn; lia. Qed.
Lemma cnt_ext p q l : (forall t, p t = q t) -> cnt p l = cnt q l.
Proof. intros E. unfold cnt. induction l as [|a l IH]; cbn; auto. rewrite E. destruct (q a); cbn; lia. Qed.
Lemma cnt_or p q l : (forall t, p t = true -> q t = true -> False) -> cnt (fun t => p t || q t) l = (cnt p l + cnt q l)%nat.
Proof. intros E. unfold cnt. induction l as [|a l IH]; cbn; auto. specialize (E a). destruct (p a), (q a); cbn; try lia; exfalso; auto. Qed.
Lemma cnt_false l : cnt (fun _ => false) l = 0%nat.
Proof. unfold cnt. induction l; cbn; auto. Qed.

Record finv0 (s : frw) : Prop := {
  f_r : n_readers s = cnt is_read (thr s);
  f_w : n_writers s = cnt is_write (thr s);
  f_ww : n_want_write s = (cnt is_waitw (thr s) + cnt is_wokew (thr s))%nat;
  f_wr : n_want_read s = (cnt is_waitr (thr s) + cnt is_woker (thr s))%nat;
  f_s : n_signaled s = cnt is_woker (thr s);
  f_e : n_exp_want s = cnt is_expw (thr s);
  f_c : cur_exp s = pos (cnt is_expc (thr s));
  f_re : rinq s = false -> rwait_exp s = false;
  f_rq : rinq s = true <-> In QR (queue s);
  f_rw : rinq s = pos (cnt is_waitr (thr s));
  f_nd : NoDup (queue s);
  f_qw : forall i, In (QW i) (queue s) <-> exists e, nth_error (thr s) i = Some (TWaitW e);
  f_one : (cnt is_write (thr s) + cnt is_wokew (thr s) <= 1)%nat;
  f_excl : (0 < cnt is_write (thr s) + cnt is_wokew (thr s))%nat -> cnt is_read (thr s) = 0%nat /\ cnt is_woker (thr s) = 0%nat }.
Record finv (s : frw) : Prop := {
  f_base : finv0 s;
  f_live : (cnt is_write (thr s) + cnt is_wokew (thr s) + cnt is_read (thr s) + cnt is_woker (thr s) = 0)%nat -> queue s = [];
  f_head : (cnt is_write (thr s) + cnt is_wokew (thr s) = 0)%nat -> forall x q, queue s = x :: q -> x <> QR }.

Lemma finv_init n : finv (finit n).
Proof.
  assert (Z : forall p, p TOut = false -> cnt p (repeat TOut n) = 0%nat).
  { intros p H. unfold cnt. induction n; cbn; [reflexivity|]. rewrite H. exact IHn. }
  split; [split|..]; cbn; rewrite ?Z; auto; try discriminate; try tauto.
  - split; [discriminate|tauto].
  - constructor.
  - intros i. split; [tauto|]. intros [e H]. apply nth_error_In in H. apply repeat_spec in H. discriminate.
Qed.

Ltac ctx0 IV := pose proof (f_r _ IV) as I1; pose proof (f_w _ IV) as I2; pose proof (f_ww _ IV) as I3; pose proof (f_wr _ IV) as I4;
  pose proof (f_s _ IV) as I5; pose proof (f_e _ IV) as I6; pose proof (f_c _ IV) as I7; pose proof (f_re _ IV) as I8; pose proof (f_rq _ IV) as I9;
  pose proof (f_rw _ IV) as I10; pose proof (f_nd _ IV) as I11; pose proof (f_qw _ IV) as I12; pose proof (f_one _ IV) as I13; pose proof (f_excl _ IV) as I14.
Ltac ctx IV := let B := fresh "BA" in pose proof (f_base _ IV) as B; ctx0 B; pose proof (f_live _ IV) as I15; pose proof (f_head _ IV) as I16.
Lemma pos_true n : pos n = true <-> (0 < n)%nat.
Proof. unfold pos. apply Nat.ltb_lt. Qed.
Lemma pos_false n : pos n = false <-> n = 0%nat.
Proof. unfold pos. rewrite Nat.ltb_ge. lia. Qed.
Lemma zero_true n : zero n = true <-> n = 0%nat.
Proof. apply Nat.eqb_eq. Qed.

(** The counts of the threads after one of them changes. *)
Lemma counts_upd l i x y : nth_error l i = Some y ->
  (cnt is_read (upd l i x) + b2n (is_read y) = cnt is_read l + b2n (is_read x))%nat /\
  (cnt is_write (upd l i x) + b2n (is_write y) = cnt is_write l + b2n (is_write x))%nat /\
  (cnt is_waitr (upd l i x) + b2n (is_waitr y) = cnt is_waitr l + b2n (is_waitr x))%nat /\
  (cnt is_woker (upd l i x) + b2n (is_woker y) = cnt is_woker l + b2n (is_woker x))%nat /\
  (cnt is_waitw (upd l i x) + b2n (is_waitw y) = cnt is_waitw l + b2n (is_waitw x))%nat /\
  (cnt is_wokew (upd l i x) + b2n (is_wokew y) = cnt is_wokew l + b2n (is_wokew x))%nat /\
  (cnt is_expw (upd l i x) + b2n (is_expw y) = cnt is_expw l + b2n (is_expw x))%nat /\
  (cnt is_expc (upd l i x) + b2n (is_expc y) = cnt is_expc l + b2n (is_expc x))%nat.
Proof. intros E. repeat split; apply cnt_upd, E. Qed.

Lemma exp_le_write l : (cnt is_expc l <= cnt is_write l)%nat.
Proof. unfold cnt. induction l as [|[| |[]| | | |] l IH]; cbn; lia. Qed.
Lemma expw_le l : (cnt is_expw l <= cnt is_waitw l + cnt is_wokew l)%nat.
Proof. unfold cnt. induction l as [|[| |[]| | |[]|[]] l IH]; cbn; lia. Qed.

Lemma qw_upd l q i x y : (forall j, In (QW j) q <-> exists e, nth_error l j = Some (TWaitW e)) -> nth_error l i = Some y ->
  (forall e, y <> TWaitW e) -> (forall e, x <> TWaitW e) -> forall j, In (QW j) q <-> exists e, nth_error (upd l i x) j = Some (TWaitW e).
Proof.
  intros H E Y X j. rewrite H, nth_upd. destruct (Nat.eqb_spec j i) as [->|N]; [|reflexivity]. rewrite E. split; intros [e A]; inversion A; subst; exfalso; [eapply Y|eapply X]; eauto.
Qed.

Ltac bd := unfold pos, zero, b2n in *; repeat match goal with
  | H : context[(?a <? ?b)%nat] |- _ => destruct (Nat.ltb_spec a b)
  | |- context[(?a <? ?b)%nat] => destruct (Nat.ltb_spec a b)
  | H : context[(?a =? ?b)%nat] |- _ => destruct (Nat.eqb_spec a b)
  | |- context[(?a =? ?b)%nat] => destruct (Nat.eqb_spec a b)
  end; cbn [orb andb negb] in *.

Section S.
Variable paranoid : bool.

Lemma check_ok b r : b = true -> inv_check paranoid b r = r.
Proof. intros ->. unfold inv_check. rewrite andb_false_r. reflexivity. Qed.

Ltac flds := cbn [n_readers n_writers n_want_write n_want_read n_signaled n_exp_want cur_exp rwait_exp rinq queue thr].
Ltac cup E x := destruct (counts_upd _ _ x _ E) as [C1 [C2 [C3 [C4 [C5 [C6 [C7 C8]]]]]]]; cbn [is_read is_write is_waitr is_woker is_waitw is_wokew is_expw is_expc b2n] in C1, C2, C3, C4, C5, C6, C7, C8.

Lemma waitw_queue s : finv0 s -> (0 < cnt is_waitw (thr s))%nat -> queue s <> [].
Proof.
  intros IV H Q. apply cnt_ex in H. destruct H as [i [y [E P]]]. destruct y; try discriminate.
  assert (X : In (QW i) (queue s)) by (apply (f_qw _ IV); eauto). rewrite Q in X. destruct X.
Qed.
Lemma waitr_queue s : finv0 s -> (0 < cnt is_waitr (thr s))%nat -> In QR (queue s).
Proof. intros IV H. apply (f_rq _ IV). rewrite (f_rw _ IV). apply pos_true, H. Qed.
Lemma queue_waitr s : finv0 s -> In QR (queue s) -> (0 < cnt is_waitr (thr s))%nat.
Proof. intros IV H. apply (f_rq _ IV) in H. rewrite (f_rw _ IV) in H. apply pos_true, H. Qed.
Lemma queue_waitw s j : finv0 s -> In (QW j) (queue s) -> (0 < cnt is_waitw (thr s))%nat.
Proof. intros IV H. apply (f_qw _ IV) in H. destruct H as [e H]. eapply cnt_pos; [exact H|reflexivity]. Qed.

Lemma try_write_ok s i e : finv s -> nth_error (thr s) i = Some TOut ->
  (try_write paranoid s i e = None /\ (0 < n_readers s + n_writers s + n_signaled s + n_want_write s)%nat) \/
  exists s', try_write paranoid s i e = Some (FOk s') /\ finv s' /\ queue s = [] /\ queue s' = [] /\ thr s' = upd (thr s) i (TWrite e) /\ users s = 0%nat.
Proof.
  intros IV E. unfold try_write.
  destruct (pos (n_readers s) || pos (n_writers s) || pos (n_signaled s) || pos (n_want_write s)) eqn:B.
  { left. split; [reflexivity|]. rewrite !orb_true_iff, !pos_true in B. lia. }
  right. rewrite !orb_false_iff, !pos_false in B. destruct B as [[[B1 B2] B3] B4]. ctx IV.
  assert (Q : queue s = []). { apply I15. lia. }
  assert (WR : cnt is_waitr (thr s) = 0%nat).
  { destruct (cnt is_waitr (thr s)) eqn:R; [reflexivity|]. assert (X : In QR (queue s)) by (apply waitr_queue; [exact BA|lia]). rewrite Q in X. destruct X. }
  assert (RQ : rinq s = false) by (rewrite I10; apply pos_false, WR).
  eexists. split; [rewrite check_ok; [reflexivity|apply andb_true_iff; rewrite !zero_true; lia]|].
  cup E (TWrite e). assert (EX := exp_le_write (thr s)).
  split; [|flds; unfold users; repeat split; auto; lia].
  split; [split|..]; flds; auto; try lia.
  - destruct e; cbn in C8; symmetry; [apply pos_true|apply pos_false]; lia.
  - rewrite RQ. symmetry. apply pos_false. lia.
  - eapply qw_upd; eauto; congruence.
Qed.

Lemma write_lock_ok s i e : finv s -> nth_error (thr s) i = Some TOut -> exists s', write_lock paranoid s i e = FOk s' /\ finv s'.
Proof.
  intros IV E. unfold write_lock. destruct (try_write_ok s i e IV E) as [[N B]|[s' [H [F _]]]]; [|rewrite H; eauto].
  rewrite N. eexists. split; [reflexivity|]. ctx IV. cup E (TWaitW e).
  assert (NQ : ~ In (QW i) (queue s)). { intros X. apply I12 in X. destruct X as [e' X]. congruence. }
  split; [split|..]; flds; auto; try lia.
  - destruct e; cbn in *; lia.
  - rewrite I7. f_equal. lia.
  - rewrite I9, in_app_iff. cbn. split; [auto|]. intros [X|[X|[]]]; [exact X|discriminate].
  - rewrite I10. f_equal. lia.
  - apply NoDup_app_remove_r with (l' := []) || idtac. rewrite <- (app_nil_r (queue s ++ [QW i])). rewrite <- app_assoc. cbn. apply NoDup_Add with (a := QW i) (l := queue s).
    + rewrite <- (app_nil_r (queue s)) at 1. apply Add_app.
    + split; assumption.
  - intros j. rewrite in_app_iff, I12, nth_upd. cbn. destruct (Nat.eqb_spec j i) as [->|NE].
    + rewrite E. split; [eauto|]. auto.
    + split; [intros [X|[X|[]]]; [exact X|inversion X; congruence]|auto].
  - intros X. exfalso. assert (Q : queue s = []) by (apply I15; lia). apply (waitw_queue s BA); [lia|exact Q].
  - intros X x q Q. destruct (queue s) as [|x0 q0] eqn:QE; cbn in Q; inversion Q; subst; [discriminate|]. apply (I16 ltac:(lia) x q0). reflexivity.
Qed.

Lemma write_resume_ok s i e : finv s -> nth_error (thr s) i = Some (TWokeW e) -> exists s', write_resume paranoid s i e = FOk s' /\ finv s'.
Proof.
  intros IV E. unfold write_resume. ctx IV. cup E (TWrite e).
  assert (EX := exp_le_write (thr s)). destruct (I14 ltac:(lia)) as [A1 A2].
  eexists. split; [rewrite check_ok; [reflexivity|rewrite !andb_true_iff, !zero_true, pos_true; lia]|].
  split; [split|..]; flds; auto; try lia.
  - destruct e; cbn in *; lia.
  - destruct e; cbn in C8; symmetry; [apply pos_true|apply pos_false]; lia.
  - rewrite I10. f_equal. lia.
  - eapply qw_upd; eauto; congruence.
Qed.

Lemma read_lock_ok s i : finv s -> nth_error (thr s) i = Some TOut -> exists s', read_lock paranoid s i = FOk s' /\ finv s'.
Proof.
  intros IV E. unfold read_lock. ctx IV. destruct (pos (n_writers s) || pos (n_want_write s)) eqn:B.
  - rewrite orb_true_iff, !pos_true in B. cup E TWaitR. destruct (rinq s) eqn:R.
    + eexists. split; [reflexivity|]. split; [split|..]; flds; auto; try lia.
      * rewrite I7. f_equal. lia.
      * symmetry. apply pos_true. lia.
      * eapply qw_upd; eauto; congruence.
      * intros X. apply I15. lia.
      * intros X. apply I16. lia.
    + assert (WR : cnt is_waitr (thr s) = 0%nat) by (apply pos_false; congruence).
      assert (NQ : ~ In QR (queue s)). { intros X. apply I9 in X. discriminate. }
      eexists. split; [rewrite check_ok; [reflexivity|rewrite (I8 eq_refl), andb_true_r; apply Nat.eqb_eq; lia]|].
      split; [split|..]; flds; auto; try lia.
      * rewrite I7. f_equal. lia.
      * split; [intros _; apply in_app_iff; right; left; reflexivity|reflexivity].
      * symmetry. apply pos_true. lia.
      * apply NoDup_Add with (a := QR) (l := queue s); [rewrite <- (app_nil_r (queue s)) at 1; apply Add_app|split; assumption].
      * intros j. rewrite in_app_iff. rewrite <- (qw_upd (thr s) (queue s) i TWaitR TOut); auto; try congruence.
        cbn. split; [intros [X|[X|[]]]; [exact X|discriminate]|auto].
      * intros X. exfalso. apply (waitw_queue s BA); [lia|apply I15; lia].
      * intros X x q Q. assert (WQ : queue s <> []) by (apply (waitw_queue s BA); lia).
        destruct (queue s) as [|x0 q0] eqn:QE; [congruence|]. cbn in Q. inversion Q; subst. apply (I16 ltac:(lia) x q0). reflexivity.
  - rewrite orb_false_iff, !pos_false in B. destruct B as [B1 B2]. cup E TRead. eexists. split; [reflexivity|].
    split; [split|..]; flds; auto; try lia.
    + rewrite I7. f_equal. lia.
    + rewrite I10. f_equal. lia.
    + eapply qw_upd; eauto; congruence.
    + intros X. apply I16. lia.
Qed.

Lemma try_read_ok s i : finv s -> nth_error (thr s) i = Some TOut -> exists s', try_read s i = FOk s' /\ finv s'.
Proof.
  intros IV E. unfold try_read. destruct (pos (n_writers s) || pos (n_want_write s)) eqn:B; [eauto|].
  destruct (read_lock_ok s i IV E) as [s' [H F]]. unfold read_lock in H. rewrite B in H. eauto.
Qed.

Lemma read_resume_ok s i : finv s -> nth_error (thr s) i = Some TWokeR -> exists s', read_resume paranoid s i = FOk s' /\ finv s'.
Proof.
  intros IV E. unfold read_resume. ctx IV. cup E TRead.
  assert (W0 : (cnt is_write (thr s) + cnt is_wokew (thr s) = 0)%nat). { destruct (Nat.eq_dec (cnt is_write (thr s) + cnt is_wokew (thr s)) 0) as [Z|Z]; [exact Z|]. destruct (I14 ltac:(lia)). lia. }
  eexists. split; [rewrite check_ok; [reflexivity|rewrite !andb_true_iff, zero_true, !pos_true; lia]|].
  split; [split|..]; flds; auto; try lia.
  - rewrite I7. f_equal. lia.
  - rewrite I10. f_equal. lia.
  - eapply qw_upd; eauto; congruence.
  - intros X. apply I16. lia.
Qed.

(** The first writer of the queue is woken when nobody has the lock. *)
Lemma wake_ok s j q : finv0 s -> queue s = QW j :: q ->
  (cnt is_write (thr s) + cnt is_wokew (thr s) + cnt is_read (thr s) + cnt is_woker (thr s) = 0)%nat -> finv (signal_w (set_q s q) j).
Proof.
  intros IV Q Z. ctx0 IV.
  assert (X : In (QW j) (queue s)) by (rewrite Q; left; reflexivity). apply I12 in X. destruct X as [e E].
  unfold signal_w, set_t, set_q. flds. rewrite (nth_error_nth _ _ TOut E). cbn [wake_w]. cup E (TWokeW e).
  rewrite Q in I11. inversion I11 as [|a b N1 N2]; subst.
  split; [split|..]; flds; auto; try lia.
  - rewrite I7. f_equal. lia.
  - rewrite I9, Q. cbn. split; [intros [X|X]; [discriminate|exact X]|auto].
  - rewrite I10. f_equal. lia.
  - intros k. rewrite nth_upd. specialize (I12 k). rewrite Q in I12. cbn in I12. destruct (Nat.eqb_spec k j) as [->|NE].
    + rewrite E. split; [intros X; contradiction|intros [e' X]; discriminate].
    + rewrite <- I12. split; [auto|intros [X|X]; [inversion X; congruence|exact X]].
Qed.

Definition leave_r (s : frw) i := mkF (n_readers s - 1) (n_writers s) (n_want_write s) (n_want_read s) (n_signaled s) (n_exp_want s) (cur_exp s) (rwait_exp s) (rinq s) (queue s) (upd (thr s) i TOut).
Definition leave_w (s : frw) i := mkF (n_readers s) 0 (n_want_write s) (n_want_read s) (n_signaled s) (n_exp_want s) false (rwait_exp s) (rinq s) (queue s) (upd (thr s) i TOut).
Lemma read_unlock_base s i : finv s -> nth_error (thr s) i = Some TRead -> finv0 (leave_r s i).
Proof.
  intros IV E. ctx IV. cup E TOut. unfold leave_r. split; flds; auto; try lia.
  - rewrite I7. f_equal. lia.
  - rewrite I10. f_equal. lia.
  - eapply qw_upd; eauto; congruence.
Qed.
Lemma write_unlock_base s i e : finv s -> nth_error (thr s) i = Some (TWrite e) -> finv0 (leave_w s i).
Proof.
  intros IV E. ctx IV. cup E TOut. assert (EX := exp_le_write (upd (thr s) i TOut)). unfold leave_w. split; flds; auto; try lia.
  - symmetry. apply pos_false. lia.
  - rewrite I10. f_equal. lia.
  - eapply qw_upd; eauto; congruence.
Qed.

Lemma read_unlock_ok s i : finv s -> nth_error (thr s) i = Some TRead -> exists s', read_unlock paranoid s i = FOk s' /\ finv s'.
Proof.
  intros IV E. unfold read_unlock. ctx IV. cup E TOut.
  assert (W0 : (cnt is_write (thr s) + cnt is_wokew (thr s) = 0)%nat). { destruct (Nat.eq_dec (cnt is_write (thr s) + cnt is_wokew (thr s)) 0) as [Z|Z]; [exact Z|]. destruct (I14 ltac:(lia)). lia. }
  rewrite check_ok; [|rewrite andb_true_iff, zero_true, pos_true; lia].
  set (s1 := mkF _ _ _ _ _ _ _ _ _ _ _).
  assert (B1 : finv0 s1).
  { exact (read_unlock_base s i IV E). }
  unfold signal_next_writer. subst s1. flds.
  destruct (pos (n_want_write s) && zero (n_signaled s) && zero (n_readers s - 1)) eqn:B.
  - rewrite !andb_true_iff, pos_true, !zero_true in B. destruct B as [[B2 B3] B4].
    assert (WQ : queue s <> []) by (apply (waitw_queue s BA); lia). destruct (queue s) as [|x q] eqn:Q; [congruence|].
    destruct x as [|j]; [exfalso; apply (I16 W0 QR q); reflexivity|]. eexists. split; [reflexivity|].
    eapply wake_ok; [exact B1|reflexivity|]. flds. lia.
  - eexists. split; [reflexivity|]. split; [exact B1|..]; flds.
    + intros X. destruct (queue s) as [|x q] eqn:Q; [reflexivity|]. exfalso. destruct x as [|j]; [apply (I16 W0 QR q); reflexivity|].
      assert (Y : (0 < cnt is_waitw (thr s))%nat) by (apply (queue_waitw s j BA); rewrite Q; left; reflexivity).
      assert (T : pos (n_want_write s) && zero (n_signaled s) && zero (n_readers s - 1) = true) by (rewrite !andb_true_iff, pos_true, !zero_true; lia). congruence.
    + intros _. apply (I16 W0).
Qed.

Lemma write_unlock_ok s i e : finv s -> nth_error (thr s) i = Some (TWrite e) -> exists s', write_unlock paranoid s i = FOk s' /\ finv s'.
Proof.
  intros IV E. unfold write_unlock. ctx IV. cup E TOut.
  assert (EX := exp_le_write (upd (thr s) i TOut)).
  destruct (I14 ltac:(lia)) as [A1 A2].
  rewrite check_ok; [|apply Nat.eqb_eq; lia].
  set (s1 := mkF _ _ _ _ _ _ _ _ _ _ _).
  assert (B1 : finv0 s1).
  { exact (write_unlock_base s i e IV E). }
  unfold signal_next. rewrite check_ok; [|apply zero_true; subst s1; flds; lia].
  assert (Q1 : queue s1 = queue s) by reflexivity. rewrite Q1. destruct (queue s) as [|[|j] q] eqn:Q.
  - assert (X1 : cnt is_waitw (thr s1) = 0%nat). { destruct (cnt is_waitw (thr s1)) eqn:X; [reflexivity|]. exfalso. apply (waitw_queue s1 B1); [lia|exact Q1]. }
    assert (X2 : cnt is_waitr (thr s1) = 0%nat). { destruct (cnt is_waitr (thr s1)) eqn:X; [reflexivity|]. assert (Y : In QR (queue s1)) by (apply waitr_queue; [exact B1|lia]). rewrite Q1 in Y. destruct Y. }
    rewrite check_ok.
    + eexists. split; [reflexivity|]. split; [exact B1|intros _; exact Q1|]. intros _ x q X. congruence.
    + rewrite andb_true_iff, !zero_true. rewrite (f_ww _ B1), (f_wr _ B1), X1, X2. subst s1. flds. lia.
  - assert (WR : (0 < cnt is_waitr (thr s1))%nat) by (apply (queue_waitr s1 B1); rewrite Q1; left; reflexivity).
    rewrite check_ok; [|rewrite andb_true_iff, (f_rw _ B1), !pos_true, (f_wr _ B1); lia].
    eexists. split; [reflexivity|].
    assert (M1 : cnt is_read (map wake_r (thr s1)) = cnt is_read (thr s1)) by (rewrite cnt_map; apply cnt_ext; intros []; reflexivity).
    assert (M2 : cnt is_write (map wake_r (thr s1)) = cnt is_write (thr s1)) by (rewrite cnt_map; apply cnt_ext; intros []; reflexivity).
    assert (M3 : cnt is_waitr (map wake_r (thr s1)) = 0%nat) by (rewrite cnt_map, <- (cnt_false (thr s1)); apply cnt_ext; intros []; reflexivity).
    assert (M4 : cnt is_woker (map wake_r (thr s1)) = (cnt is_waitr (thr s1) + cnt is_woker (thr s1))%nat).
    { rewrite cnt_map, <- cnt_or; [apply cnt_ext; intros []; reflexivity|]. intros []; cbn; congruence. }
    assert (M5 : cnt is_waitw (map wake_r (thr s1)) = cnt is_waitw (thr s1)) by (rewrite cnt_map; apply cnt_ext; intros []; reflexivity).
    assert (M6 : cnt is_wokew (map wake_r (thr s1)) = cnt is_wokew (thr s1)) by (rewrite cnt_map; apply cnt_ext; intros []; reflexivity).
    assert (M7 : cnt is_expw (map wake_r (thr s1)) = cnt is_expw (thr s1)) by (rewrite cnt_map; apply cnt_ext; intros []; reflexivity).
    assert (M8 : cnt is_expc (map wake_r (thr s1)) = cnt is_expc (thr s1)) by (rewrite cnt_map; apply cnt_ext; intros []; reflexivity).
    assert (ND : NoDup (QR :: q)) by (rewrite <- Q1; apply (f_nd _ B1)). inversion ND as [|a b N1 N2]; subst a b.
    assert (T2 : cnt is_write (thr s1) = 0%nat /\ cnt is_wokew (thr s1) = 0%nat) by (subst s1; flds; lia).
    split; [split|..]; flds; rewrite ?M1, ?M2, ?M3, ?M4, ?M5, ?M6, ?M7, ?M8; auto; try apply B1; try lia.
    + split; [discriminate|]. contradiction.
    + intros k. assert (Y := f_qw _ B1 k). rewrite Q1 in Y. cbn in Y. rewrite nth_error_map.
      assert (Z : (exists e0, option_map wake_r (nth_error (thr s1) k) = Some (TWaitW e0)) <-> exists e0, nth_error (thr s1) k = Some (TWaitW e0)).
      { destruct (nth_error (thr s1) k) as [[]|]; cbn; reflexivity || (split; intros [e0 X]; discriminate). }
      split; [intros X; apply Z, Y; right; exact X|]. intros X. apply Z, Y in X. destruct X as [X|X]; [discriminate|exact X].
    + intros _ x q0 -> ->. apply N1. left. reflexivity.
  - assert (WW : (0 < cnt is_waitw (thr s1))%nat) by (apply (queue_waitw s1 j B1); rewrite Q1; left; reflexivity).
    rewrite check_ok; [|apply pos_true; rewrite (f_ww _ B1); lia].
    eexists. split; [reflexivity|]. eapply wake_ok; [exact B1|exact Q1|]. subst s1. flds. lia.
Qed.

Lemma fstep_ok s i o : finv s -> fstep paranoid false s i o = FNo \/ exists s', fstep paranoid false s i o = FOk s' /\ finv s'.
Proof.
  intros IV. unfold fstep. destruct (nth_error (thr s) i) as [t|] eqn:E; [|left; reflexivity].
  destruct t, o; try (left; reflexivity); right.
  - apply write_lock_ok; auto.
  - destruct (try_write_ok s i e IV E) as [[N _]|[s' [H [F _]]]]; [rewrite N; eauto|rewrite H; eauto].
  - apply read_lock_ok; auto.
  - apply try_read_ok; auto.
  - apply read_unlock_ok; auto.
  - eapply write_unlock_ok; eauto.
  - apply read_resume_ok; auto.
  - apply write_resume_ok; auto.
Qed.
Lemma freach_inv n s : freach paranoid false n s -> finv s.
Proof.
  induction 1 as [|s i o s' R IH H]; [apply finv_init|]. destruct (fstep_ok s i o IH) as [X|[s2 [X F]]]; rewrite X in H; [discriminate|]. inversion H; subst. exact F.
Qed.
End S.
