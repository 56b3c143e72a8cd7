(** C58: the readers/writers lock under an outer mutex. *)
From Verif Require Import Base RwlModel.

(** How many threads are in a given state. *)
Definition rthr_dec : forall a b : rthr, {a = b} + {a <> b}.
Proof. decide equality. Defined.
Definition many (t : rthr) (s : rwl) : nat := count_occ rthr_dec (rw_thr s) t.

Notation cnt t l := (count_occ rthr_dec l t).
Definition b2n (b : bool) : nat := if b then 1 else 0.
Definition is (t x : rthr) : nat := if rthr_dec x t then 1 else 0.

Lemma cnt_set t l i x y : nth_error l i = Some x -> cnt t (rset l i y) + is t x = cnt t l + is t y.
Proof.
  revert l. induction i as [|i IH]; intros [|a l] E; cbn in E; try discriminate.
  - injection E as ->. cbn [rset count_occ]. unfold is. destruct (rthr_dec x t), (rthr_dec y t); lia.
  - cbn [rset count_occ]. specialize (IH l E). destruct (rthr_dec a t); lia.
Qed.
Lemma cnt_pos t l : 0 < cnt t l <-> In t l.
Proof. split; intros H; apply (count_occ_In rthr_dec); auto. Qed.
Lemma rset_len l i y : length (rset l i y) = length l.
Proof. revert i. induction l as [|a l IH]; intros [|i]; cbn; auto. Qed.

Lemma cnt_wake_read t l :
  cnt t (wake_read l) = match t with RSleep => 0 | RWoke => cnt RSleep l + cnt RWoke l | _ => cnt t l end.
Proof.
  unfold wake_read. induction l as [|a l IH]; [destruct t; auto|].
  cbn [map count_occ]. destruct t; cbn [map count_occ] in *; rewrite IH; destruct a; cbn; lia.
Qed.
Lemma cnt_wake_user t l :
  cnt t (wake_user l) = match t with USleep => 0 | UWoke => cnt USleep l + cnt UWoke l | _ => cnt t l end.
Proof.
  unfold wake_user. induction l as [|a l IH]; [destruct t; auto|].
  cbn [map count_occ]. destruct t; cbn [map count_occ] in *; rewrite IH; destruct a; cbn; lia.
Qed.
Lemma sig_cases l j l1 : sig_write l j = Some l1 ->
  (cnt WSleep l = 0 /\ l1 = l) \/ (nth_error l j = Some WSleep /\ l1 = rset l j WWoke).
Proof.
  unfold sig_write. destruct (existsb is_wsleep l) eqn:E.
  - destruct (nth_error l j) as [[]|] eqn:N; try discriminate. intros Q. injection Q as <-. auto.
  - intros Q. injection Q as <-. left. split; auto.
    destruct (cnt WSleep l) eqn:C; auto. assert (In WSleep l) as I by (apply cnt_pos; lia).
    assert (existsb is_wsleep l = true) by (apply existsb_exists; exists WSleep; auto). congruence.
Qed.

(** The invariant. *)
Record rinv (s : rwl) : Prop := {
  ri_reader : rw_reader s = many Reading s;
  ri_want_read : rw_want_read s = many RSleep s + many RWoke s;
  ri_writer : rw_writer s = many Writing s;
  ri_want_write : rw_want_write s = many WSleep s + many WWoke s;
  ri_one : rw_writer s <= 1;
  ri_excl : rw_writer s = 1 -> rw_reader s = 0;
  ri_wwake : rw_reader s = 0 -> rw_writer s = 0 -> 0 < rw_want_write s -> 0 < many WWoke s;
  ri_rwake : rw_writer s = 0 -> rw_want_write s = 0 -> many RSleep s = 0;
  ri_uone : many USleep s + many UWoke s = b2n (rw_wait s);
  ri_uwake : users s = 0 -> many USleep s = 0 }.

Ltac fact1 t l i x y E := let K := fresh "K" in pose proof (cnt_set t l i x y E) as K; unfold is in K; cbn in K.
Ltac facts l i x y E :=
  fact1 Reading l i x y E; fact1 Writing l i x y E; fact1 RSleep l i x y E; fact1 RWoke l i x y E;
  fact1 WSleep l i x y E; fact1 WWoke l i x y E; fact1 USleep l i x y E; fact1 UWoke l i x y E.

Lemma init_inv n : rinv (rw_init n).
Proof.
  assert (K : forall t, t <> ROut -> cnt t (repeat ROut n) = 0).
  { intros t H. apply count_occ_not_In. intros I. apply repeat_spec in I. congruence. }
  split; unfold many, users; cbn [rw_init rw_reader rw_want_read rw_writer rw_want_write rw_wait rw_thr b2n];
    rewrite ?K by discriminate; lia.
Qed.

Ltac bools := repeat match goal with
  | H : (_ || _)%bool = true |- _ => apply orb_prop in H; destruct H
  | H : (_ || _)%bool = false |- _ => apply orb_false_iff in H; destruct H
  | H : (_ && _)%bool = true |- _ => apply andb_prop in H; destruct H
  | H : (_ && _)%bool = false |- _ => apply andb_false_iff in H; destruct H
  | H : negb _ = true |- _ => apply negb_true_iff in H
  | H : negb _ = false |- _ => apply negb_false_iff in H
  | H : (_ <? _) = true |- _ => apply Nat.ltb_lt in H
  | H : (_ <? _) = false |- _ => apply Nat.ltb_ge in H
  | H : (_ =? _) = true |- _ => apply Nat.eqb_eq in H
  | H : (_ =? _) = false |- _ => apply Nat.eqb_neq in H
  end.

Ltac fin := constructor; unfold many, users in *;
  cbn [rw_reader rw_want_read rw_writer rw_want_write rw_wait rw_thr b2n] in *; try lia.

Lemma tell_inv rd wr w ww u l :
  (forall l', (forall t, t <> USleep -> t <> UWoke -> cnt t l' = cnt t l) ->
     cnt USleep l' + cnt UWoke l' = cnt USleep l + cnt UWoke l ->
     (rd + wr + w + ww = 0 -> cnt USleep l' = 0) -> rinv (mkRw rd wr w ww u l')) ->
  (u = false -> cnt USleep l = 0) ->
  rinv (tell_users (mkRw rd wr w ww u l)).
Proof.
  intros K U. unfold tell_users, users. cbn [rw_reader rw_want_read rw_writer rw_want_write rw_wait rw_thr].
  destruct (u && (rd + wr + w + ww =? 0)) eqn:E.
  - apply K.
    + intros t N1 N2. rewrite cnt_wake_user. destruct t; congruence.
    + rewrite !cnt_wake_user. lia.
    + intros _. rewrite cnt_wake_user. auto.
  - apply K; auto. intros Z. bools; auto. lia.
Qed.

Lemma step_inv s i o j s1 : rinv s -> rstep s i o j = Some (Some s1) -> rinv s1.
Proof.
  intros [I1 I2 I3 I4 I5 I6 I7 I8 I9 I10] E. destruct s as [rd wr w ww u l].
  unfold many, users in *. cbn [rw_reader rw_want_read rw_writer rw_want_write rw_wait rw_thr] in *.
  cbn [rstep] in E. destruct (nth_error l i) as [x|] eqn:N; [|discriminate].
  destruct x, o; try discriminate.
  - destruct u; [discriminate|]. destruct ((0 <? w) || (0 <? ww)) eqn:C; injection E as <-; bools.
    + facts l i ROut RSleep N. fin.
    + facts l i ROut RSleep N. fin.
    + facts l i ROut Reading N. fin.
  - destruct u; [discriminate|]. destruct ((0 <? rd) || (0 <? w)) eqn:C; injection E as <-; bools.
    + facts l i ROut WSleep N. fin.
    + facts l i ROut WSleep N. fin.
    + facts l i ROut Writing N. fin.
  - destruct u; [discriminate|]. unfold users in E. cbn [rw_reader rw_want_read rw_writer rw_want_write] in E.
    destruct (0 <? rd + wr + w + ww) eqn:C; injection E as <-; bools.
    + facts l i ROut USleep N. fin.
    + fin.
  - injection E as <-. facts l i RSleep RWoke N. fin.
  - destruct ((0 <? w) || (0 <? ww)) eqn:C; [injection E as <-|]; bools.
    + facts l i RWoke RSleep N. fin.
    + facts l i RWoke RSleep N. fin.
    + destruct (wr =? 0) eqn:Z; [discriminate|]. injection E as <-. bools. facts l i RWoke Reading N. fin.
  - injection E as <-. facts l i WSleep WWoke N. fin.
  - destruct ((0 <? rd) || (0 <? w)) eqn:C; [injection E as <-|]; bools.
    + facts l i WWoke WSleep N. fin.
    + facts l i WWoke WSleep N. fin.
    + destruct (ww =? 0) eqn:Z; [discriminate|]. injection E as <-. bools. facts l i WWoke Writing N. fin.
  - injection E as <-. facts l i USleep UWoke N. fin.
  - unfold users in E. cbn [rw_reader rw_want_read rw_writer rw_want_write] in E.
    destruct (0 <? rd + wr + w + ww) eqn:C; injection E as <-; bools.
    + facts l i UWoke USleep N. fin. destruct u; cbn in *; lia.
    + facts l i UWoke ROut N. fin; destruct u; cbn in *; lia.
  - destruct ((rd =? 0) || negb (w =? 0)) eqn:C; [discriminate|]. bools.
    facts l i Reading ROut N. set (l1 := rset l i ROut) in *.
    destruct (if (rd - 1 =? 0) && (0 <? ww) then sig_write l1 j else Some l1) as [l2|] eqn:Q; [|discriminate].
    injection E as <-.
    destruct ((rd - 1 =? 0) && (0 <? ww)) eqn:D.
    + apply sig_cases in Q. destruct Q as [[Q ->]|[Q ->]].
      * apply tell_inv; [|destruct u; cbn in *; [discriminate|lia]].
        intros l' P1 P2 P3. assert (forall t, t <> USleep -> t <> UWoke -> cnt t l' = cnt t l1) as P by auto.
        pose proof (P1 Reading ltac:(discriminate) ltac:(discriminate)). pose proof (P1 Writing ltac:(discriminate) ltac:(discriminate)).
        pose proof (P1 RSleep ltac:(discriminate) ltac:(discriminate)). pose proof (P1 RWoke ltac:(discriminate) ltac:(discriminate)).
        pose proof (P1 WSleep ltac:(discriminate) ltac:(discriminate)). pose proof (P1 WWoke ltac:(discriminate) ltac:(discriminate)).
        clear P P1. bools. fin.
      * facts l1 j WSleep WWoke Q. apply tell_inv; [|destruct u; cbn in *; [discriminate|lia]].
        intros l' P1 P2 P3.
        pose proof (P1 Reading ltac:(discriminate) ltac:(discriminate)). pose proof (P1 Writing ltac:(discriminate) ltac:(discriminate)).
        pose proof (P1 RSleep ltac:(discriminate) ltac:(discriminate)). pose proof (P1 RWoke ltac:(discriminate) ltac:(discriminate)).
        pose proof (P1 WSleep ltac:(discriminate) ltac:(discriminate)). pose proof (P1 WWoke ltac:(discriminate) ltac:(discriminate)).
        clear P1. bools. fin.
    + injection Q as <-. apply tell_inv; [|destruct u; cbn in *; [discriminate|lia]].
      intros l' P1 P2 P3.
      pose proof (P1 Reading ltac:(discriminate) ltac:(discriminate)). pose proof (P1 Writing ltac:(discriminate) ltac:(discriminate)).
      pose proof (P1 RSleep ltac:(discriminate) ltac:(discriminate)). pose proof (P1 RWoke ltac:(discriminate) ltac:(discriminate)).
      pose proof (P1 WSleep ltac:(discriminate) ltac:(discriminate)). pose proof (P1 WWoke ltac:(discriminate) ltac:(discriminate)).
      clear P1. bools; fin.
  - destruct (negb (rd =? 0) || negb (w =? 1)) eqn:C; [discriminate|]. bools.
    facts l i Writing ROut N. set (l1 := rset l i ROut) in *.
    destruct (if 0 <? ww then sig_write l1 j else Some (if 0 <? wr then wake_read l1 else l1)) as [l2|] eqn:Q; [|discriminate].
    injection E as <-.
    assert (G : forall l3, (u = false -> cnt USleep l3 = 0) ->
       (forall l', cnt Reading l' = cnt Reading l3 -> cnt Writing l' = cnt Writing l3 -> cnt RSleep l' = cnt RSleep l3 ->
          cnt RWoke l' = cnt RWoke l3 -> cnt WSleep l' = cnt WSleep l3 -> cnt WWoke l' = cnt WWoke l3 ->
          cnt USleep l' + cnt UWoke l' = cnt USleep l3 + cnt UWoke l3 ->
          (rd + wr + (w - 1) + ww = 0 -> cnt USleep l' = 0) -> rinv (mkRw rd wr (w - 1) ww u l')) ->
       rinv (tell_users (mkRw rd wr (w - 1) ww u l3))).
    { intros l3 U3 H3. apply tell_inv; auto. intros l' P1 P2 P3. apply H3; auto; apply P1; discriminate. }
    destruct (0 <? ww) eqn:D.
    + apply sig_cases in Q. destruct Q as [[Q ->]|[Q ->]].
      * apply G; [destruct u; cbn in *; [discriminate|lia]|]. intros. bools. fin.
      * facts l1 j WSleep WWoke Q. apply G; [destruct u; cbn in *; [discriminate|lia]|]. intros. bools. fin.
    + injection Q as <-. destruct (0 <? wr) eqn:V.
      * apply G; [rewrite cnt_wake_read; destruct u; cbn in *; [discriminate|lia]|].
        intros l'. rewrite !cnt_wake_read. intros. bools. fin.
      * apply G; [destruct u; cbn in *; [discriminate|lia]|]. intros. bools. fin.
Qed.

Lemma reach_inv n s : rreach n s -> rinv s.
Proof. induction 1; [apply init_inv|eapply step_inv; eauto]. Qed.

(** Readers and writers exclude each other, writers one another; and the counters are
    what their names say. *)
Theorem C58_exclusion : forall n s, rreach n s ->
  many Writing s <= 1 /\ (0 < many Writing s -> many Reading s = 0) /\
  rw_reader s = many Reading s /\ rw_writer s = many Writing s /\
  rw_want_read s = many RSleep s + many RWoke s /\ rw_want_write s = many WSleep s + many WWoke s.
Proof.
  intros n s R. destruct (reach_inv n s R) as [I1 I2 I3 I4 I5 I6 _ _ _ _]. repeat split; auto; lia.
Qed.
Print Assumptions C58_exclusion.

Lemma many_ex t s : 0 < many t s -> exists i, nth_error (rw_thr s) i = Some t.
Proof. unfold many. rewrite cnt_pos. apply In_nth_error. Qed.
Lemma ex_many t s i : nth_error (rw_thr s) i = Some t -> 0 < many t s.
Proof. unfold many. rewrite cnt_pos. apply nth_error_In. Qed.

(** No wake-up is lost: when nobody has the lock and somebody waits for it, there is a
    thread, woken, that takes it as soon as it gets the mutex: a writer if one waits,
    else a reader, and then no reader is asleep.  And nobody sleeps waiting for
    the users to go when there are none. *)
Theorem C58_no_lost_wakeup : forall n s, rreach n s ->
  (many Reading s = 0 -> many Writing s = 0 -> 0 < many WSleep s + many WWoke s ->
     exists i s1, nth_error (rw_thr s) i = Some WWoke /\ rstep s i OpResume 0 = Some (Some s1) /\
                  nth_error (rw_thr s1) i = Some Writing) /\
  (many Writing s = 0 -> many WSleep s + many WWoke s = 0 ->
     many RSleep s = 0 /\
     forall i, nth_error (rw_thr s) i = Some RWoke ->
       exists s1, rstep s i OpResume 0 = Some (Some s1) /\ nth_error (rw_thr s1) i = Some Reading) /\
  (users s = 0 -> many USleep s = 0 /\
     forall i, nth_error (rw_thr s) i = Some UWoke ->
       exists s1, rstep s i OpResume 0 = Some (Some s1) /\ nth_error (rw_thr s1) i = Some ROut).
Proof.
  intros n s R. destruct (reach_inv n s R) as [I1 I2 I3 I4 I5 I6 I7 I8 I9 I10].
  assert (NS : forall l i x y, nth_error l i = Some x -> nth_error (rset l i y) i = Some y).
  { induction l as [|a l IH]; intros [|i] x y E; cbn in *; try discriminate; eauto. }
  split; [|split].
  - intros H1 H2 H3. destruct (many_ex WWoke s ltac:(lia)) as [i E]. pose proof (ex_many _ _ _ E) as P.
    destruct s as [rd wr w ww u l]. cbn [rw_reader rw_want_read rw_writer rw_want_write rw_thr] in *.
    exists i. cbn [rstep]. rewrite E.
    replace ((0 <? rd) || (0 <? w)) with false by (symmetry; apply orb_false_iff; rewrite !Nat.ltb_ge; lia).
    replace (ww =? 0) with false by (symmetry; apply Nat.eqb_neq; lia).
    eexists. split; auto. split; [reflexivity|]. cbn [rw_thr]. eauto.
  - intros H1 H2. split; [apply I8; lia|]. intros i E. pose proof (ex_many _ _ _ E) as P.
    destruct s as [rd wr w ww u l]. cbn [rw_reader rw_want_read rw_writer rw_want_write rw_thr] in *.
    cbn [rstep]. rewrite E.
    replace ((0 <? w) || (0 <? ww)) with false by (symmetry; apply orb_false_iff; rewrite !Nat.ltb_ge; lia).
    replace (wr =? 0) with false by (symmetry; apply Nat.eqb_neq; lia).
    eexists. split; [reflexivity|]. cbn [rw_thr]. eauto.
  - intros H. split; auto. intros i E.
    destruct s as [rd wr w ww u l]. cbn [rw_thr] in *. cbn [rstep]. rewrite E, H. cbn [Nat.ltb Nat.leb].
    eexists. split; [reflexivity|]. cbn [rw_thr]. eauto.
Qed.
Print Assumptions C58_no_lost_wakeup.

(** The only invariant that can fail is that of a caller who asks for the lock, or
    waits for its users, while another waits for its users; and whoever has the
    lock can always give it back. *)
Theorem C58_no_bug : forall n s, rreach n s ->
  (forall i o j, rstep s i o j = Some None ->
     rw_wait s = true /\ (o = OpReadLock \/ o = OpWriteLock \/ o = OpWaitUsers)) /\
  (forall i, nth_error (rw_thr s) i = Some Reading -> exists j s1, rstep s i OpReadUnlock j = Some (Some s1)) /\
  (forall i, nth_error (rw_thr s) i = Some Writing -> exists j s1, rstep s i OpWriteUnlock j = Some (Some s1)).
Proof.
  intros n s R. destruct (reach_inv n s R) as [I1 I2 I3 I4 I5 I6 I7 I8 I9 I10].
  assert (SG : forall l, exists j l1, sig_write l j = Some l1).
  { intros l. unfold sig_write. destruct (existsb is_wsleep l) eqn:E; [|exists 0; eauto].
    apply existsb_exists in E. destruct E as (t & I & T). destruct t; try discriminate.
    apply In_nth_error in I. destruct I as [j E]. exists j. rewrite E. eauto. }
  split; [|split].
  - intros i o j E. destruct (nth_error (rw_thr s) i) as [x|] eqn:N.
    + pose proof (ex_many _ _ _ N) as P. destruct s as [rd wr w ww u l].
      cbn [rw_reader rw_want_read rw_writer rw_want_write rw_thr rw_wait] in *. cbn [rstep] in E. rewrite N in E.
      destruct x, o; try discriminate;
        repeat match type of E with
        | context [if ?b then _ else _] => destruct b eqn:?
        | context [match (if ?b then _ else _) with _ => _ end] => destruct b eqn:?
        | context [match ?z with Some _ => _ | None => _ end] => destruct z eqn:?
        end; try discriminate; auto; bools; try lia.
    + destruct s as [rd wr w ww u l]. cbn [rw_thr] in N. cbn [rstep] in E. rewrite N in E. discriminate.
  - intros i N. pose proof (ex_many _ _ _ N) as P. destruct s as [rd wr w ww u l].
    cbn [rw_reader rw_want_read rw_writer rw_want_write rw_thr rw_wait] in *. cbn [rstep]. rewrite N.
    replace ((rd =? 0) || negb (w =? 0)) with false by (symmetry; apply orb_false_iff; split; [apply Nat.eqb_neq|apply negb_false_iff, Nat.eqb_eq]; lia).
    destruct (SG (rset l i ROut)) as (j & l1 & Q). exists j. cbv zeta. destruct ((rd - 1 =? 0) && (0 <? ww)); [rewrite Q|]; eauto.
  - intros i N. pose proof (ex_many _ _ _ N) as P. destruct s as [rd wr w ww u l].
    cbn [rw_reader rw_want_read rw_writer rw_want_write rw_thr rw_wait] in *. cbn [rstep]. rewrite N.
    replace (negb (rd =? 0) || negb (w =? 1)) with false by (symmetry; apply orb_false_iff; split; apply negb_false_iff, Nat.eqb_eq; lia).
    destruct (SG (rset l i ROut)) as (j & l1 & Q). exists j. cbv zeta. destruct (0 <? ww); [rewrite Q|]; eauto.
Qed.
Print Assumptions C58_no_bug.

(** "Pending writers have priority over pending readers" (rwlock.h:145): a step that
    lets a reader in is taken only when no writer waits. *)
Theorem C58_writers_first : forall n s i o j s1, rreach n s -> rstep s i o j = Some (Some s1) ->
  nth_error (rw_thr s) i <> Some Reading -> nth_error (rw_thr s1) i = Some Reading ->
  many WSleep s + many WWoke s = 0 /\ many Writing s = 0.
Proof.
  intros n s i o j s1 R E N1 N2. destruct (reach_inv n s R) as [I1 I2 I3 I4 I5 I6 I7 I8 I9 I10].
  assert (NS : forall l i x y, nth_error l i = Some x -> nth_error (rset l i y) i = Some y).
  { induction l as [|a l IH]; intros [|k] x y Q; cbn in *; try discriminate; eauto. }
  assert (WU : forall l k, nth_error (wake_user l) k = Some Reading -> nth_error l k = Some Reading).
  { intros l k. unfold wake_user. rewrite nth_error_map. destruct (nth_error l k) as [[]|]; cbn; congruence. }
  assert (WR : forall l k, nth_error (wake_read l) k = Some Reading -> nth_error l k = Some Reading).
  { intros l k. unfold wake_read. rewrite nth_error_map. destruct (nth_error l k) as [[]|]; cbn; congruence. }
  assert (TU : forall s0 k, nth_error (rw_thr (tell_users s0)) k = Some Reading -> nth_error (rw_thr s0) k = Some Reading).
  { intros s0 k. unfold tell_users. destruct (_ && _); cbn [rw_thr]; auto. }
  assert (SW : forall l k l1, sig_write l j = Some l1 -> nth_error l1 k = Some Reading -> nth_error l k = Some Reading).
  { intros l k l1 Q. apply sig_cases in Q. destruct Q as [[_ ->]|[Q ->]]; auto. clear - Q. revert j k Q.
    induction l as [|a l IH]; intros [|j] [|k] Q; cbn in *; try discriminate; try congruence; eauto. }
  destruct s as [rd wr w ww u l]. cbn [rw_reader rw_want_read rw_writer rw_want_write rw_thr rw_wait] in *.
  cbn [rstep] in E. destruct (nth_error l i) as [x|] eqn:N; [|discriminate].
  pose proof (fun y => NS l i x y N) as NY.
  destruct x, o; try discriminate; try congruence.
  - destruct u; [discriminate|]. destruct ((0 <? w) || (0 <? ww)) eqn:C; injection E as <-; cbn [rw_thr] in N2; rewrite NY in N2; try discriminate. bools. lia.
  - destruct u; [discriminate|]. destruct ((0 <? rd) || (0 <? w)) eqn:C; injection E as <-; cbn [rw_thr] in N2; rewrite NY in N2; discriminate.
  - destruct u; [discriminate|]. destruct (0 <? users _) eqn:C; injection E as <-; cbn [rw_thr] in N2; rewrite ?NY in N2; congruence.
  - injection E as <-. cbn [rw_thr] in N2. rewrite NY in N2. discriminate.
  - destruct ((0 <? w) || (0 <? ww)) eqn:C; [injection E as <-; cbn [rw_thr] in N2; rewrite NY in N2; discriminate|]. bools. lia.
  - injection E as <-. cbn [rw_thr] in N2. rewrite NY in N2. discriminate.
  - destruct ((0 <? rd) || (0 <? w)) eqn:C; [|destruct (ww =? 0); [discriminate|]]; injection E as <-; cbn [rw_thr] in N2; rewrite NY in N2; discriminate.
  - injection E as <-. cbn [rw_thr] in N2. rewrite NY in N2. discriminate.
  - destruct (0 <? users _) eqn:C; injection E as <-; cbn [rw_thr] in N2; rewrite NY in N2; discriminate.
  - exfalso. destruct (_ || _) in E; [discriminate|].
    destruct (if 0 <? ww then sig_write (rset l i ROut) j else Some (if 0 <? wr then wake_read (rset l i ROut) else rset l i ROut)) as [l2|] eqn:Q; [|discriminate].
    injection E as <-. apply TU in N2. cbn [rw_thr] in N2. specialize (NY ROut).
    destruct (0 <? ww).
    + rewrite (SW _ _ _ Q N2) in NY. discriminate.
    + injection Q as <-. destruct (0 <? wr); [apply WR in N2|]; congruence.
Qed.
Print Assumptions C58_writers_first.

(** *** Refuted: "we want to guarantee nonstarvation" (rwlock.h:66-68)

    [rtrace P s ops s1]: the steps [ops] lead from [s] to [s1] through states where
    [P] holds. *)
Inductive rtrace (P : rwl -> Prop) : rwl -> list rop -> rwl -> Prop :=
| rt_nil s : P s -> rtrace P s [] s
| rt_cons s i o j s1 ops s2 : P s -> rstep s i o j = Some (Some s1) -> rtrace P s1 ops s2 -> rtrace P s (o :: ops) s2.
Definition rop_dec : forall a b : rop, {a = b} + {a <> b}.
Proof. decide equality. Defined.
Lemma rtrace_app P s o1 s1 o2 s2 : rtrace P s o1 s1 -> rtrace P s1 o2 s2 -> rtrace P s (o1 ++ o2) s2.
Proof. intros A. revert s2. induction A; intros s3 B; cbn; auto. econstructor; eauto. Qed.
Lemma rtrace_loop (P : rwl -> Prop) s ops c : P s -> rtrace P s ops s -> count_occ rop_dec ops OpWriteUnlock = S c ->
  forall k, exists ops1, rtrace P s ops1 s /\ k <= count_occ rop_dec ops1 OpWriteUnlock.
Proof.
  intros H R C. induction k as [|k (ops1 & R1 & C1)].
  - exists []. split; [constructor; auto|cbn; lia].
  - exists (ops ++ ops1). split; [eapply rtrace_app; eauto|]. rewrite count_occ_app. lia.
Qed.

(** A reader (thread 0) sleeps on while two writers hand the lock to each other as
    often as they like; every writer that is woken takes its turn. *)
Theorem C58_reader_starves_refuted : exists n s i, rreach n s /\
  forall k, exists ops s1, rtrace (fun s => nth_error (rw_thr s) i = Some RSleep) s ops s1 /\
    k <= count_occ rop_dec ops OpWriteUnlock.
Proof.
  set (s0 := mkRw 0 1 1 1 false [RSleep; Writing; WSleep]).
  exists 3, s0, 0. split.
  - assert (H1 : rreach 3 (mkRw 0 0 1 0 false [ROut; Writing; ROut])) by (eapply (rr_step 3 _ 1 OpWriteLock 0); [apply rr_init|reflexivity]).
    assert (H2 : rreach 3 (mkRw 0 0 1 1 false [ROut; Writing; WSleep])) by (eapply (rr_step 3 _ 2 OpWriteLock 0); [apply H1|reflexivity]).
    eapply (rr_step 3 _ 0 OpReadLock 0); [apply H2|reflexivity].
  - intros k.
    destruct (rtrace_loop (fun s => nth_error (rw_thr s) 0 = Some RSleep) s0
      [OpWriteUnlock; OpResume; OpWriteLock; OpWriteUnlock; OpResume; OpWriteLock] 1 eq_refl) with (k := k) as (ops & R & C).
    + apply (rt_cons _ _ 1 OpWriteUnlock 2 (mkRw 0 1 0 1 false [RSleep; ROut; WWoke])); [reflexivity..|].
      apply (rt_cons _ _ 2 OpResume 0 (mkRw 0 1 1 0 false [RSleep; ROut; Writing])); [reflexivity..|].
      apply (rt_cons _ _ 1 OpWriteLock 0 (mkRw 0 1 1 1 false [RSleep; WSleep; Writing])); [reflexivity..|].
      apply (rt_cons _ _ 2 OpWriteUnlock 1 (mkRw 0 1 0 1 false [RSleep; WWoke; ROut])); [reflexivity..|].
      apply (rt_cons _ _ 1 OpResume 0 (mkRw 0 1 1 0 false [RSleep; Writing; ROut])); [reflexivity..|].
      apply (rt_cons _ _ 2 OpWriteLock 0 s0); [reflexivity..|]. constructor. reflexivity.
    + reflexivity.
    + exists ops, s0. auto.
Qed.
Print Assumptions C58_reader_starves_refuted.

(** A writer (thread 0) that is woken and looks each time is overtaken as often as
    one likes by another that asks afresh. *)
Theorem C58_writer_overtaken_refuted : exists n s i, rreach n s /\
  forall k, exists ops s1, rtrace (fun s => nth_error (rw_thr s) i = Some WSleep \/ nth_error (rw_thr s) i = Some WWoke) s ops s1 /\
    k <= count_occ rop_dec ops OpWriteUnlock.
Proof.
  set (s0 := mkRw 0 0 1 1 false [WSleep; Writing]).
  exists 2, s0, 0. split.
  - assert (H1 : rreach 2 (mkRw 0 0 1 0 false [ROut; Writing])) by (eapply (rr_step 2 _ 1 OpWriteLock 0); [apply rr_init|reflexivity]).
    eapply (rr_step 2 _ 0 OpWriteLock 0); [apply H1|reflexivity].
  - intros k.
    destruct (rtrace_loop (fun s => nth_error (rw_thr s) 0 = Some WSleep \/ nth_error (rw_thr s) 0 = Some WWoke) s0
      [OpWriteUnlock; OpWriteLock; OpResume] 0 (or_introl eq_refl)) with (k := k) as (ops & R & C).
    + apply (rt_cons _ _ 1 OpWriteUnlock 0 (mkRw 0 0 0 1 false [WWoke; ROut])); [auto|reflexivity|].
      apply (rt_cons _ _ 1 OpWriteLock 0 (mkRw 0 0 1 1 false [WWoke; Writing])); [auto|reflexivity|].
      apply (rt_cons _ _ 0 OpResume 0 s0); [auto|reflexivity|]. constructor. auto.
    + reflexivity.
    + exists ops, s0. auto.
Qed.
Print Assumptions C58_writer_overtaken_refuted.

Example c58_ex : rreach 3 (mkRw 0 1 0 1 false [RSleep; ROut; WWoke]).
Proof.
  assert (H1 : rreach 3 (mkRw 0 0 1 0 false [ROut; Writing; ROut])) by (eapply (rr_step 3 _ 1 OpWriteLock 0); [apply rr_init|reflexivity]).
  assert (H2 : rreach 3 (mkRw 0 0 1 1 false [ROut; Writing; WSleep])) by (eapply (rr_step 3 _ 2 OpWriteLock 0); [apply H1|reflexivity]).
  assert (H3 : rreach 3 (mkRw 0 1 1 1 false [RSleep; Writing; WSleep])) by (eapply (rr_step 3 _ 0 OpReadLock 0); [apply H2|reflexivity]).
  eapply (rr_step 3 _ 1 OpWriteUnlock 2); [apply H3|reflexivity].
Qed.
