(** The invariant of the build of an index with concurrent writers. *)
From Verif Require Import Base Bytes LtSpec KOrd BldModel BldSpec BldProofs.
Open Scope N_scope.

Section I.
Variable c : bytes -> bytes -> comparison.
Variable gen : nat -> bytes -> bytes -> list (bytes * bytes).
Variable ndb : nat.
Hypothesis cok : cmp_ok c.
Hypothesis capart : tells_apart c.
Hypothesis gok : callback_ok gen.
Notation Own := (Own gen).
Notation expd := (expd gen).

(** What a thread still writes, as the indexer would answer now. *)
Definition tw (p : cpos) (t : thread) : list wr := match t with Going _ _ acts => flat (passed c p) acts | _ => [] end.
(** [ws] is still to be written by the thread that has locked [k]; nothing if there is none. *)
Definition holds (s : bstate) (k : bytes) (ws : list wr) : Prop :=
  ((forall i, ~ In k (thread_keys (bthr s i))) /\ ws = []) \/
  (exists i, In k (thread_keys (bthr s i)) /\ ws = tw (bpos s) (bthr s i)).
Definition wr_ok (ks : list bytes) (w : wr) : Prop :=
  match w with WSrc k _ => In k ks | WHot d h _ => exists k, In k ks /\ Own d h k end.
Definition act_ok (ks : list bytes) (a : act) : Prop :=
  match a with AWr w => wr_ok ks w | AIf _ ws => forall w, In w ws -> wr_ok ks w end.
Definition arr_ok (arr : list (option nat)) : Prop :=
  In None arr /\ (forall d, (d < ndb)%nat -> In (Some d) arr) /\ (forall d, In (Some d) arr -> (d < ndb)%nat).

Record inv (s : bstate) : Prop := {
  i_nodup : NoDup (map fst (bsrc s));
  i_disj : forall i j k, In k (thread_keys (bthr s i)) -> In k (thread_keys (bthr s j)) -> i = j;
  i_est : forall e, best s = Some e -> passed c (bpos s) e = true;
  i_lock : forall i o acts, bthr s i = Going true o acts -> bown s = ByThread i;
  i_idle : bown s <> ByIndexer -> bpend s = [];
  i_called : forall i o arr b, bthr s i = Called o arr b -> call_ok (bsrc s) o /\ arr_ok arr /\ b = true;
  i_blocked : forall i o arr, bthr s i = Blocked o arr -> call_ok (bsrc s) o /\ arr_ok arr;
  i_short : forall i o acts, bthr s i = Going false o acts ->
    (forall k, In k (keys_of o) -> exists e, passed c (bpos s) e = true /\ klt c e k) /\ (forall k ws, ~ In (AIf k ws) acts);
  i_wr : forall i b o acts a, bthr s i = Going b o acts -> In a acts -> act_ok (keys_of o) a;
  i_pend : forall w, In w (bpend s) -> exists d h hv q, w = WHot d h (Some hv) /\ bpos s = AtKey q /\ Own d h q;
  i_hot : forall d h hv, bhot s d h = Some hv -> exists k, Own d h k;
  i_data : forall k ws d h, holds s k ws -> (d < ndb)%nat -> Own d h k ->
    hval (bpend s) d h (hval ws d h (bhot s d h)) = expd (passed c (bpos s) k) d h k (sval ws k (sget (bsrc s) k)) }.

Lemma passed_lt p e k : passed c p e = true -> klt c e k -> passed c p k = true.
Proof.
  destruct p as [|q|]; cbn; [discriminate| |reflexivity]. intros H L. apply kleb_true in H. apply kleb_true. eapply (kle_trans cok); eauto. apply klt_kle. exact L.
Qed.
Lemma flat_noask b b' l : (forall k ws, ~ In (AIf k ws) l) -> flat b l = flat b' l.
Proof.
  induction l as [|[w|k ws] l IH]; intros H; auto.
  - cbn. unfold flat in IH. f_equal. apply IH. intros k ws I. apply (H k ws). right. exact I.
  - exfalso. apply (H k ws). left. reflexivity.
Qed.
Lemma flat_wr_ok ks b acts w : (forall a, In a acts -> act_ok ks a) -> In w (flat b acts) -> wr_ok ks w.
Proof.
  intros A I. apply in_flat in I. destruct I as [a [I1 I2]]. specialize (A a I1). destruct a as [w'|k ws]; cbn in *.
  - destruct I2 as [->|[]]. exact A.
  - destruct (b k); [auto|destruct I2].
Qed.
Lemma acts_ok o arr a : In a (acts_of gen o arr) -> act_ok (keys_of o) a.
Proof.
  assert (P : forall d k rows, In k (keys_of o) -> (forall r, In r rows -> Own d (fst r) k) -> forall w, In w (puts d rows) -> wr_ok (keys_of o) w).
  { intros d k rows K R w I. unfold puts in I. apply in_map_iff in I. destruct I as [r [<- I]]. cbn. eauto. }
  assert (D : forall d k l, In k (keys_of o) -> (forall h, In h l -> Own d h k) -> forall w, In w (dels d l) -> wr_ok (keys_of o) w).
  { intros d k l K R w I. unfold dels in I. apply in_map_iff in I. destruct I as [r [<- I]]. cbn. eauto. }
  assert (G : forall d k v r, In r (gen d k v) -> Own d (fst r) k). { intros d k v [h hv] I. exists v, hv. exact I. }
  destruct o as [k v|k v|k v k' v']; cbn [acts_of]; intros I.
  - apply in_concat in I. destruct I as [l [I1 I2]]. apply in_map_iff in I1. destruct I1 as [[d|] [<- _]]; cbn in I2.
    + unfold ask_put in I2. destruct (gen d k v) as [|r0 l0] eqn:E; [destruct I2|]. destruct I2 as [<-|[]]. rewrite <- E. cbn [act_ok]. apply (P d k); [left; reflexivity|apply G].
    + destruct I2 as [<-|[]]. cbn. auto.
  - apply in_concat in I. destruct I as [l [I1 I2]]. apply in_map_iff in I1. destruct I1 as [[d|] [<- _]]; cbn in I2.
    + destruct I2 as [<-|[]]. cbn [act_ok]. apply (D d k); [left; reflexivity|]. intros h H. eapply gen_keys_own; eauto.
    + destruct I2 as [<-|[]]. cbn. auto.
  - apply in_app_iff in I. destruct I as [I|I]; apply in_concat in I; destruct I as [l [I1 I2]]; apply in_map_iff in I1; destruct I1 as [[d|] [<- _]]; cbn in I2.
    + destruct (upd_dels (gen d k v) (gen d k' v')) as [|h0 l0] eqn:E; [destruct I2|]. destruct I2 as [<-|[]]. rewrite <- E. cbn [act_ok].
      apply (D d k); [left; reflexivity|]. intros h H. apply in_upd_dels in H. eapply gen_keys_own; apply H.
    + destruct (same_key k k'); cbn in I2; [destruct I2|destruct I2 as [<-|[]]]. cbn. auto.
    + unfold ask_put in I2. destruct (upd_puts (gen d k v) (gen d k' v')) as [|r0 l0] eqn:E; [destruct I2|]. destruct I2 as [<-|[]]. rewrite <- E. cbn [act_ok].
      apply (P d k'); [right; left; reflexivity|]. intros [h hv] H. apply in_upd_puts in H. apply (G _ _ v'). tauto.
    + destruct (same_key k k' && (len v' =? 0)); cbn in I2; [destruct I2|destruct I2 as [<-|[]]]. cbn. auto.
Qed.
(** A call asks only about its own keys. *)
Lemma acts_keys o arr k ws : In (AIf k ws) (acts_of gen o arr) -> In k (keys_of o).
Proof.
  assert (P : forall d k0 rows, In (AIf k ws) (ask_put d k0 rows) -> k = k0).
  { intros d k0 rows I. unfold ask_put in I. destruct rows; [destruct I|]. destruct I as [I|[]]. inversion I. reflexivity. }
  assert (D : forall d k0 l, In (AIf k ws) (ask_del d k0 l) -> k = k0).
  { intros d k0 l I. destruct I as [I|[]]. inversion I. reflexivity. }
  destruct o as [k0 v|k0 v|k0 v k' v']; cbn [acts_of keys_of]; intros I.
  - apply in_concat in I. destruct I as [l [I1 I2]]. apply in_map_iff in I1. destruct I1 as [[d|] [<- _]]; cbn [put_act] in I2; [apply P in I2; subst; left; reflexivity|destruct I2 as [I2|[]]; discriminate].
  - apply in_concat in I. destruct I as [l [I1 I2]]. apply in_map_iff in I1. destruct I1 as [[d|] [<- _]]; cbn [del_act] in I2; [apply D in I2; subst; left; reflexivity|destruct I2 as [I2|[]]; discriminate].
  - apply in_app_iff in I. destruct I as [I|I]; apply in_concat in I; destruct I as [l [I1 I2]]; apply in_map_iff in I1; destruct I1 as [[d|] [<- _]]; cbn [upd_del_act upd_put_act] in I2.
    + destruct (upd_dels (gen d k0 v) (gen d k' v')) as [|h0 l0]; [destruct I2|]. apply D in I2. subst. left. reflexivity.
    + destruct (same_key k0 k'); cbn in I2; [destruct I2|destruct I2 as [I2|[]]; discriminate].
    + apply P in I2. subst. right. left. reflexivity.
    + destruct (same_key k0 k' && (len v' =? 0)); cbn in I2; [destruct I2|destruct I2 as [I2|[]]; discriminate].
Qed.

Lemma largest_some l r : largest c l = Some r -> In r l /\ forall r', In r' l -> kle c (fst r') (fst r).
Proof.
  revert r. induction l as [|a l IH]; cbn; [discriminate|]. intros r. destruct (largest c l) as [m|] eqn:E.
  - destruct (IH m eq_refl) as [A B]. destruct (kltb c (fst a) (fst m)) eqn:L; intros H; inversion H; subst.
    + split; [auto|]. intros r' [<-|I]; [apply klt_kle; apply kltb_true in L; exact L|auto].
    + split; [auto|]. apply (kltb_false cok) in L. intros r' [<-|I]; [apply (kle_refl cok)|]. eapply (kle_trans cok); [apply B, I|exact L].
  - intros H; inversion H; subst. split; [auto|]. intros r' [<-|I]; [apply (kle_refl cok)|]. destruct l as [|b l]; [destruct I|]. cbn in E. destruct (largest c l); [destruct (kltb c (fst b) (fst p))|]; discriminate.
Qed.
Lemma largest_none l : largest c l = None -> l = [].
Proof. destruct l as [|a l]; [auto|]. cbn. destruct (largest c l); [destruct (kltb c (fst a) (fst p))|]; discriminate. Qed.
Lemma below_passed p k : below c p k = true <-> passed c p k = false.
Proof. destruct p as [|q|]; cbn; [tauto| |split; congruence]. rewrite kltb_true, (kleb_false cok). reflexivity. Qed.
Lemma prev_some l p k v : prev_row c l p = Some (k, v) ->
  In (k, v) l /\ passed c p k = false /\ forall k' v', In (k', v') l -> passed c p k' = false -> kle c k' k.
Proof.
  intros H. apply largest_some in H. destruct H as [A B]. apply filter_In in A. destruct A as [A1 A2]. cbn in A2. apply below_passed in A2.
  split; [exact A1|]. split; [exact A2|]. intros k' v' I P. apply (B (k', v')). apply filter_In. split; [exact I|]. apply below_passed. exact P.
Qed.
Lemma prev_none l p k v : prev_row c l p = None -> In (k, v) l -> passed c p k = true.
Proof.
  intros H I. apply largest_none in H. destruct (passed c p k) eqn:E; [reflexivity|]. apply below_passed in E.
  assert (X : In (k, v) (filter (fun r => below c p (fst r)) l)) by (apply filter_In; auto). rewrite H in X. destruct X.
Qed.

Lemma inv_start l : NoDup (map fst l) -> inv (bstart l).
Proof.
  intros ND. split; cbn; try discriminate; try tauto; auto.
  intros k ws d h [[_ ->]|[i [[] _]]] _ _. reflexivity.
Qed.

Ltac eqi := match goal with
  | H : context[(?a =? ?b)%nat] |- _ => destruct (Nat.eqb_spec a b); [subst|]
  | |- context[(?a =? ?b)%nat] => destruct (Nat.eqb_spec a b); [subst|]
  end.

(** Only thread [i] changes, and the lock and the estimate. *)
Lemma inv_thread s i t' own' est' :
  inv s ->
  (forall k j, In k (thread_keys t') -> j <> i -> ~ In k (thread_keys (bthr s j))) ->
  (forall e, est' = Some e -> passed c (bpos s) e = true) ->
  (forall o acts, t' = Going true o acts -> own' = ByThread i) ->
  (forall j o acts, j <> i -> bthr s j = Going true o acts -> own' = ByThread j) ->
  (own' <> ByIndexer -> bpend s = []) ->
  (forall o arr b, t' = Called o arr b -> call_ok (bsrc s) o /\ arr_ok arr /\ b = true) ->
  (forall o arr, t' = Blocked o arr -> call_ok (bsrc s) o /\ arr_ok arr) ->
  (forall o acts, t' = Going false o acts ->
    (forall k, In k (keys_of o) -> exists e, passed c (bpos s) e = true /\ klt c e k) /\ (forall k ws, ~ In (AIf k ws) acts)) ->
  (forall b o acts a, t' = Going b o acts -> In a acts -> act_ok (keys_of o) a) ->
  (forall k d h, In k (thread_keys t') -> (d < ndb)%nat -> Own d h k ->
    hval (bpend s) d h (hval (tw (bpos s) t') d h (bhot s d h)) = expd (passed c (bpos s) k) d h k (sval (tw (bpos s) t') k (sget (bsrc s) k))) ->
  (forall k, In k (thread_keys (bthr s i)) -> ~ In k (thread_keys t') -> tw (bpos s) (bthr s i) = []) ->
  inv (mkB (bsrc s) (bhot s) (bpos s) est' own' (bpend s) (fun j => if (j =? i)%nat then t' else bthr s j)).
Proof.
  intros IV K E L1 L2 ID CA BL SH WR DA GONE. split; cbn; try apply IV; auto.
  - intros j1 j2 k A B. destruct (Nat.eqb_spec j1 i) as [->|N1], (Nat.eqb_spec j2 i) as [->|N2]; auto.
    + exfalso. eapply (K k j2); eauto.
    + exfalso. eapply (K k j1); eauto.
    + eapply (i_disj _ IV); eauto.
  - intros j o acts H. eqi; eauto.
  - intros j o arr b H. eqi; eauto. eapply (i_called _ IV); eauto.
  - intros j o arr H. eqi; eauto. eapply (i_blocked _ IV); eauto.
  - intros j o acts H. eqi; eauto. eapply (i_short _ IV); eauto.
  - intros j b o acts a H. eqi; eauto. eapply (i_wr _ IV); eauto.
  - intros k ws d h [[A ->]|[j [A ->]]] D O; cbn in A.
    + destruct (in_dec (list_eq_dec N.eq_dec) k (thread_keys (bthr s i))) as [I|NI].
      * assert (N' : ~ In k (thread_keys t')). { specialize (A i). rewrite Nat.eqb_refl in A. exact A. }
        assert (X := i_data _ IV k [] d h). apply X; auto. right. exists i. split; [exact I|]. symmetry. eapply GONE; eauto.
      * apply (i_data _ IV k []); auto. left. split; [|reflexivity]. intros j. specialize (A j). destruct (Nat.eqb_spec j i); [subst; exact NI|exact A].
    + cbn. destruct (Nat.eqb_spec j i) as [E0|NE]; [subst j|].
      * apply DA; auto.
      * apply (i_data _ IV); auto. right. exists j. auto.
Qed.

Lemma inv_call s i o arr b : inv s -> bthr s i = Idle -> call_ok (bsrc s) o -> arr_ok arr -> b = true ->
  (forall j k, In k (keys_of o) -> ~ In k (thread_keys (bthr s j))) -> inv (set_thr s i (Called o arr b)).
Proof.
  intros IV T CO AR -> KS. apply inv_thread; auto; cbn; try discriminate.
  - apply IV.
  - intros. eapply (i_lock _ IV); eauto.
  - apply IV.
  - intros o' arr' b' H. inversion H; subst. auto.
  - intros k d h I D O. apply (i_data _ IV k []); auto. left. auto.
  - rewrite T. reflexivity.
Qed.

Lemma called_data s i o arr k d h : inv s -> (exists b, bthr s i = Called o arr b) \/ bthr s i = Blocked o arr -> In k (keys_of o) -> (d < ndb)%nat -> Own d h k ->
  hval (bpend s) d h (bhot s d h) = expd (passed c (bpos s) k) d h k (sget (bsrc s) k).
Proof.
  intros IV T K D O. apply (i_data _ IV k []); auto. right. exists i. destruct T as [[b T]|T]; rewrite T; auto.
Qed.

Lemma inv_short s i o arr : inv s -> bthr s i = Called o arr true -> forallb (may_insert c (best s)) (keys_of o) = true ->
  inv (set_thr s i (Going false o (concat (map unasked (acts_of gen o arr))))).
Proof.
  intros IV T M.
  assert (KP : forall k, In k (keys_of o) -> exists e, passed c (bpos s) e = true /\ klt c e k).
  { intros k I. rewrite forallb_forall in M. specialize (M k I). unfold may_insert in M. destruct (best s) as [e|] eqn:B; [|discriminate].
    apply kltb_true in M. exists e. split; [apply (i_est _ IV), B|exact M]. }
  destruct (i_called _ IV _ _ _ _ T) as [CO [[A1 [A2 A3]] _]].
  assert (FL : flat (passed c (bpos s)) (concat (map unasked (acts_of gen o arr))) = flat (passed c (bpos s)) (acts_of gen o arr)).
  { apply flat_unasked. intros k ws I. apply acts_keys in I. destruct (KP k I) as [e [P L]]. eapply passed_lt; eauto. }
  apply inv_thread; auto; cbn [thread_keys]; try discriminate.
  - intros k j I N J. apply N. eapply (i_disj _ IV); [exact J|]. rewrite T. exact I.
  - apply IV.
  - intros. eapply (i_lock _ IV); eauto.
  - apply IV.
  - intros o' acts H. inversion H; subst. split; [exact KP|]. intros k ws I. apply in_concat in I. destruct I as [l [I1 I2]].
    apply in_map_iff in I1. destruct I1 as [[w|k0 ws0] [<- _]]; cbn in I2; [destruct I2 as [I2|[]]; discriminate|].
    apply in_map_iff in I2. destruct I2 as [x [E _]]. discriminate.
  - intros b o' acts a H I. inversion H; subst. apply in_concat in I. destruct I as [l [I1 I2]]. apply in_map_iff in I1. destruct I1 as [a0 [<- I1]].
    apply acts_ok in I1. destruct a0 as [w|k0 ws0]; cbn in I2; [destruct I2 as [<-|[]]; exact I1|].
    apply in_map_iff in I2. destruct I2 as [x [<- I2]]. cbn in *. auto.
  - intros k d h I D O. cbn [tw]. rewrite FL. rewrite <- (op_final gen gok); auto.
    rewrite <- (called_data s i o arr k d h); eauto.
    assert (NP : forall v, ~ In (WHot d h v) (bpend s)).
    { intros v J. destruct (i_pend _ IV _ J) as [d' [h' [hv [q [E [P O']]]]]]. inversion E; subst. assert (k = q) by (eapply (own_unique gen gok); eauto). subst q.
      destruct (KP k I) as [e [PE L]]. rewrite P in PE. cbn in PE. apply kleb_true in PE. apply (klt_not cok) in L. contradiction. }
    rewrite !(hval_none (bpend s)); auto.
  - intros k I N. rewrite T in I. contradiction.
Qed.

Lemma inv_block s i o arr : inv s -> bthr s i = Called o arr true -> inv (set_thr s i (Blocked o arr)).
Proof.
  intros IV T. destruct (i_called _ IV _ _ _ _ T) as [CO [AR _]].
  apply inv_thread; auto; cbn [thread_keys]; try discriminate.
  - intros k j I N J. apply N. eapply (i_disj _ IV); [exact J|]. rewrite T. exact I.
  - apply IV.
  - intros. eapply (i_lock _ IV); eauto.
  - apply IV.
  - intros o' arr' H. inversion H; subst. auto.
  - intros k d h I D O. cbn. eapply called_data; eauto.
  - intros k I N. rewrite T in I. contradiction.
Qed.

Lemma inv_lock s i o arr : inv s -> bthr s i = Blocked o arr -> bown s = Free ->
  inv (set_own (set_thr s i (Going true o (acts_of gen o arr))) (ByThread i)).
Proof.
  intros IV T F. destruct (i_blocked _ IV _ _ _ T) as [CO [A1 [A2 A3]]].
  assert (PE : bpend s = []). { apply (i_idle _ IV). rewrite F. discriminate. }
  apply (inv_thread s i); auto; cbn [thread_keys]; try discriminate.
  - intros k j I N J. apply N. eapply (i_disj _ IV); [exact J|]. rewrite T. exact I.
  - apply IV.
  - intros j o' acts N J. apply (i_lock _ IV) in J. rewrite F in J. discriminate.
  - intros b o' acts a H I. inversion H; subst. eapply acts_ok; eauto.
  - intros k d h I D O. cbn [tw]. rewrite <- (op_final gen gok); auto. rewrite <- (called_data s i o arr k d h); eauto. rewrite PE. reflexivity.
  - intros k I N. rewrite T in I. contradiction.
Qed.

Lemma inv_ask s i b o k ws acts : inv s -> bthr s i = Going b o (AIf k ws :: acts) ->
  inv (set_est (set_thr s i (Going b o ((if passed c (bpos s) k then map AWr ws else []) ++ acts))) (new_estimate (bpos s) (best s))).
Proof.
  intros IV T. destruct b.
  2:{ exfalso. destruct (i_short _ IV _ _ _ T) as [_ N]. apply (N k ws). left. reflexivity. }
  assert (OW := i_lock _ IV _ _ _ T).
  apply (inv_thread s i); auto; cbn [thread_keys]; try discriminate.
  - intros k0 j I N J. apply N. eapply (i_disj _ IV); [exact J|]. rewrite T. exact I.
  - intros e H. unfold new_estimate in H. destruct (bpos s) as [|q|] eqn:P; [rewrite <- P; apply (i_est _ IV); exact H| |reflexivity].
    inversion H; subst. cbn. apply kleb_true, (kle_refl cok).
  - intros j o' acts' N J. apply (i_lock _ IV) in J. congruence.
  - apply IV.
  - intros b' o' acts' a H I. inversion H; subst. apply in_app_iff in I. destruct I as [I|I].
    + assert (X : act_ok (keys_of o') (AIf k ws)) by (eapply (i_wr _ IV); [exact T|left; reflexivity]).
      destruct (passed c (bpos s) k); [|destruct I]. apply in_map_iff in I. destruct I as [w [<- I]]. cbn in *. auto.
    + eapply (i_wr _ IV); [exact T|right; exact I].
  - intros k0 d h I D O.
    assert (X := i_data _ IV k0 (tw (bpos s) (bthr s i)) d h). rewrite T in X.
    assert (E : tw (bpos s) (Going true o ((if passed c (bpos s) k then map AWr ws else []) ++ acts)) = tw (bpos s) (Going true o (AIf k ws :: acts))).
    { cbn [tw]. rewrite flat_app. unfold flat at 3. cbn [map concat flat1]. destruct (passed c (bpos s) k); [rewrite flat_awr|]; reflexivity. }
    rewrite E. apply X; auto. right. exists i. rewrite T. auto.
  - intros k0 I N. rewrite T in I. contradiction.
Qed.

Lemma inv_return s i b o : inv s -> bthr s i = Going b o [] -> inv (set_own (set_thr s i Idle) (if b then Free else bown s)).
Proof.
  intros IV T. assert (OW : b = true -> bown s = ByThread i). { intros ->. eapply (i_lock _ IV); eauto. }
  apply (inv_thread s i); auto; cbn [thread_keys]; try discriminate; try tauto.
  - apply IV.
  - intros j o' acts N J. apply (i_lock _ IV) in J. destruct b; [|exact J]. rewrite (OW eq_refl) in J. inversion J. congruence.
  - intros H. destruct b; [apply (i_idle _ IV); rewrite (OW eq_refl); discriminate|]. apply (i_idle _ IV), H.
  - intros k d h [].
  - intros k I N. rewrite T. reflexivity.
Qed.

Lemma wr_src_other ks w k : wr_ok ks w -> ~ In k ks -> forall v, w <> WSrc k v.
Proof. intros W N v ->. apply N. exact W. Qed.
Lemma wr_hot_other ks w d h k : wr_ok ks w -> ~ In k ks -> Own d h k -> forall v, w <> WHot d h v.
Proof. intros W N O v ->. destruct W as [k' [I O']]. apply N. rewrite (own_unique gen gok _ _ _ _ O O'). exact I. Qed.
Lemma do_wr_src w s k : sget (bsrc (do_wr w s)) k = sval [w] k (sget (bsrc s) k).
Proof. destruct w; cbn; [apply sget_sset|reflexivity]. Qed.
Lemma do_wr_hot w s d h : bhot (do_wr w s) d h = hval [w] d h (bhot s d h).
Proof. destruct w; cbn; reflexivity. Qed.

Lemma call_ok_other ks w s o : wr_ok ks w -> (forall k, In k (keys_of o) -> ~ In k ks) -> call_ok (bsrc s) o -> call_ok (bsrc (do_wr w s)) o.
Proof.
  intros W D CO. assert (E : forall k, In k (keys_of o) -> sget (bsrc (do_wr w s)) k = sget (bsrc s) k).
  { intros k I. rewrite do_wr_src. apply sval_none. intros v [J|[]]. eapply wr_src_other; eauto. }
  destruct o as [k v|k v|k v k' v']; cbn [call_ok keys_of] in *; rewrite ?E; auto; cbn; auto.
Qed.

Lemma inv_write s i b o w acts : inv s -> bthr s i = Going b o (AWr w :: acts) -> inv (do_wr w (set_thr s i (Going b o acts))).
Proof.
  intros IV T.
  assert (W : wr_ok (keys_of o) w). { apply (i_wr _ IV i b o (AWr w :: acts) (AWr w) T). left. reflexivity. }
  set (s1 := set_thr s i (Going b o acts)).
  assert (KE : forall j, thread_keys (bthr s1 j) = thread_keys (bthr s j)).
  { intros j. cbn. destruct (Nat.eqb_spec j i) as [E0|NE]; [subst j; rewrite T|]; reflexivity. }
  assert (ST : bthr (do_wr w s1) = bthr s1 /\ bpos (do_wr w s1) = bpos s /\ best (do_wr w s1) = best s /\ bown (do_wr w s1) = bown s /\ bpend (do_wr w s1) = bpend s).
  { destruct w; cbn; auto. }
  destruct ST as [S1 [S2 [S3 [S4 S5]]]].
  assert (OTH : forall j k, j <> i -> In k (thread_keys (bthr s j)) -> ~ In k (keys_of o)).
  { intros j k N I J. apply N. eapply (i_disj _ IV); [exact I|]. rewrite T. exact J. }
  split; rewrite ?S1, ?S2, ?S3, ?S4, ?S5; try apply IV.
  - destruct w; cbn; [apply sset_nodup|]; apply IV.
  - intros j1 j2 k. rewrite !KE. apply (i_disj _ IV).
  - intros j o' acts' H. cbn in H. destruct (Nat.eqb_spec j i) as [E0|NE]; [subst j; inversion H; subst|]; eapply (i_lock _ IV); eauto.
  - intros j o' arr b' H. cbn in H. destruct (Nat.eqb_spec j i) as [E0|NE]; [discriminate|].
    destruct (i_called _ IV _ _ _ _ H) as [CO R]. split; [|exact R]. apply (call_ok_other (keys_of o)); auto. intros k I. apply (OTH j); auto. rewrite H. exact I.
  - intros j o' arr H. cbn in H. destruct (Nat.eqb_spec j i) as [E0|NE]; [discriminate|].
    destruct (i_blocked _ IV _ _ _ H) as [CO R]. split; [|exact R]. apply (call_ok_other (keys_of o)); auto. intros k I. apply (OTH j); auto. rewrite H. exact I.
  - intros j o' acts' H. cbn in H. destruct (Nat.eqb_spec j i) as [E0|NE].
    + subst j. inversion H; subst. destruct (i_short _ IV _ _ _ T) as [A B]. split; [exact A|]. intros k ws I. apply (B k ws). right. exact I.
    + eapply (i_short _ IV); eauto.
  - intros j b' o' acts' a H I. cbn in H. destruct (Nat.eqb_spec j i) as [E0|NE].
    + subst j. inversion H; subst. eapply (i_wr _ IV); [exact T|right; exact I].
    + eapply (i_wr _ IV); eauto.
  - intros d h hv H. rewrite do_wr_hot in H. destruct w as [k v|d' h' v]; cbn in H; [eapply (i_hot _ IV); exact H|].
    destruct ((d =? d')%nat && same_key h h') eqn:E; [|eapply (i_hot _ IV); exact H].
    apply andb_true_iff in E. destruct E as [E1 E2]. apply Nat.eqb_eq in E1. apply same_key_true in E2. subst. destruct W as [k [_ O]]. eauto.
  - intros k ws d h HO D O. rewrite do_wr_hot, do_wr_src. cbn [bhot bsrc s1 set_thr].
    destruct (in_dec (list_eq_dec N.eq_dec) k (keys_of o)) as [I|NI].
    + assert (ws = flat (passed c (bpos s)) acts).
      { destruct HO as [[A _]|[j [A ->]]].
        - exfalso. apply (A i). rewrite S1, KE, T. exact I.
        - rewrite S1, KE in A. assert (j = i) by (eapply (i_disj _ IV); [exact A|rewrite T; exact I]). subst j. rewrite S1, S2. cbn. rewrite Nat.eqb_refl. reflexivity. }
      subst ws. assert (X := i_data _ IV k (w :: flat (passed c (bpos s)) acts) d h).
      assert (Y : holds s k (w :: flat (passed c (bpos s)) acts)) by (right; exists i; rewrite T; split; [exact I|reflexivity]).
      specialize (X Y D O). destruct w; exact X.
    + rewrite (sval_none [w]), (hval_none [w]).
      * apply (i_data _ IV); auto. destruct HO as [[A ->]|[j [A ->]]].
        { left. split; [|reflexivity]. intros j. specialize (A j). rewrite S1, KE in A. exact A. }
        { right. exists j. rewrite S1, KE in A. split; [exact A|]. rewrite S1, S2. cbn. destruct (Nat.eqb_spec j i) as [E0|NE]; [|reflexivity].
          subst j. rewrite T in A. contradiction. }
      * intros v [J|[]]. eapply wr_hot_other; eauto.
      * intros v [J|[]]. eapply wr_src_other; eauto.
Qed.

Lemma inv_send s w ws : inv s -> bown s = ByIndexer -> bpend s = w :: ws ->
  inv (do_wr w (mkB (bsrc s) (bhot s) (bpos s) (best s) (bown s) ws (bthr s))).
Proof.
  intros IV OW PE.
  assert (PW : In w (bpend s)) by (rewrite PE; left; reflexivity).
  destruct (i_pend _ IV _ PW) as [d0 [h0 [hv0 [q [-> [PQ OQ]]]]]].
  split; cbn [do_wr bsrc bhot bpos best bown bpend bthr]; try apply IV.
  - rewrite OW. intros H. contradiction.
  - intros w I. apply (i_pend _ IV). rewrite PE. right. exact I.
  - intros d h hv H. unfold hset in H. destruct ((d =? d0)%nat && same_key h h0) eqn:E; [|eapply (i_hot _ IV); exact H].
    apply andb_true_iff in E. destruct E as [E1 E2]. apply Nat.eqb_eq in E1. apply same_key_true in E2. subst. eauto.
  - intros k tws d h HO D O. assert (X := i_data _ IV k tws d h HO D O). rewrite PE in X. cbn [hval] in X. rewrite <- X. f_equal. unfold hset.
    destruct ((d =? d0)%nat && same_key h h0) eqn:E; [|reflexivity].
    apply andb_true_iff in E. destruct E as [E1 E2]. apply Nat.eqb_eq in E1. apply same_key_true in E2. subst d0 h0.
    assert (k = q) by (eapply (own_unique gen gok); eauto). subst q.
    apply hval_none. intros v J. destruct HO as [[_ ->]|[i [A ->]]]; [destruct J|].
    cbn [bpos bthr] in J, A. destruct (bthr s i) as [| | |b o acts] eqn:T; cbn [tw] in J; try destruct J. destruct b.
    + apply (i_lock _ IV) in T. congruence.
    + destruct (i_short _ IV _ _ _ T) as [SH _]. destruct (SH k A) as [e [P L]]. rewrite PQ in P. cbn in P. apply kleb_true in P. apply (klt_not cok) in L. contradiction.
Qed.

(** The cursor moves to [p'], which leaves behind no row but that of [k0]. *)
Lemma inv_move s p' pend' :
  inv s -> bown s = Free ->
  (forall k, passed c (bpos s) k = true -> passed c p' k = true) ->
  (forall w, In w pend' -> exists d h hv q, w = WHot d h (Some hv) /\ p' = AtKey q /\ Own d h q) ->
  (forall k d h, passed c (bpos s) k = false -> passed c p' k = true -> (d < ndb)%nat -> Own d h k ->
    hval pend' d h None = expd true d h k (sget (bsrc s) k)) ->
  (forall k, p' = AtKey k -> passed c (bpos s) k = false) ->
  inv (mkB (bsrc s) (bhot s) p' (best s) ByIndexer pend' (bthr s)).
Proof.
  intros IV F MO PW NEW OUT. assert (PE : bpend s = []). { apply (i_idle _ IV). rewrite F. discriminate. }
  assert (GT : forall i o acts, bthr s i <> Going true o acts). { intros i o acts T. apply (i_lock _ IV) in T. congruence. }
  split; cbn [bsrc bhot bpos best bown bpend bthr]; try apply IV; auto.
  - intros e H. apply MO. apply (i_est _ IV), H.
  - intros i o acts T. exfalso. eapply GT; eauto.
  - intros H. contradiction.
  - intros i o acts T. destruct (i_short _ IV _ _ _ T) as [A B]. split; [|exact B]. intros k I. destruct (A k I) as [e [P L]]. exists e. auto.
  - intros k ws d h HO D O.
    assert (TW : forall i, tw p' (bthr s i) = tw (bpos s) (bthr s i)).
    { intros i. destruct (bthr s i) as [| | |[] o acts] eqn:T; try reflexivity; [exfalso; eapply GT; eauto|]. cbn. apply flat_noask. apply (i_short _ IV _ _ _ T). }
    assert (HO' : holds s k ws). { destruct HO as [HO|[i [A ->]]]; [left; exact HO|right; exists i; split; [exact A|cbn; apply TW]]. }
    assert (X := i_data _ IV k ws d h HO' D O). rewrite PE in X. cbn [hval] in X. rewrite X.
    destruct (passed c (bpos s) k) eqn:P.
    + rewrite (MO k P). unfold expd. cbn. apply hval_none. intros v J. destruct (PW _ J) as [d1 [h1 [hv1 [q [E [PQ OQ]]]]]].
      inversion E; subst. assert (k = q) by (eapply (own_unique gen gok); eauto). subst q. specialize (OUT k eq_refl). congruence.
    + assert (ws = []).
      { destruct HO' as [[_ ->]|[i [A ->]]]; [reflexivity|]. destruct (bthr s i) as [| | |[] o acts] eqn:T; try reflexivity; [exfalso; eapply GT; eauto|].
        destruct (i_short _ IV _ _ _ T) as [SH _]. destruct (SH k A) as [e [PE' L]]. assert (passed c (bpos s) k = true) by (eapply passed_lt; eauto). congruence. }
      subst ws. cbn [sval]. change (expd false d h k (sget (bsrc s) k)) with (@None bytes). destruct (passed c p' k) eqn:P'.
      * apply NEW; auto.
      * unfold expd. cbn. apply hval_none. intros v J. destruct (PW _ J) as [d1 [h1 [hv1 [q [E [PQ OQ]]]]]].
        inversion E; subst. assert (k = q) by (eapply (own_unique gen gok); eauto). subst q. cbn in P'. apply (kleb_false cok) in P'. apply (klt_irrefl cok) in P'. destruct P'.
Qed.

Lemma pend_in k v d h x : In (WHot d h x) (concat (map (fun d => puts d (gen d k v)) (seq 0 ndb))) <-> (d < ndb)%nat /\ exists hv, x = Some hv /\ In (h, hv) (gen d k v).
Proof.
  rewrite in_concat. split.
  - intros [l [A B]]. apply in_map_iff in A. destruct A as [d' [<- A]]. apply in_seq in A. apply in_puts in B. destruct B as [-> B]. split; [lia|exact B].
  - intros [A B]. exists (puts d (gen d k v)). split; [apply in_map_iff; exists d; split; [reflexivity|apply in_seq; lia]|]. apply in_puts. auto.
Qed.

Lemma inv_next s k v : inv s -> bown s = Free -> prev_row c (bsrc s) (bpos s) = Some (k, v) ->
  inv (mkB (bsrc s) (bhot s) (AtKey k) (best s) ByIndexer (concat (map (fun d => puts d (gen d k v)) (seq 0 ndb))) (bthr s)).
Proof.
  intros IV F PR. apply prev_some in PR. destruct PR as [I [P MAX]]. apply inv_move; auto.
  - intros k' P'. cbn. apply kleb_true. destruct (bpos s) as [|q|]; cbn in *; try discriminate.
    apply kleb_true in P'. apply (kleb_false cok) in P. apply klt_kle. eapply (klt_kle_trans cok); eauto.
  - intros w J. destruct w as [k' x|d h x].
    + apply in_concat in J. destruct J as [l [A B]]. apply in_map_iff in A. destruct A as [d [<- _]]. destruct (puts_nosrc _ _ _ _ B).
    + apply pend_in in J. destruct J as [D [hv [-> J]]]. exists d, h, hv, k. split; [reflexivity|]. split; [reflexivity|]. exists v, hv. exact J.
  - intros k1 d h P1 P2 D O. cbn in P2. apply kleb_true in P2. destruct (sget (bsrc s) k1) as [v1|] eqn:G.
    + assert (k1 = k). { apply capart. apply (keq_kle cok). split; [|exact P2]. apply (MAX k1 v1); auto. apply sget_in, G. }
      subst k1. assert (v1 = v). { apply in_sget in I; [congruence|apply IV]. } subst v1. cbn.
      destruct (sget (gen d k v) h) as [hv|] eqn:E.
      * apply hval_const; [|exists (Some hv); apply pend_in; split; [exact D|exists hv; split; [reflexivity|apply sget_in, E]]].
        intros x J. apply pend_in in J. destruct J as [_ [hv' [-> J]]]. apply (sget_gen gen gok) in J. congruence.
      * apply hval_none. intros x J. apply pend_in in J. destruct J as [_ [hv' [-> J]]]. apply (sget_gen gen gok) in J. congruence.
    + cbn. apply hval_none. intros x J. apply pend_in in J. destruct J as [_ [hv' [-> J]]].
      assert (k1 = k) by (eapply (own_unique gen gok); [exact O|exists v, hv'; exact J]). subst k1. apply in_sget in I; [congruence|apply IV].
  - intros k' E. inversion E; subst. exact P.
Qed.

Lemma inv_last s : inv s -> bown s = Free -> prev_row c (bsrc s) (bpos s) = None ->
  inv (mkB (bsrc s) (bhot s) NegInf (best s) ByIndexer [] (bthr s)).
Proof.
  intros IV F PR. apply inv_move; auto; try discriminate.
  - intros w [].
  - intros k d h P _ D O. cbn. destruct (sget (bsrc s) k) as [v|] eqn:G; [|reflexivity].
    apply sget_in in G. eapply prev_none in G; [|exact PR]. congruence.
Qed.

Lemma inv_end s : inv s -> bpend s = [] -> bown s = ByIndexer -> inv (set_own s Free).
Proof.
  intros IV PE OW. split; cbn; try apply IV; auto.
  intros i o acts T. apply (i_lock _ IV) in T. congruence.
Qed.

Lemma inv_step s s' : inv s -> step c gen ndb false s s' -> inv s'.
Proof.
  intros IV ST. inversion ST; subst.
  - apply inv_call; auto. + split; auto. + destruct same; [reflexivity|]. exfalso. discriminate H1. reflexivity.
  - apply inv_short; auto.
  - apply inv_block; auto.
  - exfalso. destruct (i_called _ IV _ _ _ _ H) as [_ [_ E]]. discriminate.
  - apply inv_lock; auto.
  - apply inv_write; auto.
  - apply inv_ask; auto.
  - apply (inv_return s i b o); auto.
  - apply inv_next; auto.
  - apply inv_last; auto.
  - apply inv_send; auto.
  - apply inv_end; auto.
Qed.

Lemma inv_reach l s : NoDup (map fst l) -> reach c gen ndb false l s -> inv s.
Proof. intros ND R. induction R; [apply inv_start, ND|eapply inv_step; eauto]. Qed.
End I.
