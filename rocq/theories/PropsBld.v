(** C51.  Building an index while other threads write. *)
From Verif Require Import Base Bytes LtSpec KOrd KeyCmp BldModel BldSpec BldProofs BldInv.
Open Scope N_scope.

(** Whenever no call is running and the indexer is between two rows, an index under
    construction holds exactly the rows that stand for the source rows at or behind
    the cursor, whatever calls have run, with or without the shortcut past the lock,
    in whatever order their writes and those of the indexer were made. *)
Theorem C51_while_building c gen ndb l s :
  cmp_ok c -> tells_apart c -> callback_ok gen -> NoDup (map fst l) ->
  reach c gen ndb false l s -> at_rest s ->
  forall d h hv, (d < ndb)%nat -> (bhot s d h = Some hv <-> wanted gen c s d h hv).
Proof.
  intros CO AP GO ND R [ID F] d h hv D. assert (IV := inv_reach c gen ndb CO AP GO l s ND R).
  assert (PE : bpend s = []). { apply (i_idle _ _ _ _ IV). rewrite F. discriminate. }
  assert (DA : forall k, Own gen d h k -> bhot s d h = expd gen (passed c (bpos s) k) d h k (sget (bsrc s) k)).
  { intros k O. assert (X := i_data _ _ _ _ IV k [] d h). rewrite PE in X. apply X; auto. left. split; [|reflexivity]. intros i. rewrite (ID i). intros []. }
  split.
  - intros H. destruct (i_hot _ _ _ _ IV _ _ _ H) as [k O]. rewrite (DA k O) in H. unfold expd in H.
    destruct (passed c (bpos s) k) eqn:P; [|discriminate]. destruct (sget (bsrc s) k) as [v|] eqn:G; [|discriminate].
    exists k, v. split; [exact G|]. split; [apply passed_reached, P|]. apply sget_in, H.
  - intros [k [v [G [P I]]]]. rewrite (DA k); [|exists v, hv; exact I]. apply passed_reached in P. unfold expd. rewrite P, G. apply (sget_gen gen GO), I.
Qed.

(** When the build is over the index is complete, and it stays so until the indexer
    is closed: it has exactly the rows of the source rows. *)
Theorem C51_built c gen ndb l s :
  cmp_ok c -> tells_apart c -> callback_ok gen -> NoDup (map fst l) ->
  reach c gen ndb false l s -> at_rest s -> bpos s = NegInf ->
  forall d h hv, (d < ndb)%nat ->
    (bhot s d h = Some hv <-> exists k v, sget (bsrc s) k = Some v /\ In (h, hv) (gen d k v)).
Proof.
  intros CO AP GO ND R AR P d h hv D. rewrite (C51_while_building c gen ndb l s CO AP GO ND R AR d h hv D). unfold wanted. rewrite P. cbn. split.
  - intros [k [v [A [_ B]]]]. eauto.
  - intros [k [v [A B]]]. exists k, v. auto.
Qed.

(** The cursor never goes back, and each of its moves but the last leaves fewer
    source rows before it. *)
Theorem C51_cursor c gen ndb o s s' :
  cmp_ok c -> step c gen ndb o s s' ->
  (forall k, reached c (bpos s) k -> reached c (bpos s') k) /\
  (bpos s' <> bpos s -> bpos s' = NegInf \/
    (length (filter (fun r => negb (passed c (bpos s') (fst r))) (bsrc s')) <
     length (filter (fun r => negb (passed c (bpos s) (fst r))) (bsrc s)))%nat).
Proof.
  intros CO ST.
  assert (MO : forall p k, passed c p k = false -> forall k', passed c p k' = true -> passed c (AtKey k) k' = true).
  { intros p k P k' P'. cbn. apply kleb_true. destruct p as [|q|]; cbn in *; try discriminate.
    apply kleb_true in P'. apply (kleb_false CO) in P. apply klt_kle. eapply (klt_kle_trans CO); eauto. }
  inversion ST; subst; cbn; try (split; [auto|intros X; contradiction]).
  - destruct w; cbn; (split; [auto|intros X; contradiction]).
  - apply (prev_some c CO) in H0. destruct H0 as [I [P _]]. split.
    + intros k' R. apply (passed_reached c (AtKey k)). apply (MO _ _ P). apply passed_reached, R.
    + intros _. right. clear - CO I P MO. induction (bsrc s) as [|[a w] l IH]; [destruct I|].
      assert (LE : (length (filter (fun r => negb (passed c (AtKey k) (fst r))) l) <= length (filter (fun r => negb (passed c (bpos s) (fst r))) l))%nat).
      { clear - MO P. induction l as [|[a w] l IH]; [reflexivity|]. cbn [filter fst]. destruct (passed c (bpos s) a) eqn:E.
        - rewrite (MO _ _ P _ E). exact IH.
        - cbn [negb]. destruct (passed c (AtKey k) a); cbn [negb length]; lia. }
      destruct I as [I|I].
      * inversion I; subst. cbn [filter fst]. change (kleb c k k) with (passed c (AtKey k) k).
        assert (X : passed c (AtKey k) k = true) by (cbn; apply kleb_true, (kle_refl CO)). rewrite X, P. cbn. cbn in LE. lia.
      * specialize (IH I). cbn [filter fst]. change (kleb c k a) with (passed c (AtKey k) a). cbn in IH. destruct (passed c (bpos s) a) eqn:E.
        -- rewrite (MO _ _ P _ E). exact IH.
        -- cbn [negb]. destruct (passed c (AtKey k) a); cbn [negb length]; lia.
  - split; [auto|]. intros _. left. reflexivity.
  - destruct w; cbn; (split; [auto|intros X; contradiction]).
Qed.

(** An index on the value (key: value and source key, no value) and a clustering index. *)
Definition ex_gen (d : nat) (k v : bytes) : list (bytes * bytes) :=
  match d with O => [(len v :: v ++ k, [])] | _ => [(k, 1 :: v)] end.
Example ex_callback : callback_ok ex_gen.
Proof.
  split.
  - intros d k v. destruct d; cbn; constructor; auto; constructor.
  - intros d k v k' v' h hv hv'. destruct d; cbn; intros [A|[]] [B|[]]; inversion A; inversion B; subst; auto.
    clear A B. assert (E1 : len v' = len v) by congruence. assert (E2 : v' ++ k' = v ++ k) by congruence.
    assert (E : length v' = length v) by (unfold len in E1; lia). clear - E E2.
    revert v E E2. induction v' as [|a v' IH]; intros [|b v] E E2; try discriminate; [symmetry; exact E2|].
    cbn in *. inversion E2 as [[E3 E4]]. apply (IH v); [lia|exact E4].
  - intros d k v v' h hv. destruct d; cbn; intros [A|[]] [B|[]]; inversion A; inversion B; subst; auto.
Qed.

(** Steps of a concrete run. *)
Ltac fw R tac :=
  match type of R with reach ?c ?g ?n ?o ?l ?s =>
    let H := fresh "ST" in let R' := fresh "R" in
    eassert (H : step c g n o s _) by tac;
    pose proof (RStep c g n o l s _ R H) as R'; clear H; clear R; rename R' into R;
    cbv beta iota delta [do_wr set_thr set_own set_est bsrc bhot bpos best bown bpend bthr new_estimate bstart] in R
  end.
Ltac call x a sm := eapply SCall with (i := 0%nat) (o := x) (arr := a) (same := sm);
  [reflexivity|repeat split; cbn; auto; discriminate|auto; discriminate|cbn; auto
  |intros d D; destruct d as [|[|d]]; cbn; auto; exfalso; lia
  |intros d D; cbn in D; repeat (destruct D as [D|D]; [inversion D; lia|]); destruct D
  |intros j k I; cbn; repeat match goal with |- context[Nat.eqb ?x ?y] => destruct (Nat.eqb x y) end; cbn; tauto].
Ltac write := eapply SWrite with (i := 0%nat); vm_compute; reflexivity.
Ltac ask := eapply SAsk with (i := 0%nat); vm_compute; reflexivity.
Ltac return_ := eapply SReturn with (i := 0%nat); vm_compute; reflexivity.
Ltac block := eapply SBlock with (i := 0%nat); vm_compute; reflexivity.
Ltac short := eapply SShort with (i := 0%nat); vm_compute; reflexivity.
Ltac other := eapply SOther with (i := 0%nat); vm_compute; reflexivity.
Ltac lock := eapply SLock with (i := 0%nat); vm_compute; reflexivity.
Ltac next := eapply SNext; vm_compute; reflexivity.
Ltac last_ := eapply SLast; vm_compute; reflexivity.
Ltac send := eapply SSend; vm_compute; reflexivity.
Ltac end_ := eapply SEnd; vm_compute; reflexivity.
Ltac rest := split; [intros i; cbn; repeat match goal with |- context[Nat.eqb ?x ?y] => destruct (Nat.eqb x y) end; reflexivity|reflexivity].

(** Two rows.  The indexer takes the larger one; a call moves the smaller one past
    the cursor; another call uses the shortcut; the indexer finishes. *)
Definition ex_rows : list (bytes * bytes) := [([1], [7]); ([9], [8])].
Example ex_run : exists s, reach key_cmp ex_gen 2 false ex_rows s /\ at_rest s /\ bpos s = NegInf /\
  bsrc s = [([11], [6]); ([10], [5]); ([9], [8])] /\
  bhot s 0%nat [1; 5; 10] = Some [] /\ bhot s 0%nat [1; 7; 1] = None /\ bhot s 1%nat [10] = Some [1; 5] /\ bhot s 1%nat [11] = Some [1; 6].
Proof.
  assert (R := RStart key_cmp ex_gen 2 false ex_rows).
  fw R next. fw R send. fw R send. fw R end_.
  fw R ltac:(call (OUpd [1] [7] [10] [5]) [Some 0%nat; None; Some 1%nat] true). fw R block. fw R lock.
  fw R ask. fw R write. fw R ask. fw R ask. fw R write. fw R write. fw R ask. fw R write. fw R return_.
  fw R ltac:(call (OPut [11] [6]) [None; Some 0%nat; Some 1%nat] true). fw R short. fw R write. fw R write.
  fw R last_. fw R end_. fw R write. fw R return_.
  eexists. split; [exact R|]. split; [rest|]. repeat split; vm_compute; reflexivity.
Qed.

(** Finding: a call whose source is not the source of the indexer asks about the
    cursor without the lock of the indexer.  If db_array has the index before the
    source, the cursor can pass between the question and the write of the source
    row, and the index misses the row for good. *)
Theorem C51_other_source_refuted :
  exists s, reach key_cmp ex_gen 2 true [] s /\ at_rest s /\ bpos s = NegInf /\
    sget (bsrc s) [1] = Some [7] /\ forall d h, bhot s d h = None.
Proof.
  assert (R := RStart key_cmp ex_gen 2 true []).
  fw R ltac:(call (OPut [1] [7]) [Some 0%nat; Some 1%nat; None] false). fw R other.
  fw R ask. fw R ask. fw R last_. fw R end_. fw R write. fw R return_.
  eexists. split; [exact R|]. split; [rest|]. repeat split.
Qed.

(** Finding: with an index whose keys do not tell the source key apart, an update
    that moves a row past the cursor and leaves its index row as it is loses the
    index row: the call skips it as unchanged, and the indexer, which has not built
    it yet, does not reach it any more. *)
Definition by_value (d : nat) (k v : bytes) : list (bytes * bytes) := [(v, [])].
Theorem C51_shared_key_refuted :
  (forall d k v, NoDup (map fst (by_value d k v))) /\
  (forall d k v v' h hv, In (h, hv) (by_value d k v) -> In (h, []) (by_value d k v') -> hv = []) /\
  exists s, reach key_cmp by_value 1 false ex_rows s /\ at_rest s /\ bpos s = NegInf /\
    sget (bsrc s) [10] = Some [7] /\ In ([7], []) (by_value 0%nat [10] [7]) /\ bhot s 0%nat [7] = None.
Proof.
  split; [intros; cbn; constructor; auto; constructor|]. split; [intros d k v v' h hv [A|[]] _; inversion A; reflexivity|].
  assert (R := RStart key_cmp by_value 1 false ex_rows).
  fw R next. fw R send. fw R end_.
  fw R ltac:(call (OUpd [1] [7] [10] [7]) [None; Some 0%nat] true). fw R block. fw R lock.
  fw R write. fw R write. fw R return_. fw R last_. fw R end_.
  eexists. split; [exact R|]. split; [rest|]. repeat split. left. reflexivity.
Qed.

Print Assumptions C51_while_building.
Print Assumptions C51_built.
Print Assumptions C51_cursor.
Print Assumptions C51_other_source_refuted.
Print Assumptions C51_shared_key_refuted.
