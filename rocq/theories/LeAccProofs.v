(** The accessors that work on packed bytes agree with unpacking (C07). *)
From Verif Require Import Base Bytes UleModel LeCodecModel LeCodecProofs.
Open Scope N_scope.

Ltac inv_do H :=
  repeat match type of H with
  | (match ?e with Some _ => _ | None => None end) = Some _ =>
      let E := fresh "E" in destruct e as [?|] eqn:E; [|discriminate H]
  | (let '(_, _) := ?p in _) = Some _ => destruct p as [? ?]
  | (if ?b then _ else None) = Some _ =>
      let E := fresh "E" in destruct b eqn:E; [|discriminate H]
  end.

Lemma rd_list_S {A} (p : bytes -> option (A * bytes)) n bs a bs1 l bs2 :
  p bs = Some (a, bs1) -> rd_list p n bs1 = Some (l, bs2) ->
  rd_list p (S n) bs = Some (a :: l, bs2).
Proof. intros H1 H2. cbn [rd_list]. rewrite H1, H2. reflexivity. Qed.

Lemma rd_list_length {A} (p : bytes -> option (A * bytes)) n bs l bs' :
  rd_list p n bs = Some (l, bs') -> length l = n.
Proof.
  revert bs l. induction n as [|n IH]; intros bs l H; cbn [rd_list] in H.
  - injection H as <- _. reflexivity.
  - inv_do H. injection H as <- <-. cbn [length]. f_equal. eapply IH; eauto.
Qed.

Lemma rd_txnids_skip n bs xs bs' :
  rd_list rd_txnid n bs = Some (xs, bs') -> skip (N.of_nat n * 8) bs = Some bs'.
Proof.
  revert bs xs. induction n as [|n IH]; intros bs xs H; cbn [rd_list] in H.
  - injection H as _ <-. apply skip_0.
  - inv_do H. injection H as <- <-. apply skip_rd in E.
    apply IH in E0. pose proof (skip_trans _ _ _ _ _ E E0) as T.
    replace (N.of_nat (S n) * 8) with (N.of_nat 8 + N.of_nat n * 8) by lia. exact T.
Qed.

Lemma rd_lab_rd bs l bs' : rd_length_and_bit bs = Some (l, bs') -> skip 4 bs = Some bs'.
Proof.
  unfold rd_length_and_bit. intros H. inv_do H. injection H as _ <-.
  apply skip_rd in E. exact E.
Qed.

Lemma rd_labs_skip n bs ls bs' :
  rd_list rd_length_and_bit n bs = Some (ls, bs') -> skip (N.of_nat n * 4) bs = Some bs'.
Proof.
  revert bs ls. induction n as [|n IH]; intros bs xs H; cbn [rd_list] in H.
  - injection H as _ <-. apply skip_0.
  - inv_do H. injection H as <- <-. apply rd_lab_rd in E.
    apply IH in E0. pose proof (skip_trans _ _ _ _ _ E E0) as T.
    replace (N.of_nat (S n) * 4) with (4 + N.of_nat n * 4) by lia. exact T.
Qed.

(** Element [i] of a list of lengths can be read on its own. *)
Lemma rd_labs_nth n bs ls bs' i l :
  rd_list rd_length_and_bit n bs = Some (ls, bs') -> nth_error ls i = Some l ->
  exists p1 p2, rd_list rd_length_and_bit i bs = Some (firstn i ls, p1)
    /\ skip (4 * N.of_nat i) bs = Some p1 /\ rd_length_and_bit p1 = Some (l, p2).
Proof.
  revert n bs ls. induction i as [|i IH]; intros n bs ls H Hn.
  - destruct ls as [|l0 ls]; [discriminate|]. injection Hn as ->.
    destruct n; cbn [rd_list] in H; [discriminate|]. inv_do H. injection H as -> -> ->.
    exists bs. eexists. repeat split; eauto. apply skip_0.
  - destruct ls as [|l0 ls]; [discriminate|]. cbn [nth_error] in Hn.
    destruct n; cbn [rd_list] in H; [discriminate|]. inv_do H. injection H as -> -> ->.
    destruct (IH _ _ _ E0 Hn) as (p1 & p2 & H1 & H2 & H3).
    exists p1, p2. repeat split; auto.
    + cbn [firstn]. eapply rd_list_S; eauto.
    + replace (4 * N.of_nat (S i)) with (4 + 4 * N.of_nat i) by lia.
      eapply skip_trans; eauto. eapply rd_lab_rd; eauto.
Qed.

Lemma rd_data_skip l bs r bs' : rd_data l bs = Some (r, bs') ->
  skip (match l with Some n => n | None => 0 end) bs = Some bs'.
Proof.
  destruct l as [n|]; cbn [rd_data]; intros H.
  - inv_do H. injection H as _ <-. unfold skip. rewrite E. reflexivity.
  - injection H as _ <-. apply skip_0.
Qed.

Lemma rd_datas_skip ls bs rs bs' : rd_datas ls bs = Some (rs, bs') ->
  skip (lab_sum ls) bs = Some bs'.
Proof.
  revert bs rs. induction ls as [|l ls IH]; intros bs rs H; cbn [rd_datas] in H.
  - injection H as _ <-. apply skip_0.
  - inv_do H. injection H as <- <-. unfold lab_sum. cbn [sumN].
    eapply skip_trans; [eapply rd_data_skip; eauto|]. eapply IH; eauto.
Qed.

Lemma rd_datas_length ls bs rs bs' : rd_datas ls bs = Some (rs, bs') -> length rs = length ls.
Proof.
  revert bs rs. induction ls as [|l ls IH]; intros bs rs H; cbn [rd_datas] in H.
  - injection H as <- _. reflexivity.
  - inv_do H. injection H as <- <-. cbn [length]. f_equal. eauto.
Qed.

Lemma rd_datas_nth ls bs rs bs' i r : rd_datas ls bs = Some (rs, bs') ->
  nth_error rs i = Some r ->
  exists l p1 p2, nth_error ls i = Some l /\ skip (lab_sum (firstn i ls)) bs = Some p1
    /\ rd_data l p1 = Some (r, p2).
Proof.
  revert ls bs rs. induction i as [|i IH]; intros ls bs rs H Hn;
    (destruct ls as [|l ls]; cbn [rd_datas] in H;
     [injection H as <- _; discriminate|]);
    inv_do H; injection H as <- <-; cbn [nth_error] in Hn.
  - injection Hn as ->. exists l, bs. eexists. repeat split; eauto. apply skip_0.
  - destruct (IH _ _ _ E0 Hn) as (l' & p1 & p2 & H1 & H2 & H3).
    exists l', p1, p2. repeat split; auto. cbn [firstn]. unfold lab_sum. cbn [sumN].
    eapply skip_trans; [eapply rd_data_skip; eauto|exact H2].
Qed.

Lemma rd_data_not_place l bs r bs' : rd_data l bs = Some (r, bs') -> r <> XPlace.
Proof.
  destruct l; cbn [rd_data]; intros H; inv_do H; injection H as <- _; discriminate.
Qed.

Lemma rd_datas_not_place ls bs rs bs' : rd_datas ls bs = Some (rs, bs') ->
  Forall (fun r => r <> XPlace) rs.
Proof.
  revert bs rs. induction ls as [|l ls IH]; intros bs rs H; cbn [rd_datas] in H.
  - injection H as <- _. constructor.
  - inv_do H. injection H as <- <-. constructor; eauto using rd_data_not_place.
Qed.

(** The tail with the rest of the provisional stack. *)
Definition prov_tail (np : N) (p : bytes) : option bytes :=
  if 1 <? np then
    do (_, p) <- rd_type_length_data p;
    do (_, p) <- rd_list rd_middle (N.to_nat np - 2) p;
    do (_, p) <- rd_txnid p; Some p
  else Some p.

(** What a successful unpack says about the bytes. *)
Inductive unpacked (bs : bytes) (u : ule) (rest : bytes) : Prop :=
| U_clean b1 b2 n v :
    rd 1 bs = Some (LE_CLEAN, b1) -> rd 4 b1 = Some (n, b2) ->
    rd_bytes n b2 = Some (v, rest) ->
    cx u = [mkUxr TXNID_NONE (XIns v)] -> px u = [] ->
    unpacked bs u rest
| U_mvcc b1 nc np p xs ls rs p1 p2 p3 :
    rd 1 bs = Some (LE_MVCC, b1) -> mvcc_header b1 = Some (nc, np, p) -> nc <> 0 ->
    rd_list rd_txnid (N.to_nat (nc + has_p np) - 1) p = Some (xs, p1) ->
    rd_list rd_length_and_bit (N.to_nat (nc + has_p np)) p1 = Some (ls, p2) ->
    rd_datas ls p2 = Some (rs, p3) ->
    prov_tail np p3 = Some rest ->
    (np = 0 -> cx u = mk_committed xs rs /\ px u = []) ->
    (np <> 0 -> exists xout xs' rin rs' o pr, xs = xout :: xs' /\ rs = rin :: rs'
       /\ cx u = mk_committed xs' rs' /\ px u = o :: pr /\ ux_xid o = xout
       /\ ux_xr (last pr o) = rin /\ length (px u) = N.to_nat np) ->
    unpacked bs u rest.

Lemma rd1_bound bs n bs' : bytes_ok bs -> rd 1 bs = Some (n, bs') -> n < 256.
Proof.
  intros Hb H. apply rd_inv in H as (pre & -> & Hl & ->).
  apply bytes_ok_app in Hb as [Hb _]. pose proof (le_val_bound _ Hb) as B.
  unfold len in B. rewrite Hl in B. exact B.
Qed.

Lemma le_unpack_unpacked bs u rest : le_unpack bs = Some (u, rest) -> unpacked bs u rest.
Proof.
  intros H. unfold le_unpack in H.
  destruct (rd 1 bs) as [[t b1]|] eqn:E1; [|discriminate].
  destruct (N.eqb_spec t LE_CLEAN) as [->|Ht0].
  { inv_do H. injection H as <- <-. eapply U_clean; eauto. }
  destruct (N.eqb_spec t LE_MVCC) as [->|Ht1]; [|discriminate].
  destruct (rd 4 b1) as [[nc b2]|] eqn:E2; [|discriminate].
  destruct (N.eqb_spec nc 0) as [|Hnc]; [discriminate|]. cbn [negb] in H.
  destruct (rd 1 b2) as [[np p]|] eqn:E3; [|discriminate].
  assert (Hh : mvcc_header b1 = Some (nc, np, p)).
  { unfold mvcc_header. rewrite E2, E3. reflexivity. }
  cbv zeta in H.
  destruct (N.eqb_spec np 0) as [->|Hnp].
  - inv_do H. injection H as <- <-.
    eapply U_mvcc with (np := 0); eauto; unfold has_p; cbn [N.eqb];
      try (rewrite N.add_0_r; eauto).
    + cbn [cx px]. auto.
    + congruence.
  - destruct (rd_txnid p) as [[xout p0]|] eqn:E4; [|discriminate].
    destruct (rd_list rd_txnid _ p0) as [[xs p1]|] eqn:E5; [|discriminate].
    destruct (rd_length_and_bit p1) as [[lin p2]|] eqn:E6; [|discriminate].
    destruct (rd_list rd_length_and_bit _ p2) as [[ls p3]|] eqn:E7; [|discriminate].
    destruct (rd_data lin p3) as [[rin p4]|] eqn:E8; [|discriminate].
    destruct (rd_datas ls p4) as [[rs p5]|] eqn:E9; [|discriminate].
    assert (Hp : has_p np = 1) by (unfold has_p; destruct (N.eqb_spec np 0); congruence).
    assert (En : (N.to_nat (nc + 1) - 1 = S (N.to_nat nc - 1))%nat) by lia.
    assert (Em : (N.to_nat (nc + 1) = S (N.to_nat nc))%nat) by lia.
    pose proof (rd_list_S rd_txnid _ _ _ _ _ _ E4 E5) as F1.
    pose proof (rd_list_S rd_length_and_bit _ _ _ _ _ _ E6 E7) as F2.
    assert (F3 : rd_datas (lin :: ls) p3 = Some (rin :: rs, p5)).
    { cbn [rd_datas]. rewrite E8, E9. reflexivity. }
    destruct (N.eqb_spec np 1) as [->|Hnp1].
    + injection H as <- <-.
      refine (U_mvcc _ _ _ b1 nc 1 p (xout :: xs) (lin :: ls) (rin :: rs) p1 p3 p5
                E1 Hh Hnc _ _ F3 _ _ _); rewrite ?Hp, ?En, ?Em; auto; [congruence|].
      intros _. exists xout, xs, rin, rs, (mkUxr xout rin), []. repeat split; reflexivity.
    + inv_do H. injection H as <- <-.
      match goal with T1 : rd_type_length_data _ = Some (?ro, _),
        T2 : rd_list rd_middle _ _ = Some (?md, _), T3 : rd_txnid _ = Some (?xi, ?bb) |- _ =>
        rename T1 into T1'; rename T2 into T2';
        refine (U_mvcc _ _ _ b1 nc np p (xout :: xs) (lin :: ls) (rin :: rs) p1 p3 p5
                E1 Hh Hnc _ _ F3 _ _ _); rewrite ?Hp, ?En, ?Em; auto; [|congruence|];
        [unfold prov_tail; replace (1 <? np) with true by lia; rewrite T1', T2', T3; reflexivity|];
        intros _; exists xout, xs, rin, rs, (mkUxr xout ro), (md ++ [mkUxr xi rin])
      end.
      repeat split; try reflexivity.
      * rewrite last_last. reflexivity.
      * cbn [px length]. rewrite app_length. cbn [length].
        apply rd_list_length in T2'. lia.
Qed.

(** The value the decoder gives to the innermost record. *)
Definition inner_xr (u : ule) : option xr := do i <- ule_innermost u; Some (ux_xr i).

Lemma has_p_cases np : (np = 0 /\ has_p np = 0) \/ (np <> 0 /\ has_p np = 1).
Proof. unfold has_p. destruct (N.eqb_spec np 0); auto. Qed.

Lemma mk_committed_hd xs r rs : mk_committed xs (r :: rs)
  = mkUxr (hd TXNID_NONE xs) r :: map (fun p => mkUxr (fst p) (snd p)) (combine (tl (xs ++ [TXNID_NONE])) rs).
Proof. unfold mk_committed. destruct xs; reflexivity. Qed.

(** First record in packed order = innermost record. *)
Lemma unpacked_first np u xs rs r rs0 nc :
  rs = r :: rs0 -> length xs = (N.to_nat (nc + has_p np) - 1)%nat ->
  length rs = N.to_nat (nc + has_p np) -> nc <> 0 ->
  (np = 0 -> cx u = mk_committed xs rs /\ px u = []) ->
  (np <> 0 -> exists xout xs' rin rs' o pr, xs = xout :: xs' /\ rs = rin :: rs'
       /\ cx u = mk_committed xs' rs' /\ px u = o :: pr /\ ux_xid o = xout
       /\ ux_xr (last pr o) = rin /\ length (px u) = N.to_nat np) ->
  inner_xr u = Some r.
Proof.
  intros -> Hx Hr Hnc H0 H1. unfold inner_xr, ule_innermost.
  destruct (has_p_cases np) as [[Hp Ep]|[Hp Ep]].
  - destruct (H0 Hp) as [-> ->]. rewrite mk_committed_hd. reflexivity.
  - destruct (H1 Hp) as (xout & xs' & rin & rs' & o & pr & -> & [= <- <-] & -> & -> & Ho & Hl & _).
    rewrite Ep in Hr. cbn [length] in Hr.
    destruct rs0 as [|r1 rs0]; [cbn [length] in Hr; lia|].
    rewrite mk_committed_hd. f_equal. rewrite <- Hl.
    destruct pr as [|q pr]; [reflexivity|].
    change (last (o :: q :: pr) (mkUxr (hd TXNID_NONE xs') r1))
      with (last (q :: pr) (mkUxr (hd TXNID_NONE xs') r1)).
    f_equal. apply last_default. discriminate.
Qed.

Section Accessors.
Variables (bs : bytes) (u : ule) (rest : bytes).
Hypothesis Hu : le_unpack bs = Some (u, rest).

Ltac start := apply le_unpack_unpacked in Hu as
  [b1 b2 n v E1 E2 E3 Ec Ep
  |b1 nc np p xs ls rs p1 p2 p3 E1 Eh Hnc Ex El Er Et H0 H1].

Lemma skip_front nc np p xs p1 :
  nc <> 0 ->
  rd_list rd_txnid (N.to_nat (nc + has_p np) - 1) p = Some (xs, p1) ->
  exists q, skip (8 * has_p np) p = Some q /\ skip ((nc - 1) * 8) q = Some p1.
Proof.
  intros Hnc Hx. apply rd_txnids_skip in Hx. apply skip_split.
  replace (8 * has_p np + (nc - 1) * 8) with (N.of_nat (N.to_nat (nc + has_p np) - 1) * 8);
    auto.
  destruct (has_p_cases np) as [[_ ->]|[_ ->]]; lia.
Qed.

Lemma first_lab ls n p1 p2 : (0 < n)%nat -> rd_list rd_length_and_bit n p1 = Some (ls, p2) ->
  exists l q, hd_error ls = Some l /\ rd_length_and_bit p1 = Some (l, q)
   /\ skip (N.of_nat (n - 1) * 4) q = Some p2.
Proof.
  intros Hn H. destruct n; [lia|]. cbn [rd_list] in H. inv_do H. injection H as <- <-.
  eexists _, _. repeat split; eauto. apply rd_labs_skip in E0.
  replace (S n - 1)%nat with n by lia. exact E0.
Qed.

Lemma mvcc_first nc np p xs ls rs p1 p2 p3 :
  nc <> 0 ->
  rd_list rd_txnid (N.to_nat (nc + has_p np) - 1) p = Some (xs, p1) ->
  rd_list rd_length_and_bit (N.to_nat (nc + has_p np)) p1 = Some (ls, p2) ->
  rd_datas ls p2 = Some (rs, p3) ->
  (np = 0 -> cx u = mk_committed xs rs /\ px u = []) ->
  (np <> 0 -> exists xout xs' rin rs' o pr, xs = xout :: xs' /\ rs = rin :: rs'
       /\ cx u = mk_committed xs' rs' /\ px u = o :: pr /\ ux_xid o = xout
       /\ ux_xr (last pr o) = rin /\ length (px u) = N.to_nat np) ->
  exists l q r pd, rd_length_and_bit p1 = Some (l, q) /\
    skip ((nc - 1 + has_p np) * 4) q = Some p2 /\
    rd_data l p2 = Some (r, pd) /\ inner_xr u = Some r.
Proof.
  intros Hnc Ex El Er H0 H1.
  destruct (first_lab ls (N.to_nat (nc + has_p np)) p1 p2) as (l & q & Hl & Hq & Hs); auto; [lia|].
  destruct ls as [|l' ls]; [discriminate|]. injection Hl as ->.
  cbn [rd_datas] in Er. inv_do Er. injection Er as <- <-.
  eexists l, q, _, _. repeat split; eauto.
  - replace ((nc - 1 + has_p np) * 4) with (N.of_nat (N.to_nat (nc + has_p np) - 1) * 4); auto. lia.
  - apply rd_list_length in Ex. apply rd_list_length in El. apply rd_datas_length in E0.
    eapply unpacked_first; eauto. cbn [length] in *. congruence.
Qed.

Lemma le_is_clean_ok : le_is_clean bs = Some ((length (cx u) =? 1)%nat && is_nil (px u) &&
    match inner_xr u with Some (XIns _) => true | _ => false end)
  \/ le_is_clean bs = Some false.
Proof.
  start; unfold le_is_clean; rewrite E1; auto. left.
  unfold inner_xr, ule_innermost. rewrite Ec, Ep. reflexivity.
Qed.

Lemma le_latest_is_del_ok : exists r, inner_xr u = Some r /\
  le_latest_is_del bs = Some (is_del r).
Proof.
  start; unfold le_latest_is_del; rewrite E1.
  - exists (XIns v). unfold inner_xr, ule_innermost. rewrite Ec, Ep. auto.
  - cbn [N.eqb LE_MVCC LE_CLEAN]. change (LE_MVCC =? LE_CLEAN) with false.
    change (LE_MVCC =? LE_MVCC) with true. cbv iota.
    rewrite Eh. replace (nc =? 0) with false by lia. cbn [negb].
    destruct (skip_front _ _ _ _ _ Hnc Ex) as (q & -> & ->).
    destruct (mvcc_first _ _ _ _ _ _ _ _ _ Hnc Ex El Er H0 H1) as (l & q' & r & pd & -> & _ & Hd & Hi).
    exists r. split; auto. f_equal. destruct l; cbn [rd_data] in Hd; inv_do Hd;
      injection Hd as <- _; reflexivity.
Qed.

Definition val_of (r : xr) : N * option bytes :=
  match r with XIns v => (len v, Some v) | _ => (0, None) end.

Lemma rd_data_val l p2 r pd : rd_data l p2 = Some (r, pd) ->
  match l with Some n => exists v, rd_bytes n p2 = Some (v, pd) /\ r = XIns v /\ n = len v
             | None => r = XDel end.
Proof.
  destruct l as [n|]; cbn [rd_data]; intros H; inv_do H; injection H as <- <-; auto.
  eexists. pose proof (rd_bytes_inv _ _ _ _ E) as [_ ?]. eauto.
Qed.

Lemma le_latest_val_ok : exists r, inner_xr u = Some r /\
  le_latest_val_and_len bs = Some (val_of r).
Proof.
  start; unfold le_latest_val_and_len; rewrite E1.
  - exists (XIns v). unfold inner_xr, ule_innermost. rewrite Ec, Ep.
    change (LE_CLEAN =? LE_CLEAN) with true. cbv iota. rewrite E2, E3.
    apply rd_bytes_inv in E3 as [_ <-]. auto.
  - change (LE_MVCC =? LE_CLEAN) with false.
    change (LE_MVCC =? LE_MVCC) with true. cbv iota.
    rewrite Eh. replace (nc =? 0) with false by lia. cbn [negb].
    destruct (skip_front _ _ _ _ _ Hnc Ex) as (q & -> & ->).
    destruct (mvcc_first _ _ _ _ _ _ _ _ _ Hnc Ex El Er H0 H1) as (l & q' & r & pd & -> & Hs & Hd & Hi).
    exists r. split; auto. apply rd_data_val in Hd. destruct l as [n|].
    + destruct Hd as (v & Hv & -> & ->). rewrite Hs, Hv. reflexivity.
    + subst r. reflexivity.
Qed.

Lemma le_latest_vallen_ok : exists r, inner_xr u = Some r /\
  le_latest_vallen bs = Some (xr_len r).
Proof.
  start; unfold le_latest_vallen; rewrite E1.
  - exists (XIns v). unfold inner_xr, ule_innermost. rewrite Ec, Ep.
    change (LE_CLEAN =? LE_CLEAN) with true. cbv iota. rewrite E2.
    apply rd_bytes_inv in E3 as [_ <-]. auto.
  - change (LE_MVCC =? LE_CLEAN) with false.
    change (LE_MVCC =? LE_MVCC) with true. cbv iota.
    rewrite Eh. replace (nc =? 0) with false by lia. cbn [negb].
    destruct (skip_front _ _ _ _ _ Hnc Ex) as (q & -> & ->).
    destruct (mvcc_first _ _ _ _ _ _ _ _ _ Hnc Ex El Er H0 H1) as (l & q' & r & pd & -> & Hs & Hd & Hi).
    exists r. split; auto. apply rd_data_val in Hd. destruct l as [n|].
    + destruct Hd as (v & Hv & -> & ->). reflexivity.
    + subst r. reflexivity.
Qed.

Lemma le_outermost_ok : le_outermost_uncommitted_xid bs =
  Some (match px u with [] => TXNID_NONE | o :: _ => ux_xid o end).
Proof.
  start; unfold le_outermost_uncommitted_xid; rewrite E1.
  - rewrite Ep. reflexivity.
  - change (LE_MVCC =? LE_MVCC) with true. cbv iota. rewrite Eh.
    destruct (N.eqb_spec np 0) as [Hp|Hp].
    + destruct (H0 Hp) as [_ ->]. reflexivity.
    + destruct (H1 Hp) as (xout & xs' & rin & rs' & o & pr & -> & _ & _ & -> & <- & _).
      destruct (N.to_nat (nc + has_p np) - 1)%nat as [|k]; cbn [rd_list] in Ex; [discriminate|].
      inv_do Ex. injection Ex as <- _ _. reflexivity.
Qed.

Lemma le_has_xids_ok x xs : x <> TXNID_NONE ->
  le_has_xids bs (x :: xs) =
  Some (match px u with [] => false | o :: _ => ux_xid o =? x end).
Proof.
  intros Hx. unfold le_has_xids. replace (x =? TXNID_NONE) with false by lia.
  cbn [negb]. rewrite le_outermost_ok. destruct (px u); [|reflexivity].
  replace (TXNID_NONE =? x) with false by lia. reflexivity.
Qed.

Lemma leafentry_memsize_ok : leafentry_memsize bs = Some (len bs - len rest)
  /\ len rest <= len bs.
Proof.
  start; unfold leafentry_memsize; rewrite E1.
  - change (LE_CLEAN =? LE_CLEAN) with true. cbv iota. rewrite E2.
    apply skip_rd in E1. apply skip_rd in E2. apply rd_bytes_inv in E3 as [-> Hv].
    apply skip_len in E1. apply skip_len in E2. rewrite len_app in E2.
    change (N.of_nat 1) with 1 in E1. change (N.of_nat 4) with 4 in E2.
    split; [f_equal|]; lia.
  - change (LE_MVCC =? LE_CLEAN) with false.
    change (LE_MVCC =? LE_MVCC) with true. cbv iota.
    rewrite Eh. replace (nc =? 0) with false by lia. cbn [negb].
    unfold leafentry_rest_memsize.
    destruct (skip_front _ _ _ _ _ Hnc Ex) as (q & Hq1 & Hq2). rewrite Hq1, Hq2.
    replace (has_p np + nc) with (nc + has_p np) by lia. rewrite El.
    pose proof (rd_datas_skip _ _ _ _ Er) as Hs. rewrite Hs.
    unfold prov_tail in Et.
    assert (Ht : (if 1 <? np then
             do (_, p) <- rd_type_length_data p3;
             do (_, p) <- rd_list rd_middle (N.to_nat np - 2) p;
             do (_, p) <- rd_txnid p; Some p
           else Some p3) = Some rest) by exact Et.
    rewrite Ht.
    assert (Hlen : len p = len p3 + (8 * has_p np + (nc - 1) * 8 + N.of_nat (N.to_nat (nc + has_p np)) * 4 + lab_sum ls)).
    { apply skip_len in Hq1. apply skip_len in Hq2. apply skip_len in Hs.
      apply rd_labs_skip in El. apply skip_len in El. lia. }
    assert (Hle : len rest <= len p3).
    { clear -Et.
      assert (T : forall bs r b, rd_type_length_data bs = Some (r, b) -> len b <= len bs).
      { intros bs r b H. unfold rd_type_length_data in H.
        destruct (rd 1 bs) as [[t c]|] eqn:E; [|discriminate].
        apply skip_rd, skip_len in E.
        destruct (t =? 1).
        - inv_do H. injection H as _ <-. apply skip_rd, skip_len in E0.
          apply rd_bytes_inv in E1 as [-> _]. rewrite len_app in E0. lia.
        - destruct (t =? 2); [injection H as _ <-; lia|].
          destruct (t =? 3); [injection H as _ <-; lia|discriminate]. }
      assert (M : forall n bs l b, rd_list rd_middle n bs = Some (l, b) -> len b <= len bs).
      { induction n as [|n IH]; intros bs l b H; cbn [rd_list] in H.
        - injection H as _ <-. lia.
        - inv_do H. injection H as _ <-. apply IH in E0. unfold rd_middle in E. inv_do E.
          injection E as _ ->. apply T in E2. apply skip_rd, skip_len in E1. lia. }
      destruct (1 <? np); [|injection Et as ->; lia].
      inv_do Et. injection Et as ->. apply T in E. apply M in E0.
      apply skip_rd, skip_len in E1. lia. }
    unfold mvcc_header in Eh. inv_do Eh. injection Eh as -> -> ->.
    apply skip_rd, skip_len in E1. apply skip_rd, skip_len in E. apply skip_rd, skip_len in E0.
    split; [f_equal|]; lia.
Qed.

(** ** Iteration *)

Lemma accepted_index_ok f prov n p xs p1 i :
  rd_list rd_txnid n p = Some (xs, p1) -> accepted_index f n prov p = Some i ->
  (N.to_nat i <= n)%nat.
Proof.
  revert prov p xs i. induction n as [|n IH]; intros prov p xs i Hx H; cbn [accepted_index] in H.
  - injection H as <-. lia.
  - cbn [rd_list] in Hx. inv_do Hx. injection Hx as <- <-.
    destruct (f t prov); [injection H as <-; lia|]. inv_do H. injection H as <-.
    apply (IH _ _ _ _ E0) in E1. lia.
Qed.

Fixpoint acc_index (f : txnid -> bool -> bool) (prov : bool) (xs : list txnid) : nat :=
  match xs with
  | [] => O
  | x :: xs' => if f x prov then O else S (acc_index f false xs')
  end.

Lemma accepted_index_eq f prov n p xs p1 :
  rd_list rd_txnid n p = Some (xs, p1) ->
  accepted_index f n prov p = Some (N.of_nat (acc_index f prov xs)).
Proof.
  revert prov p xs. induction n as [|n IH]; intros prov p xs Hx; cbn [rd_list] in Hx.
  - injection Hx as <- _. reflexivity.
  - inv_do Hx. injection Hx as <- <-. cbn [accepted_index acc_index]. rewrite E.
    destruct (f t prov); [reflexivity|]. rewrite (IH _ _ _ E0). f_equal. lia.
Qed.

Lemma acc_index_le f prov xs : (acc_index f prov xs <= length xs)%nat.
Proof.
  revert prov. induction xs as [|x xs IH]; intros prov; cbn [acc_index length]; [lia|].
  destruct (f x prov); [lia|]. specialize (IH false). lia.
Qed.

Lemma accepted_committed_index f xs rs :
  length rs = S (length xs) ->
  accepted_committed (fun x => f x false) (mk_committed xs rs) = nth_error rs (acc_index f false xs).
Proof.
  revert rs. induction xs as [|x xs IH]; intros rs Hl.
  - destruct rs as [|r [|? ?]]; cbn [length] in Hl; try lia. reflexivity.
  - destruct rs as [|r [|r2 rs]]; cbn [length] in Hl; try lia.
    specialize (IH (r2 :: rs)). cbn [length] in IH. specialize (IH ltac:(lia)).
    change (mk_committed (x :: xs) (r :: r2 :: rs)) with (mkUxr x r :: mk_committed xs (r2 :: rs)).
    assert (Hne : mk_committed xs (r2 :: rs) <> []) by (rewrite mk_committed_hd; discriminate).
    cbn [accepted_committed acc_index].
    destruct (mk_committed xs (r2 :: rs)) as [|c0 cs0] eqn:Em; [congruence|].
    rewrite <- Em in *. cbn [ux_xid ux_xr]. destruct (f x false); [reflexivity|].
    exact IH.
Qed.

Lemma le_iterate_index f nc np xs rs :
  nc <> 0 -> length xs = (N.to_nat (nc + has_p np) - 1)%nat ->
  length rs = N.to_nat (nc + has_p np) ->
  (np = 0 -> cx u = mk_committed xs rs /\ px u = []) ->
  (np <> 0 -> exists xout xs' rin rs' o pr, xs = xout :: xs' /\ rs = rin :: rs'
       /\ cx u = mk_committed xs' rs' /\ px u = o :: pr /\ ux_xid o = xout
       /\ ux_xr (last pr o) = rin /\ length (px u) = N.to_nat np) ->
  le_iterate (fun x => f x true) (fun x => f x false) u
  = nth_error rs (acc_index f (negb (np =? 0)) xs).
Proof.
  intros Hnc Hx Hr H0 H1.
  assert (Hin : forall r rs0, rs = r :: rs0 -> inner_xr u = Some r).
  { intros r rs0 E. eapply unpacked_first; eauto. }
  unfold le_iterate. destruct (has_p_cases np) as [[Hp Ep]|[Hp Ep]].
  - destruct (H0 Hp) as [Hc ->]. rewrite Hc. rewrite Hp. cbn [N.eqb negb].
    apply accepted_committed_index. rewrite Ep in *. lia.
  - destruct (H1 Hp) as (xout & xs' & rin & rs' & o & pr & -> & -> & Hc & Hpx & Ho & Hl & _).
    specialize (Hin _ _ eq_refl). unfold inner_xr in Hin.
    rewrite Hpx. replace (np =? 0) with false by lia. cbn [negb acc_index]. rewrite Ho.
    destruct (f xout true); [exact Hin|]. cbn [nth_error]. rewrite Hc.
    apply accepted_committed_index. cbn [length] in *. rewrite Ep in *. lia.
Qed.

Lemma le_iterate_val_ok f : exists r,
  le_iterate (fun x => f x true) (fun x => f x false) u = Some r /\
  le_iterate_val f bs = Some (val_of r).
Proof.
  start; unfold le_iterate_val; rewrite E1.
  - exists (XIns v). unfold le_iterate. rewrite Ep, Ec. split; [reflexivity|].
    change (LE_CLEAN =? LE_CLEAN) with true. cbv iota. rewrite E2, E3.
    apply rd_bytes_inv in E3 as [_ <-]. auto.
  - change (LE_MVCC =? LE_CLEAN) with false.
    change (LE_MVCC =? LE_MVCC) with true. cbv iota. rewrite Eh.
    pose proof (rd_list_length _ _ _ _ _ Ex) as Lx.
    pose proof (rd_list_length _ _ _ _ _ El) as Ll.
    pose proof (rd_datas_length _ _ _ _ Er) as Lr.
    pose proof (le_iterate_index f nc np xs rs Hnc Lx ltac:(congruence) H0 H1) as Hit.
    set (i := acc_index f (negb (np =? 0)) xs) in *.
    assert (Hi : (i < length rs)%nat).
    { pose proof (acc_index_le f (negb (np =? 0)) xs) as B. fold i in B. lia. }
    destruct (nth_error rs i) as [r|] eqn:Hr; [|apply nth_error_None in Hr; lia].
    exists r. split; [exact Hit|].
    replace (N.to_nat (nc + has_p np - 1)) with (N.to_nat (nc + has_p np) - 1)%nat by lia.
    rewrite (accepted_index_eq f (negb (np =? 0)) _ _ _ _ Ex). fold i.
    replace (N.of_nat i <? nc + has_p np) with true by lia.
    apply rd_txnids_skip in Ex.
    replace ((nc + has_p np - 1) * 8) with (N.of_nat (N.to_nat (nc + has_p np) - 1) * 8) by lia.
    rewrite Ex.
    destruct (rd_datas_nth _ _ _ _ _ _ Er Hr) as (l & q1 & q2 & Hl & Hq1 & Hq2).
    destruct (rd_labs_nth _ _ _ _ _ _ El Hl) as (p4 & p5 & Hp4 & Hp4' & Hp5).
    rewrite Nat2N.id. rewrite Hp4, Hp5.
    apply rd_data_val in Hq2. destruct l as [n|].
    + destruct Hq2 as (v & Hv & -> & ->).
      apply rd_labs_skip in El.
      replace ((nc + has_p np) * 4) with (N.of_nat (N.to_nat (nc + has_p np)) * 4) by lia.
      rewrite El, Hq1, Hv. reflexivity.
    + subst r. reflexivity.
Qed.

Lemma le_iterate_is_del_ok f : exists r,
  le_iterate (fun x => f x true) (fun x => f x false) u = Some r /\
  le_iterate_is_del f bs = Some (is_del r).
Proof.
  start; unfold le_iterate_is_del; rewrite E1.
  - exists (XIns v). unfold le_iterate. rewrite Ep, Ec. split; reflexivity.
  - change (LE_MVCC =? LE_CLEAN) with false.
    change (LE_MVCC =? LE_MVCC) with true. cbv iota. rewrite Eh.
    pose proof (rd_list_length _ _ _ _ _ Ex) as Lx.
    pose proof (rd_list_length _ _ _ _ _ El) as Ll.
    pose proof (rd_datas_length _ _ _ _ Er) as Lr.
    pose proof (le_iterate_index f nc np xs rs Hnc Lx ltac:(congruence) H0 H1) as Hit.
    set (i := acc_index f (negb (np =? 0)) xs) in *.
    assert (Hi : (i < length rs)%nat).
    { pose proof (acc_index_le f (negb (np =? 0)) xs) as B. fold i in B. lia. }
    destruct (nth_error rs i) as [r|] eqn:Hr; [|apply nth_error_None in Hr; lia].
    exists r. split; [exact Hit|].
    replace (N.to_nat (nc + has_p np - 1)) with (N.to_nat (nc + has_p np) - 1)%nat by lia.
    rewrite (accepted_index_eq f (negb (np =? 0)) _ _ _ _ Ex). fold i.
    replace (N.of_nat i <? nc + has_p np) with true by lia.
    apply rd_txnids_skip in Ex.
    replace ((nc + has_p np - 1) * 8) with (N.of_nat (N.to_nat (nc + has_p np) - 1) * 8) by lia.
    rewrite Ex.
    destruct (rd_datas_nth _ _ _ _ _ _ Er Hr) as (l & q1 & q2 & Hl & Hq1 & Hq2).
    destruct (rd_labs_nth _ _ _ _ _ _ El Hl) as (p4 & p5 & Hp4 & Hp4' & Hp5).
    rewrite Hp4', Hp5. apply rd_data_val in Hq2. destruct l as [n|].
    + destruct Hq2 as (v & Hv & -> & ->). reflexivity.
    + subst r. reflexivity.
Qed.

End Accessors.
