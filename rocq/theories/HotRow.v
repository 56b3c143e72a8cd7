(** The messages for one hot key and what they leave. *)
From Verif Require Import Base Bytes KOrd LtSpec UleModel UleSpec MulSpec HotModel HotSpec HotProofs.
From Coq Require Import Lia.
Open Scope N_scope.

Definition iter (f : txnid -> bool) (u : ule) : option bytes := xvo (le_iterate f f u).

Lemma apply_all_app a b o o1 : apply_all a o = Some o1 -> apply_all (a ++ b) o = apply_all b o1.
Proof.
  revert o; induction a as [|m a IH]; intros o; cbn [apply_all app]; [intros [= ->]; reflexivity|].
  destruct (le_apply_msg m o gi_keep) as [[o' d]|]; [|discriminate]. apply IH.
Qed.

(** ** Reading a row under construction *)
Lemma lastv_last b l x r : is_place r = false -> lastv b (l ++ [mkUxr x r]) = r.
Proof. intros H. rewrite lastv_app. cbn [lastv ux_xr]. now rewrite H. Qed.
Lemma innermost_lv ys u : hs ys u -> exists r, ule_innermost u = Some r /\ xv (ux_xr r) = lv u (length ys).
Proof.
  intros H. destruct (hs_bot _ _ H) as (l0 & c0 & Ec). unfold ule_innermost, lv, newest.
  destruct (cx u) as [|c l] eqn:E; [destruct l0; discriminate Ec|]. eexists; split; [reflexivity|].
  rewrite firstn_all2 by exact (hs_len _ _ H).
  destruct (hs_last _ _ H) as [-> | (p & x & r & -> & Hr)]; [reflexivity|].
  rewrite last_last, lastv_last by exact Hr. reflexivity.
Qed.
Lemma iter_hs y ys u f : hs (y :: ys) u -> (f y = true -> cv f u = xv (newest u)) ->
  iter f u = if f y then lv u (length (y :: ys)) else cv f u.
Proof.
  intros H Hf. unfold iter, le_iterate. pose proof (hs_ids _ _ H) as Hi. destruct (innermost_lv _ _ H) as (r & Er & Hr).
  destruct (px u) as [|q p] eqn:Ep.
  - fold (cv f u). destruct (f y); [|reflexivity]. rewrite (Hf eq_refl). unfold lv. rewrite Ep, firstn_nil. reflexivity.
  - cbn [map length firstn] in Hi. injection Hi as Eq _. rewrite Eq. destruct (f y); [|reflexivity].
    rewrite Er. cbn [xvo]. exact Hr.
Qed.

(** ** Commit messages *)
Definition cmsg (x : txnid) : umsg := mkUmsg FT_COMMIT_ANY [x].
Definition committed_u (x : txnid) (u : ule) (cap : nat) : ule :=
  match px u with [] => mkUle (cx u) [] cap | _ => mkUle (mkUxr x (lastv XDel (px u)) :: cx u) [] cap end.

Lemma hs1_px x u : hs [x] u -> px u = [] \/ exists r, px u = [mkUxr x r] /\ is_place r = false.
Proof.
  intros H. pose proof (hs_len _ _ H) as HL. pose proof (hs_ids _ _ H) as Hi. destruct (hs_last _ _ H) as [-> | (l & y & r & E & Hr)]; [now left|right].
  rewrite E in *. destruct l as [|a l]; [|rewrite app_length in HL; cbn in HL; lia].
  cbn in Hi. injection Hi as ->. exists r. split; [reflexivity|exact Hr].
Qed.
Lemma apply_commit (x : txnid) o : x <> 0 -> hs [x] (ur o) ->
  exists d, le_apply_msg (cmsg x) o gi_keep = Some (keep (committed_u x (ur o) (ucap (load o))), d).
Proof.
  intros Hx H. unfold le_apply_msg. fold (load o).
  assert (C : chain_ok [x]).
  { constructor; [discriminate|repeat constructor; intros []| |unfold MAX_TRANSACTION_RECORDS; cbn; lia]. intros [E|[]]. congruence. }
  assert (H' : hs [x] (load o)). { destruct H. constructor; rewrite ?load_cx, ?load_px; auto. }
  assert (E : msg_modify_ule (load o) (cmsg x) = Some (committed_u x (ur o) (ucap (load o)), 0%Z)).
  { unfold msg_modify_ule, cmsg. cbn [um_xids um_type is_optimize].
    replace (length [x] <? MAX_TRANSACTION_RECORDS)%nat with true by reflexivity.
    rewrite (implicit_none _ _ C H'). unfold ule_apply_commit, xids_innermost. cbn [last].
    apply N.eqb_neq in Hx. change TXNID_NONE with 0. rewrite Hx. cbn [negb]. rewrite load_px.
    unfold committed_u. destruct (hs1_px _ _ H) as [Ep | (r & Ep & Hr)]; rewrite Ep; cbn [is_nil].
    - rewrite <- load_cx. rewrite <- load_px in Ep. destruct (load o) as [a b e]; cbn [cx px ucap] in *. now rewrite Ep.
    - unfold ule_innermost_xid, ule_innermost. rewrite load_cx, load_px, Ep.
      destruct (hs_bot _ _ H) as (l0 & c0 & Ec). destruct (cx (ur o)) as [|c l] eqn:Ecx; [destruct l0; discriminate Ec|].
      cbn [last ux_xid length Nat.eqb]. rewrite N.eqb_refl. unfold ule_promote_to_committed. rewrite load_px, Ep.
      unfold ule_innermost. rewrite load_cx, load_px, Ecx, Ep. cbn [last ux_xr ux_xid]. rewrite Hr. cbn [negb].
      unfold ule_push. assert (first_empty_ok (mkUle (c :: l) [] (ucap (load o))) = true) as ->.
      { pose proof (roomy_load o) as R. unfold roomy in R. rewrite load_cx, Ecx in R. unfold first_empty_ok. cbn [px cx ucap length].
        apply andb_true_intro; split; apply Nat.ltb_lt; unfold MAX_TRANSACTION_RECORDS in *; cbn [length] in R; lia. }
      cbn [px is_nil cx ucap lastv ux_xr]. rewrite Hr. reflexivity. }
  rewrite E.
  assert (B : exists l c, cx (committed_u x (ur o) (ucap (load o))) = l ++ [mkUxr TXNID_NONE c]).
  { destruct (hs_bot _ _ H) as (l0 & c0 & Ec). unfold committed_u. destruct (px (ur o)); cbn [cx]; rewrite Ec; [eauto|]. exists (mkUxr x (lastv XDel (u :: l)) :: l0), c0. reflexivity. }
  rewrite post_keep by exact B. rewrite pack_keep; [eexists; reflexivity|exact B|].
  unfold committed_u. destruct (px (ur o)); cbn; unfold MAX_TRANSACTION_RECORDS; lia.
Qed.
Lemma keep_hs0 ys u : (exists l c, cx u = l ++ [mkUxr TXNID_NONE c]) -> px u = [] -> hs ys (ur (keep u)) /\ px (ur (keep u)) = [].
Proof.
  intros B P. split; [apply hs_keep; constructor; rewrite ?P; cbn; auto; lia|].
  unfold keep. destruct (has_insert u); [exact P|reflexivity].
Qed.
Lemma commit_step (x : txnid) o : x <> 0 -> hs [x] (ur o) ->
  exists o' d, le_apply_msg (cmsg x) o gi_keep = Some (o', d) /\ hs [] (ur o') /\ px (ur o') = [] /\ (forall f, cv f (ur o') = iter f (ur o)).
Proof.
  intros Hx H. destruct (apply_commit x o Hx H) as (d & E). rewrite E. eexists _, d; split; [reflexivity|].
  assert (B : exists l c, cx (committed_u x (ur o) (ucap (load o))) = l ++ [mkUxr TXNID_NONE c]).
  { destruct (hs_bot _ _ H) as (l0 & c0 & Ec). unfold committed_u. destruct (px (ur o)); cbn [cx]; rewrite Ec; [eauto|]. exists (mkUxr x (lastv XDel (u :: l)) :: l0), c0. reflexivity. }
  assert (P : px (committed_u x (ur o) (ucap (load o))) = []) by (unfold committed_u; now destruct (px (ur o))).
  destruct (keep_hs0 [] _ B P) as [K1 K2]. split; [exact K1|]. split; [exact K2|].
  intros f. rewrite keep_cv. unfold committed_u, iter, le_iterate.
  destruct (hs1_px _ _ H) as [Ep | (r & Ep & Hr)]; rewrite Ep; [reflexivity|].
  destruct (hs_bot _ _ H) as (l0 & c0 & Ec). unfold cv. cbn [cx lastv ux_xr]. rewrite Hr. unfold ule_innermost. rewrite Ep.
  destruct (cx (ur o)) as [|c l] eqn:Ecx; [destruct l0; discriminate Ec|].
  cbn [accepted_committed ux_xid ux_xr]. destruct (f x); reflexivity.
Qed.
Lemma iter_nil f u : px u = [] -> iter f u = cv f u.
Proof. unfold iter, le_iterate, cv. now intros ->. Qed.
Lemma hs_nil_any ys u : hs [] u -> px u = [] -> hs ys u.
Proof. intros H P. destruct H. constructor; rewrite ?P in *; cbn; auto; lia. Qed.
Lemma commits n (x : txnid) o : x <> 0 -> hs [x] (ur o) ->
  exists o', apply_all (repeat (cmsg x) n) o = Some o' /\ hs [x] (ur o') /\ (n <> O -> px (ur o') = []) /\ (forall f, iter f (ur o') = iter f (ur o)).
Proof.
  intros Hx. revert o; induction n as [|n IH]; intros o H; cbn [repeat apply_all].
  - exists o. split; [reflexivity|]. split; [exact H|]. split; [congruence|reflexivity].
  - destruct (commit_step x o Hx H) as (o1 & d & E & H1 & P1 & V1). rewrite E.
    destruct (IH o1 (hs_nil_any _ _ H1 P1)) as (o2 & E2 & H2 & P2 & V2).
    exists o2. split; [exact E2|]. split; [exact H2|].
    assert (V : forall f, iter f (ur o2) = iter f (ur o)) by (intros f; rewrite V2, <- V1; apply iter_nil, P1).
    split; [|exact V]. intros _. destruct n as [|n]; [cbn in E2; injection E2 as <-; exact P1|apply P2; discriminate].
Qed.

(** ** The messages for one key *)
Section Proj.
Context (c : bytes -> bytes -> comparison) (ok : cmp_ok c) (g : hotdb) (hk : bytes).
Definition proj (ms : list hmsg) : list umsg := map snd (filter (fun m => keqb c hk (fst m)) ms).
Notation hv := (hot_of c g hk).

Lemma proj_app a b : proj (a ++ b) = proj a ++ proj b.
Proof. unfold proj. now rewrite filter_app, map_app. Qed.

Lemma filter_distinct (rows : list (bytes * bytes)) : distinct c (map fst rows) ->
  filter (fun kv => keqb c hk (fst kv)) rows = match find (fun kv => keqb c hk (fst kv)) rows with Some kv => [kv] | None => [] end.
Proof.
  induction rows as [|[k v] rows IH]; intros D; [reflexivity|]. cbn [map fst] in D. inversion D as [|? ? D1 D2]; subst.
  cbn [filter find fst]. destruct (keqb c hk k) eqn:E; [|now apply IH].
  f_equal. clear IH D D2. induction rows as [|[k' v'] rows IH]; [reflexivity|]. cbn [map fst] in D1. inversion D1 as [|? ? N1 N2]; subst.
  cbn [filter fst]. destruct (keqb c hk k') eqn:E'; [|now apply IH]. exfalso. apply N1.
  apply (keqb_true) in E, E'. apply (keq_kle ok) in E, E'. apply (keq_kle ok). destruct E as [A B], E' as [A' B']. split; eapply (kle_trans ok); eassumption.
Qed.
Lemma proj_dels xs rows : distinct c (map fst rows) ->
  proj (map (m_del xs) (map fst rows)) = match row_among c rows hk with Some _ => [wmsg XDel xs] | None => [] end.
Proof.
  intros D. unfold proj, row_among. rewrite map_map.
  assert (F : forall l : list (bytes * bytes), filter (fun m : hmsg => keqb c hk (fst m)) (map (fun x => m_del xs (fst x)) l) = map (fun x => m_del xs (fst x)) (filter (fun kv => keqb c hk (fst kv)) l)).
  { induction l as [|[k v] l IH]; [reflexivity|]. cbn. destruct (keqb c hk k); cbn; now rewrite IH. }
  rewrite F, (filter_distinct rows D). destruct (find _ rows) as [[k v]|]; reflexivity.
Qed.
Lemma proj_ins xs rows : distinct c (map fst rows) ->
  proj (map (m_ins xs) rows) = match row_among c rows hk with Some v => [wmsg (XIns v) xs] | None => [] end.
Proof.
  intros D. unfold proj, row_among.
  assert (F : forall l : list (bytes * bytes), filter (fun m : hmsg => keqb c hk (fst m)) (map (m_ins xs) l) = map (m_ins xs) (filter (fun kv => keqb c hk (fst kv)) l)).
  { induction l as [|[k v] l IH]; [reflexivity|]. cbn. destruct (keqb c hk k); cbn; now rewrite IH. }
  rewrite F, (filter_distinct rows D). destruct (find _ rows) as [[k v]|]; reflexivity.
Qed.
Lemma proj_commits x ks : exists n, proj (concat (map (m_commit [x]) ks)) = repeat (cmsg x) n /\ (forall k, In k ks -> keqb c hk k = true -> n <> O).
Proof.
  induction ks as [|k ks (n & E & Hn)]; [exists O; split; [reflexivity|intros k []]|].
  cbn [map concat m_commit]. rewrite proj_app, E. unfold proj. cbn [filter fst]. destruct (keqb c hk k) eqn:Ek.
  - exists (S n). split; [reflexivity|discriminate].
  - exists n. split; [reflexivity|]. intros k' [<-|Hk'] Hq; [congruence|eauto].
Qed.

Lemma in_rows rows v : row_among c rows hk = Some v -> exists k, In k (map fst rows) /\ keqb c hk k = true.
Proof.
  unfold row_among. destruct (find _ rows) as [[k w]|] eqn:E; [|discriminate]. intros _. apply find_some in E as [I Q]. exists k. split; [|exact Q].
  change k with (fst (k, w)). now apply in_map.
Qed.

(** Both callbacks on a record. *)
Definition cb (r : xr) : Prop := match r with XIns v => callbacks_ok c g v | _ => True end.
Lemma undo_spec r : is_place r = false -> cb r ->
  exists dk, undo_keys g (Some r) = HOk dk /\ (forall xs, proj (map (m_del xs) dk) = match hv (xv r) with Some _ => [wmsg XDel xs] | None => [] end) /\
    (hv (xv r) <> None -> exists k, In k dk /\ keqb c hk k = true).
Proof.
  destruct r as [v| |]; cbn [is_place cb undo_keys xv hot_of]; [|intros _ _; exists []; split; [reflexivity|split; [reflexivity|congruence]]|discriminate].
  intros _ (rows & E1 & E2 & D & _). rewrite E2. exists (map fst rows). split; [reflexivity|]. rewrite E1. split; [intros xs; now apply proj_dels|].
  destruct (row_among c rows hk) eqn:E; [|congruence]. intros _. exact (in_rows _ _ E).
Qed.
Lemma row_len rows v : Forall (fun kv => len (snd kv) < 2 ^ 31) rows -> row_among c rows hk = Some v -> xr_ok (XIns v).
Proof.
  unfold row_among. destruct (find _ rows) as [[k w]|] eqn:E; [|discriminate]. intros F [= <-]. apply find_some in E as [I _].
  rewrite Forall_forall in F. exact (F _ I).
Qed.
Lemma do_spec r : is_place r = false -> cb r ->
  exists rows, do_rows g r = HOk rows /\ (forall xs, proj (map (m_ins xs) rows) = match hv (xv r) with Some v => [wmsg (XIns v) xs] | None => [] end) /\
    (hv (xv r) <> None -> exists k, In k (map fst rows) /\ keqb c hk k = true) /\ (forall v, hv (xv r) = Some v -> xr_ok (XIns v)).
Proof.
  destruct r as [v| |]; cbn [is_place cb do_rows xv hot_of]; [|intros _ _; exists []; split; [reflexivity|split; [reflexivity|split; [congruence|discriminate]]]|discriminate].
  intros _ (rows & E1 & E2 & D & L). rewrite E1. exists rows. split; [reflexivity|]. split; [intros xs; now apply proj_ins|].
  split.
  - destruct (row_among c rows hk) eqn:E; [|congruence]. intros _. exact (in_rows _ _ E).
  - intros w. exact (row_len rows w L).
Qed.

(** A write at the end of the chain, and then the row as a whole. *)
Lemma write1 ys o w : chain_ok ys -> hs ys (ur o) -> is_place w = false -> xr_ok w ->
  exists o', apply_all [wmsg w ys] o = Some o' /\ hs ys (ur o') /\ lv (ur o') (length ys) = xv w /\
    (forall k, (k < length ys)%nat -> lv (ur o') k = lv (ur o) k) /\ (forall f, cv f (ur o') = cv f (ur o)).
Proof.
  intros C H Hw Hok. destruct (apply_write ys o w C H Hw Hok) as (d & E). cbn [apply_all]. rewrite E.
  eexists; split; [reflexivity|]. destruct (lv_wpx ys (ur o) w (ucap (load o)) C H Hw) as [L1 L2].
  split; [apply hs_keep, hs_wpx; assumption|]. rewrite keep_lv. split; [exact L2|]. split.
  - intros k Hk. rewrite keep_lv. now apply L1.
  - intros f. rewrite keep_cv. reflexivity.
Qed.
(** The messages for one record: undo the previous one, do this one. *)
Lemma sends ys o prev w : chain_ok ys -> hs ys (ur o) -> lv (ur o) (length ys) = hv (xv prev) -> (forall v, hv (xv w) = Some v -> xr_ok (XIns v)) ->
  exists o', apply_all (match hv (xv prev) with Some _ => [wmsg XDel ys] | None => [] end ++ match hv (xv w) with Some v => [wmsg (XIns v) ys] | None => [] end) o = Some o' /\
    hs ys (ur o') /\ lv (ur o') (length ys) = hv (xv w) /\
    (forall k, (k < length ys)%nat -> lv (ur o') k = lv (ur o) k) /\ (forall f, cv f (ur o') = cv f (ur o)) /\
    (hv (xv prev) = None -> hv (xv w) = None -> o' = o).
Proof.
  intros C H L Hok.
  destruct (hv (xv prev)) as [pv|] eqn:Ep.
  - destruct (write1 ys o XDel C H eq_refl I) as (o1 & E1 & H1 & L1 & K1 & V1).
    destruct (hv (xv w)) as [v|] eqn:Ew.
    + destruct (write1 ys o1 (XIns v) C H1 eq_refl (Hok v eq_refl)) as (o2 & E2 & H2 & L2 & K2 & V2).
      exists o2. rewrite (apply_all_app _ _ _ _ E1). split; [exact E2|]. split; [exact H2|]. split; [exact L2|]. split; [intros k Hk; rewrite K2, K1; auto|].
      split; [intros f; now rewrite V2|discriminate].
    + exists o1. rewrite app_nil_r. split; [exact E1|]. split; [exact H1|]. split; [exact L1|]. split; [exact K1|]. split; [exact V1|discriminate].
  - destruct (hv (xv w)) as [v|] eqn:Ew.
    + destruct (write1 ys o (XIns v) C H eq_refl (Hok v eq_refl)) as (o2 & E2 & H2 & L2 & K2 & V2).
      exists o2. split; [exact E2|]. split; [exact H2|]. split; [exact L2|]. split; [exact K2|]. split; [exact V2|discriminate].
    + exists o. split; [reflexivity|]. split; [exact H|]. split; [exact L|]. split; [reflexivity|]. split; [reflexivity|reflexivity].
Qed.
End Proj.
