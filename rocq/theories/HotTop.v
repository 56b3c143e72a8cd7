(** The two loops of the hot indexer. *)
From Verif Require Import Base Bytes KOrd LtSpec UleModel UleSpec MulSpec HotModel HotSpec HotProofs HotRow.
From Coq Require Import Lia.
Open Scope N_scope.

Lemma in_order_cons f x l : in_order f (x :: l) -> (f x = true -> Forall (fun y => f y = true) l) /\ in_order f l.
Proof.
  unfold in_order. intros H. inversion H as [|? ? H1 H2]; subst. split; [|exact H2]. intros Hf. eapply Forall_impl; [|exact H1]. cbn. auto.
Qed.
Lemma accepted_all f r cs : Forall (fun y => f y = true) (map ux_xid (r :: cs)) -> accepted_committed f (r :: cs) = Some (ux_xr r).
Proof. intros H. inversion H as [|? ? H1 H2]; subst. cbn [accepted_committed]. rewrite H1. now destruct cs. Qed.
Lemma cv_all u : cx u <> [] -> cv (fun _ => true) u = xv (newest u).
Proof. unfold cv, newest. destruct (cx u) as [|c l]; [congruence|]. intros _. rewrite accepted_all; [reflexivity|]. apply Forall_forall; auto. Qed.
Lemma in_order_true l : in_order (fun _ => true) l.
Proof. unfold in_order. induction l; constructor; auto. apply Forall_forall; auto. Qed.

Section Top.
Context (c : bytes -> bytes -> comparison) (ok : cmp_ok c) (g : hotdb) (hk : bytes).
Notation hv := (hot_of c g hk).
Notation proj := (proj c hk).
Notation cb := (cb c g).

(** The hot row shows every reader what the committed records [cs] do. *)
Record rc (o : option ule) (cs : list uxr) : Prop := {
  rc_px : px (ur o) = [];
  rc_hs : hs [] (ur o);
  rc_cv : forall f, in_order f (map ux_xid cs) -> cv f (ur o) = hv (xvo (accepted_committed f cs))
}.
Lemma hs_cx ys u : hs ys u -> cx u <> [].
Proof. intros H. destruct (hs_bot _ _ H) as (l & x & ->). destruct l; discriminate. Qed.
Lemma rc_newest o r cs : rc o (r :: cs) -> xv (newest (ur o)) = hv (xv (ux_xr r)).
Proof.
  intros R. rewrite <- cv_all by exact (hs_cx _ _ (rc_hs _ _ R)). rewrite (rc_cv _ _ R _ (in_order_true _)).
  rewrite accepted_all; [reflexivity|]. apply Forall_forall; auto.
Qed.
Lemma rc_lv o r cs k : rc o (r :: cs) -> lv (ur o) k = hv (xv (ux_xr r)).
Proof. intros R. unfold lv. rewrite (rc_px _ _ R), firstn_nil. exact (rc_newest _ _ _ R). Qed.
(** A reader that sees a newer transaction sees the newest committed value. *)
Lemma rc_sees o r cs f : rc o (r :: cs) -> Forall (fun y => f y = true) (map ux_xid (r :: cs)) -> in_order f (map ux_xid (r :: cs)) -> cv f (ur o) = xv (newest (ur o)).
Proof. intros R F O. rewrite (rc_newest _ _ _ R), (rc_cv _ _ R _ O), (accepted_all _ _ _ F). reflexivity. Qed.

Lemma chain1 (x : txnid) : x <> 0 -> chain_ok [x].
Proof. intros Hx. constructor; [discriminate|repeat constructor; intros []| |unfold MAX_TRANSACTION_RECORDS; cbn; lia]. intros [E|[]]. congruence. Qed.
Lemma set_xid_nz (x : txnid) : x <> 0 -> set_xid x = [x].
Proof. intros H. apply N.eqb_neq in H. unfold set_xid, TXNID_NONE. now rewrite H. Qed.

Lemma committed_step o p cs r : rc o (p :: cs) -> ux_xid r <> 0 -> is_place (ux_xr p) = false -> is_place (ux_xr r) = false -> cb (ux_xr p) -> cb (ux_xr r) ->
  exists ms o', committed1 g (Some (ux_xr p)) r = HOk ms /\ apply_all (proj ms) o = Some o' /\ rc o' (r :: p :: cs).
Proof.
  intros R Hx Pp Pr Cp Cr. unfold committed1. rewrite Pr.
  destruct (undo_spec c ok g hk _ Pp Cp) as (dk & Ed & Jd & Kd). destruct (do_spec c ok g hk _ Pr Cr) as (rows & Er & Jr & Kr & Lr).
  rewrite Ed, Er. cbn [hbind]. rewrite (set_xid_nz _ Hx). set (x := ux_xid r) in *.
  eexists. 
  assert (H1 : hs [x] (ur o)) by exact (hs_nil_any _ _ (rc_hs _ _ R) (rc_px _ _ R)).
  destruct (sends c g hk [x] o (ux_xr p) (ux_xr r) (chain1 x Hx) H1 (rc_lv _ _ _ _ R) Lr) as (o1 & E1 & G1 & L1 & _ & V1 & S1).
  destruct (proj_commits c hk x (dk ++ map fst rows)) as (n & En & Hn).
  destruct (commits n x o1 Hx G1) as (o2 & E2 & G2 & P2 & V2).
  exists o2. split; [reflexivity|]. rewrite !proj_app, Jd, Jr, En, app_assoc. split; [rewrite (apply_all_app _ _ _ _ E1); exact E2|].
  assert (P : px (ur o2) = []).
  { destruct n as [|n]; [|apply P2; discriminate]. cbn in E2. injection E2 as <-. rewrite S1; [exact (rc_px _ _ R)| |].
    - destruct (hv (xv (ux_xr p))) eqn:E; [|reflexivity]. exfalso. destruct Kd as (k & I1 & I2); [discriminate|]. apply (Hn k); [apply in_or_app; now left|exact I2|reflexivity].
    - destruct (hv (xv (ux_xr r))) eqn:E; [|reflexivity]. exfalso. destruct Kr as (k & I1 & I2); [discriminate|]. apply (Hn k); [apply in_or_app; now right|exact I2|reflexivity]. }
  constructor.
  - exact P.
  - destruct G2. constructor; rewrite ?P in *; auto.
  - intros f O. destruct (in_order_cons _ _ _ O) as [O1 O2]. fold x in O1.
    rewrite <- iter_nil by exact P. rewrite V2. rewrite (iter_hs x [] (ur o1) f G1).
    + rewrite V1, (rc_cv _ _ R f O2). change (length [x]) with 1%nat in *. rewrite L1.
      change (accepted_committed f (r :: p :: cs)) with (if f x then Some (ux_xr r) else accepted_committed f (p :: cs)).
      destruct (f x); reflexivity.
    + intros Hf. rewrite V1. rewrite (rc_sees _ _ _ _ R (O1 Hf) O2).
      rewrite <- !cv_all by (first [exact (hs_cx _ _ H1)|exact (hs_cx _ _ G1)]). symmetry. apply V1.
Qed.

Lemma committed_run l : forall o p cs, rc o (p :: cs) -> is_place (ux_xr p) = false -> cb (ux_xr p) ->
  Forall (fun r => ux_xid r <> 0 /\ is_place (ux_xr r) = false /\ cb (ux_xr r)) l ->
  exists ms o', committed_loop g (Some (ux_xr p)) l = HOk ms /\ apply_all (proj ms) o = Some o' /\ rc o' (rev l ++ p :: cs).
Proof.
  induction l as [|r l IH]; intros o p cs R Pp Cp F.
  - exists [], o. auto.
  - inversion F as [|? ? (F1 & F2 & F3) F4]; subst.
    destruct (committed_step o p cs r R F1 Pp F2 Cp F3) as (m1 & o1 & E1 & A1 & R1).
    destruct (IH o1 r (p :: cs) R1 F2 F3 F4) as (m2 & o2 & E2 & A2 & R2).
    exists (m1 ++ m2), o2. cbn [committed_loop]. rewrite E1, E2. cbn [hbind]. split; [reflexivity|].
    split; [rewrite proj_app, (apply_all_app _ _ _ _ A1); exact A2|]. cbn [rev]. now rewrite <- app_assoc.
Qed.

Lemma first_run w : is_place w = false -> cb w ->
  exists ms o', committed1 g None (mkUxr TXNID_NONE w) = HOk ms /\ apply_all (proj ms) None = Some o' /\ rc o' [mkUxr TXNID_NONE w].
Proof.
  intros P C. unfold committed1. cbn [ux_xr ux_xid set_xid N.eqb TXNID_NONE undo_keys hbind]. rewrite P.
  destruct (do_spec c ok g hk _ P C) as (rows & Er & Jr & Kr & Lr). rewrite Er. cbn [hbind map app].
  assert (Z : forall ks, concat (map (m_commit []) ks) = []) by (induction ks; auto). rewrite Z, app_nil_r.
  eexists. rewrite Jr. destruct (hv (xv w)) as [v|] eqn:E.
  - exists (Some (mkUle [mkUxr TXNID_NONE (XIns v)] [] (2 * MAX_TRANSACTION_RECORDS))).
    split; [reflexivity|]. split.
    + specialize (Lr v eq_refl). cbn [xr_ok] in Lr. unfold len in Lr. apply N.ltb_lt in Lr.
      cbn [apply_all]. unfold le_apply_msg, msg_modify_ule. cbn [wmsg um_xids um_type is_optimize].
      unfold ule_do_implicit_promotions. cbn [ule_init_empty px is_nil]. unfold ule_apply_insert. rewrite Lr. reflexivity.
    + constructor; [reflexivity| |].
      * constructor; cbn; auto. exists [], (XIns v). reflexivity.
      * intros f _. cbn. now rewrite E.
  - exists None. split; [reflexivity|]. split; [reflexivity|]. constructor; [reflexivity|apply hs_init|].
    intros f _. cbn. now rewrite E.
Qed.

(** ** The provisional loop *)
(** [P]: the source's provisional records so far; [xs] the chain; [b] the newest
    committed record. *)
Definition slev (b : xr) (P : list uxr) (m k : nat) : xr := if (k <? m)%nat then lastv b (firstn k P) else lastv b P.
Record pv (o : option ule) (b : xr) (P : list uxr) (xs : xids) : Prop := {
  pv_hs : hs xs (ur o);
  pv_ids : map ux_xid (firstn (length xs) P) = xs;
  pv_lv : forall k, (k <= length xs)%nat -> lv (ur o) k = hv (xv (slev b P (length xs) k))
}.
Lemma slev_top b P m : slev b P m m = lastv b P.
Proof. unfold slev. now rewrite Nat.ltb_irrefl. Qed.
Lemma pv_len o b P xs : pv o b P xs -> (length xs <= length P)%nat.
Proof. intros H. rewrite <- (pv_ids _ _ _ _ H) at 1. rewrite map_length, firstn_length. lia. Qed.
Lemma slev_app b P r m k : (m <= length P)%nat -> (k < m)%nat -> slev b (P ++ [r]) m k = slev b P m k.
Proof. intros H1 H2. unfold slev. apply Nat.ltb_lt in H2 as H3. rewrite H3, firstn_app. replace (k - length P)%nat with O by lia. cbn [firstn]. now rewrite app_nil_r. Qed.

(** One record whose transaction is over: same chain. *)
Lemma chain_prefix xs P (all : list uxr) : chain_ok (map ux_xid all) -> map ux_xid (firstn (length xs) P) = xs -> (exists q, all = P ++ q) -> xs <> [] -> chain_ok xs.
Proof.
  intros C E (q & ->) N.
  assert (X : exists t, map ux_xid (P ++ q) = xs ++ t).
  { exists (map ux_xid (skipn (length xs) P) ++ map ux_xid q). rewrite <- E at 1. rewrite app_assoc, <- map_app, firstn_skipn. now rewrite map_app. }
  destruct X as (t & Et). rewrite Et in C. destruct C as [C1 C2 C3 C4]. constructor.
  - exact N.
  - revert C2. clear. induction xs as [|x xs IH]; cbn; [constructor|]. intros H. inversion H; subst. constructor; [intros I; apply H2, in_or_app; now left|auto].
  - intros I. apply C3, in_or_app; now left.
  - rewrite app_length in C4. lia.
Qed.
Lemma lastv_snoc b P r : lastv b (P ++ [r]) = if is_place (ux_xr r) then lastv b P else ux_xr r.
Proof. now rewrite lastv_app. Qed.

(** The row before the new record is sent, seen with the new chain. *)
Lemma pv_extend o b P xs x r : pv o b P xs -> length xs = length P -> ux_xid r = x ->
  hs (xs ++ [x]) (ur o) /\ map ux_xid (firstn (length (xs ++ [x])) (P ++ [r])) = xs ++ [x] /\
  (forall k, (k < length (xs ++ [x]))%nat -> lv (ur o) k = hv (xv (slev b (P ++ [r]) (length (xs ++ [x])) k))) /\
  lv (ur o) (length (xs ++ [x])) = hv (xv (lastv b P)).
Proof.
  intros H E Ex. pose proof (pv_hs _ _ _ _ H) as G. pose proof (pv_ids _ _ _ _ H) as I.
  split; [|split; [|split]].
  - destruct G. constructor; auto.
    + rewrite firstn_app. replace (length (px (ur o)) - length xs)%nat with O by lia. cbn [firstn]. now rewrite app_nil_r.
    + rewrite app_length. lia.
  - rewrite firstn_all2 by (rewrite !app_length; cbn; lia). rewrite map_app. rewrite E, firstn_all in I. cbn [map]. now rewrite I, Ex.
  - intros k Hk. rewrite app_length in *. cbn [length] in *. rewrite (pv_lv _ _ _ _ H) by lia. f_equal. f_equal.
    unfold slev. apply Nat.ltb_lt in Hk as Hk'. rewrite Hk'. rewrite firstn_app. replace (k - length P)%nat with O by lia. cbn [firstn]. rewrite app_nil_r.
    destruct (k <? length xs)%nat eqn:Q; [reflexivity|]. apply Nat.ltb_ge in Q. rewrite firstn_all2 by lia. reflexivity.
  - unfold lv. rewrite firstn_all2 by (rewrite app_length; pose proof (hs_len _ _ G); lia).
    rewrite <- (slev_top b P (length xs)), <- (pv_lv _ _ _ _ H) by lia. unfold lv. rewrite firstn_all2 by exact (hs_len _ _ G). reflexivity.
Qed.

(** The row just before the messages of record [r] are sent. *)
Record mid (o : option ule) (b : xr) (P : list uxr) (r : uxr) (xs : xids) : Prop := {
  md_hs : hs xs (ur o);
  md_ids : map ux_xid (firstn (length xs) (P ++ [r])) = xs;
  md_lv : forall k, (k < length xs)%nat -> lv (ur o) k = hv (xv (slev b (P ++ [r]) (length xs) k));
  md_top : lv (ur o) (length xs) = hv (xv (lastv b P))
}.
Lemma mid_new o b P xs r : pv o b P xs -> length xs = length P -> mid o b P r (xs ++ [ux_xid r]).
Proof. intros H E. destruct (pv_extend o b P xs (ux_xid r) r H E eq_refl) as (A & B & D & F). constructor; assumption. Qed.
Lemma mid_same o b P xs r : pv o b P xs -> mid o b P r xs.
Proof.
  intros H. pose proof (pv_len _ _ _ _ H) as L. constructor.
  - exact (pv_hs _ _ _ _ H).
  - rewrite firstn_app. replace (length xs - length P)%nat with O by lia. cbn [firstn]. rewrite app_nil_r. exact (pv_ids _ _ _ _ H).
  - intros k Hk. rewrite slev_app by lia. apply (pv_lv _ _ _ _ H). lia.
  - rewrite (pv_lv _ _ _ _ H) by lia. now rewrite slev_top.
Qed.
Lemma mid_first o p cs r : rc o (p :: cs) -> mid o (ux_xr p) [] r [ux_xid r].
Proof.
  intros R. constructor.
  - exact (hs_nil_any _ _ (rc_hs _ _ R) (rc_px _ _ R)).
  - reflexivity.
  - intros k Hk. rewrite (rc_lv _ _ _ _ R). cbn [length] in *. replace k with O by lia. reflexivity.
  - rewrite (rc_lv _ _ _ _ R). reflexivity.
Qed.
Lemma mid_done o b P r xs : mid o b P r xs -> lv (ur o) (length xs) = hv (xv (lastv b (P ++ [r]))) -> pv o b (P ++ [r]) xs.
Proof.
  intros M T. constructor; [exact (md_hs _ _ _ _ _ M)|exact (md_ids _ _ _ _ _ M)|].
  intros k Hk. destruct (Nat.eq_dec k (length xs)) as [->|N]; [now rewrite slev_top|]. apply (md_lv _ _ _ _ _ M). lia.
Qed.
Lemma mid_place o b P r xs : mid o b P r xs -> is_place (ux_xr r) = true -> pv o b (P ++ [r]) xs.
Proof. intros M Hp. apply mid_done; [exact M|]. rewrite lastv_snoc, Hp. exact (md_top _ _ _ _ _ M). Qed.
Lemma mid_send o b P r xs : mid o b P r xs -> chain_ok xs -> is_place (ux_xr r) = false -> (forall v, hv (xv (ux_xr r)) = Some v -> xr_ok (XIns v)) ->
  exists o', apply_all (match hv (xv (lastv b P)) with Some _ => [wmsg XDel xs] | None => [] end ++ match hv (xv (ux_xr r)) with Some v => [wmsg (XIns v) xs] | None => [] end) o = Some o' /\
    pv o' b (P ++ [r]) xs /\ (forall f, cv f (ur o') = cv f (ur o)).
Proof.
  intros M C Hp Hok. destruct (sends c g hk xs o (lastv b P) (ux_xr r) C (md_hs _ _ _ _ _ M) (md_top _ _ _ _ _ M) Hok) as (o' & E & H & L & K & V & _).
  exists o'. split; [exact E|]. split; [|exact V]. constructor; [exact H|exact (md_ids _ _ _ _ _ M)|].
  intros k Hk. destruct (Nat.eq_dec k (length xs)) as [->|N].
  - rewrite slev_top, L, lastv_snoc, Hp. reflexivity.
  - rewrite K by lia. apply (md_lv _ _ _ _ _ M). lia.
Qed.

Lemma lastv_place b l : is_place b = false -> is_place (lastv b l) = false.
Proof. revert b; induction l as [|r l IH]; intros b Hb; [exact Hb|]. cbn [lastv]. apply IH. destruct (is_place (ux_xr r)) eqn:E; assumption. Qed.
Lemma lastv_cb b l : cb b -> Forall (fun r => cb (ux_xr r)) l -> cb (lastv b l).
Proof. revert b; induction l as [|r l IH]; intros b Hb F; [exact Hb|]. inversion F; subst. cbn [lastv]. apply IH; [|assumption]. destruct (is_place (ux_xr r)); assumption. Qed.

(** One record of the loop. *)
Definition rec1 (outer : tstate) (xs : xids) (prev : xr) (ck : list bytes) (r : uxr) : hres (list hmsg * xr * list bytes) :=
  if is_place (ux_xr r) then HOk ([], prev, ck)
  else
    hdo dk <- undo_keys g (Some prev);
    hdo rows <- do_rows g (ux_xr r);
    HOk (map (m_del xs) dk ++ map (m_ins xs) rows, ux_xr r, if is_over outer then ck ++ dk else ck).
Lemma rec1_spec o b P r xs outer ck : mid o b P r xs -> chain_ok xs -> is_place b = false -> cb b -> Forall (fun r => cb (ux_xr r)) (P ++ [r]) ->
  exists ms ck' o', rec1 outer xs (lastv b P) ck r = HOk (ms, lastv b (P ++ [r]), ck') /\ apply_all (proj ms) o = Some o' /\
    pv o' b (P ++ [r]) xs /\ (forall f, cv f (ur o') = cv f (ur o)) /\ (is_over outer = false -> ck' = ck).
Proof.
  intros M C Hb Cb F. unfold rec1. rewrite lastv_snoc. apply Forall_app in F as [F1 F2]. inversion F2 as [|? ? F3 _]; subst.
  destruct (is_place (ux_xr r)) eqn:Pr.
  - exists [], ck, o. split; [reflexivity|]. split; [reflexivity|]. split; [now apply mid_place|]. split; reflexivity.
  - destruct (undo_spec c ok g hk _ (lastv_place _ P Hb) (lastv_cb _ _ Cb F1)) as (dk & Ed & Jd & _).
    destruct (do_spec c ok g hk _ Pr F3) as (rows & Er & Jr & _ & Lr). rewrite Ed, Er. cbn [hbind].
    destruct (mid_send o b P r xs M C Pr Lr) as (o' & E & H & V).
    eexists _, _, o'. split; [reflexivity|]. rewrite proj_app, Jd, Jr. split; [exact E|]. split; [exact H|]. split; [exact V|]. now intros ->.
Qed.
Lemma prov_cons outer first xs prev ck r st l : st <> TAborting ->
  prov_loop g outer first xs prev ck ((r, st) :: l) =
  (hdo xs' <- next_xids first st xs (ux_xid r);
   if negb (inner_ok outer first st) then HBug
   else hdo q <- rec1 outer xs' prev ck r;
        hdo p <- prov_loop g outer false xs' (snd (fst q)) (snd q) l;
        HOk (fst (fst q) ++ fst (fst p), snd (fst p), snd p)).
Proof.
  intros N. unfold rec1. destruct st; try (exfalso; apply N; reflexivity); cbn [prov_loop]; destruct (next_xids _ _ _ _) as [xs'| |]; try reflexivity; cbn [hbind]; destruct (negb _); try reflexivity;
  destruct (is_place (ux_xr r)); cbn [hbind fst snd app];
  try (destruct (prov_loop g outer false xs' prev ck l) as [[[a b] d]| |]; reflexivity);
  destruct (undo_keys g (Some prev)); try reflexivity; cbn [hbind]; destruct (do_rows g (ux_xr r)); try reflexivity; cbn [hbind fst snd];
  destruct (prov_loop g outer false xs' _ _ l) as [[[q b] d]| |]; try reflexivity; cbn [hbind fst snd]; now rewrite app_assoc.
Qed.

Definition done_st (s : tstate) : Prop := s = TCommitting \/ s = TAborting \/ s = TRetired.
(** The states still to come. *)
Definition todo (outer : tstate) (lx lp : nat) (st : list tstate) : Prop :=
  (outer = TLive /\ ((lx = lp /\ live_then_done st) \/ Forall done_st st)) \/ (outer <> TLive /\ Forall (fun s => s = TRetired) st).
Definition more (outer : tstate) (lx lp : nat) (st : list tstate) : nat :=
  match outer with TLive => if (lx =? lp)%nat then live_levels st else O | _ => O end.

Lemma ltd_forall s st : s <> TLive -> live_then_done (s :: st) -> Forall done_st (s :: st).
Proof. intros N H. destruct s; try exact H. congruence. Qed.

Lemma prov_run b outer l : forall o P xs ck all,
  pv o b P xs -> xs <> [] -> is_place b = false -> cb b -> Forall (fun r => cb (ux_xr r)) all -> chain_ok (map ux_xid all) ->
  all = P ++ map fst l -> todo outer (length xs) (length P) (map snd l) ->
  exists ms xs' ck' o', prov_loop g outer false xs (lastv b P) ck l = HOk (ms, xs', ck') /\ apply_all (proj ms) o = Some o' /\
    pv o' b (P ++ before_abort l) xs' /\ (forall f, cv f (ur o') = cv f (ur o)) /\ (is_over outer = false -> ck' = ck) /\
    (exists t, xs' = xs ++ t) /\ length xs' = (length xs + more outer (length xs) (length P) (map snd l))%nat.
Proof.
  induction l as [|[r st] l IH]; intros o P xs ck all H Nx Hb Cb Fa Ca Ea T.
  - exists [], xs, ck, o. cbn [prov_loop before_abort]. rewrite app_nil_r. split; [reflexivity|]. split; [reflexivity|]. split; [exact H|]. split; [reflexivity|]. split; [reflexivity|].
    split; [exists []; now rewrite app_nil_r|]. unfold more. cbn. destruct outer; try lia. destruct (_ =? _)%nat; lia.
  - destruct (match st with TAborting => true | _ => false end) eqn:Ab.
    { destruct st; try discriminate Ab. exists [], xs, ck, o. cbn [prov_loop before_abort]. rewrite app_nil_r. split; [reflexivity|]. split; [reflexivity|]. split; [exact H|]. split; [reflexivity|]. split; [reflexivity|].
      split; [exists []; now rewrite app_nil_r|]. unfold more. cbn. destruct outer; try lia. destruct (_ =? _)%nat; lia. }
    assert (Nab : st <> TAborting) by (intros ->; discriminate Ab).
    rewrite (prov_cons _ _ _ _ _ _ _ _ Nab). cbn [map fst snd] in *.
    (* the chain of this record *)
    assert (Q : exists xs1, next_xids false st xs (ux_xid r) = HOk xs1 /\ inner_ok outer false st = true /\ mid o b P r xs1 /\
               todo outer (length xs1) (length (P ++ [r])) (map snd l) /\ (exists t, xs1 = xs ++ t) /\
               (length xs1 + more outer (length xs1) (length (P ++ [r])) (map snd l) = length xs + more outer (length xs) (length P) (st :: map snd l))%nat).
    { pose proof (pv_len _ _ _ _ H) as HL.
      destruct T as [(-> & [(El & L) | D]) | (No & R)].
      - destruct st; try (exfalso; apply Nab; reflexivity).
        + exists (xs ++ [ux_xid r]). split; [reflexivity|]. split; [reflexivity|]. split; [now apply mid_new|].
          rewrite !app_length. cbn [length]. split; [left; split; [reflexivity|left; split; [lia|exact L]]|]. split; [eauto|].
          unfold more. cbn [live_levels]. rewrite El, !Nat.eqb_refl. lia.
        + apply ltd_forall in L; [|discriminate]. inversion L as [|? ? [E|[E|E]] _]; discriminate E.
        + apply ltd_forall in L; [|discriminate]. inversion L; subst.
          exists xs. split; [reflexivity|]. split; [reflexivity|]. split; [now apply mid_same|].
          split; [left; split; [reflexivity|right; assumption]|]. split; [exists []; now rewrite app_nil_r|].
          rewrite app_length. cbn [length]. unfold more. cbn [live_levels]. replace (length xs =? length P + 1)%nat with false by (symmetry; apply Nat.eqb_neq; lia). destruct (length xs =? length P)%nat; lia.
        + apply ltd_forall in L; [|discriminate]. inversion L; subst.
          exists xs. split; [reflexivity|]. split; [reflexivity|]. split; [now apply mid_same|].
          split; [left; split; [reflexivity|right; assumption]|]. split; [exists []; now rewrite app_nil_r|].
          rewrite app_length. cbn [length]. unfold more. cbn [live_levels]. replace (length xs =? length P + 1)%nat with false by (symmetry; apply Nat.eqb_neq; lia). destruct (length xs =? length P)%nat; lia.
      - inversion D as [|? ? D1 D2]; subst. exists xs.
        destruct D1 as [-> | [-> | ->]]; try (exfalso; apply Nab; reflexivity);
        (split; [reflexivity|]; split; [reflexivity|]; split; [now apply mid_same|];
         split; [left; split; [reflexivity|right; assumption]|]; split; [exists []; now rewrite app_nil_r|];
         rewrite app_length; cbn [length]; unfold more; cbn [live_levels]; replace (length xs =? length P + 1)%nat with false by (symmetry; apply Nat.eqb_neq; lia); destruct (length xs =? length P)%nat; lia).
      - inversion R as [|? ? -> R2]; subst. exists xs. split; [reflexivity|]. split; [destruct outer; reflexivity|]. split; [now apply mid_same|].
        split; [right; split; assumption|]. split; [exists []; now rewrite app_nil_r|]. unfold more. destruct outer; try lia. congruence. }
    destruct Q as (xs1 & En & Ei & M & T1 & (t1 & Et1) & Len1). rewrite En, Ei. cbn [hbind negb].
    assert (Nx1 : xs1 <> []) by (rewrite Et1; destruct xs; [congruence|discriminate]).
    assert (Ea' : all = (P ++ [r]) ++ map fst l) by (rewrite <- app_assoc; exact Ea).
    assert (C1 : chain_ok xs1) by (eapply chain_prefix; [exact Ca|exact (md_ids _ _ _ _ _ M)|eauto|exact Nx1]).
    assert (F1 : Forall (fun r => cb (ux_xr r)) (P ++ [r])) by (rewrite Ea' in Fa; apply Forall_app in Fa; tauto).
    destruct (rec1_spec o b P r xs1 outer ck M C1 Hb Cb F1) as (ms1 & ck1 & o1 & E1 & A1 & H1 & V1 & K1).
    rewrite E1. cbn [hbind fst snd].
    destruct (IH o1 (P ++ [r]) xs1 ck1 all H1 Nx1 Hb Cb Fa Ca Ea' T1) as (ms2 & xs2 & ck2 & o2 & E2 & A2 & H2 & V2 & K2 & (t2 & Et2) & Len2).
    rewrite E2. cbn [hbind fst snd]. exists (ms1 ++ ms2), xs2, ck2, o2. split; [reflexivity|].
    split; [rewrite proj_app, (apply_all_app _ _ _ _ A1); exact A2|].
    split.
    { replace (before_abort ((r, st) :: l)) with (r :: before_abort l) by (destruct st; try reflexivity; discriminate Ab). rewrite <- app_assoc in H2. exact H2. }
    split; [intros f; now rewrite V2|]. split; [intros Ho; rewrite (K2 Ho); auto|].
    split; [exists (t1 ++ t2); rewrite Et2, Et1; now rewrite app_assoc|]. rewrite Len2. exact Len1.
Qed.
End Top.
