(** * The pages a thread holds are all pending or none is; the consistent cut *)
From Coq Require Import List Bool NArith Lia.
From Verif Require Import Base CtModel CtSpec CtProofs CtInv CtImg.
Import ListNotations.
Local Open Scope N_scope.

Section S.
Variable V : Type.
Notation cst := (cst V).
Notation pair := (pair V).

Ltac dg H := match type of H with
  | (if ?b then _ else None) = Some _ => let E := fresh "G" in destruct b eqn:E; [|discriminate H]
  | match ?b with Some _ => _ | None => None end = Some _ => let E := fresh "G" in destruct b eqn:E; [|discriminate H]
  end.

(** [t] has [x] pinned and has read its pending bit. *)
Definition res (s : cst) (t : ctid) (x : ckey) : Prop :=
  exists p, c_tab s x = Some p /\ p_lock p = Some t /\ (trole x (c_thr s t) = RFree \/ trole x (c_thr s t) = ROwed).

Definition Hom (s : cst) : Prop :=
  (forall t x y, res s t x -> res s t y -> pend s x = pend s y) /\
  (forall t x, In t (c_users s) -> res s t x -> pend s x = false).

Lemma hom_sub : forall s s' : cst, Hom s ->
  (forall t x, res s' t x -> pend s' x = false \/ (res s t x /\ pend s' x = pend s x)) ->
  (forall t x y, res s' t x -> res s' t y -> pend s' x = true -> pend s' y = true) ->
  (forall t, In t (c_users s') -> In t (c_users s)) -> Hom s'.
Proof.
  intros s s' [H1 H2] A B C. split.
  - intros t x y R1 R2. destruct (pend s' x) eqn:E1, (pend s' y) eqn:E2; auto.
    + rewrite <- E2. symmetry. eauto.
    + rewrite <- E1. eauto.
  - intros t x I1 R. destruct (A t x R) as [E|(R1 & E)]; [exact E|]. rewrite E. eauto.
Qed.

Lemma hom_same : forall s s' : cst, Hom s ->
  (forall t x, res s' t x -> res s t x /\ pend s' x = pend s x) ->
  (forall t, In t (c_users s') -> In t (c_users s)) -> Hom s'.
Proof.
  intros s s' HH A C. apply (hom_sub s); auto.
  intros t x y R1 R2 E. destruct (A t x R1) as (A1 & A2), (A t y R2) as (B1 & B2).
  rewrite B2. rewrite A2 in E. rewrite <- E. destruct HH as [H1 _]. eauto.
Qed.

Lemma res_of : forall (s s' : cst) t x p, c_tab s x = Some p -> c_tab s' x = Some p ->
  (forall t', p_lock p = Some t' -> trole x (c_thr s' t') = trole x (c_thr s t')) -> res s' t x -> res s t x /\ pend s' x = pend s x.
Proof.
  intros s s' t x p T T' R (q & Q1 & Q2 & Q3). rewrite T' in Q1. injection Q1 as <-.
  rewrite R in Q3 by exact Q2. split; [exists p; auto|]. unfold pend. rewrite T, T'. reflexivity.
Qed.

(** A change of one page [k] (and of its thread). *)
Lemma hom_one : forall (s s' : cst) k,
  Hom s ->
  (forall x, x <> k -> c_tab s' x = c_tab s x) ->
  (forall t x p, x <> k -> c_tab s x = Some p -> p_lock p = Some t -> trole x (c_thr s' t) = trole x (c_thr s t)) ->
  (forall t, res s' t k -> res s t k /\ pend s' k = pend s k) ->
  (forall t, In t (c_users s') -> In t (c_users s)) -> Hom s'.
Proof.
  intros s s' k HH A B C D. apply (hom_same s); auto. intros t x R.
  destruct (N.eq_dec x k) as [->|NX]; [auto|].
  assert (R0 := R). destruct R0 as (p & P1 & P2 & P3). assert (T := P1). rewrite A in T by exact NX.
  eapply res_of; eauto.
Qed.

Lemma clear_hom : forall (s s' : cst) t ks todo,
  clear_bits s t ks = Some (s', todo) ->
  (forall k, trole k (c_thr s t) <> RFree -> In k ks) ->
  (forall t' x y, t' <> t -> res s t' x -> res s t' y -> pend s x = pend s y) ->
  (forall t' x, t' <> t -> In t' (c_users s) -> res s t' x -> pend s x = false) ->
  (forall x, res s t x -> pend s x = false \/ In x ks) ->
  Hom (set_thr s' t (TRun todo)).
Proof.
  intros s s' t ks todo C A H1 H2 B. apply clear_bits_spec in C.
  destruct C as (C1 & C2 & C3 & C4 & C5 & C6 & C7 & C8 & C9 & C10 & C11 & C12).
  assert (PE : forall x, pend (set_thr s' t (TRun todo)) x = if mem x ks then false else pend s x).
  { intros x. unfold pend. cbn. rewrite C9. destruct (mem x ks) eqn:M; [|reflexivity]. destruct (c_tab s x); reflexivity. }
  assert (OTH : forall t' x, res (set_thr s' t (TRun todo)) t' x -> t' <> t -> res s t' x /\ mem x ks = false).
  { intros t' x (p & P1 & P2 & P3) NT. cbn in *. rewrite C9 in P1. rewrite C6, fupd_other in P3 by exact NT.
    destruct (mem x ks) eqn:M.
    - apply mem_In in M. destruct (C10 x M) as (q & Q1 & Q2). rewrite Q1 in P1. cbn in P1. injection P1 as <-. cbn in P2. congruence.
    - split; [exists p; auto|reflexivity]. }
  assert (OWN : forall x, res (set_thr s' t (TRun todo)) t x -> mem x ks = false -> res s t x).
  { intros x (p & P1 & P2 & P3) M. cbn in *. rewrite C9, M in P1. exists p. repeat split; auto.
    left. destruct (trole x (c_thr s t)) eqn:TR; try reflexivity; exfalso; apply mem_false in M; apply M, A; rewrite TR; discriminate. }
  assert (OWN2 : forall x, res (set_thr s' t (TRun todo)) t x -> pend (set_thr s' t (TRun todo)) x = false).
  { intros x R. rewrite PE. destruct (mem x ks) eqn:M; [reflexivity|]. assert (R1 := OWN x R M).
    destruct (B x R1) as [B1|B1]; [exact B1|]. apply mem_In in B1. congruence. }
  split.
  - intros t' x y R1 R2. destruct (N.eq_dec t' t) as [->|NT]; [rewrite (OWN2 x R1), (OWN2 y R2); reflexivity|].
    destruct (OTH t' x R1 NT) as (S1 & M1), (OTH t' y R2 NT) as (S2 & M2). rewrite !PE, M1, M2. eauto.
  - intros t' x I1 R. destruct (N.eq_dec t' t) as [->|NT]; [auto|].
    destruct (OTH t' x R NT) as (S1 & M1). rewrite PE, M1. cbn in I1. rewrite C7 in I1. eauto.
Qed.

Lemma add_clear_hom : forall (s s' : cst) k p t deps todo, Inv s -> Hom s -> c_tab s k = None -> p_lock p = Some t -> p_pend p = false ->
  c_thr s t = TRun [] ->
  In t (c_users s) \/ (forall x, pinned s t x -> In x deps) ->
  clear_bits (add_pair s k p) t deps = Some (s', todo) -> Hom (set_thr s' t (TRun todo)).
Proof.
  intros s s' k p t deps todo HI HH T LK PP TH B C.
  assert (PE : forall x, pend (add_pair s k p) x = if x =? k then false else pend s x).
  { intros x. unfold pend, add_pair, fupd. cbn. destruct (x =? k); auto. }
  assert (RR : forall t' x, res (add_pair s k p) t' x -> (x = k /\ t' = t) \/ (x <> k /\ res s t' x)).
  { intros t' x (q & Q1 & Q2 & Q3). cbn in *. unfold fupd in Q1. destruct (N.eqb_spec x k) as [->|NX].
    - left. split; congruence.
    - right. split; [exact NX|]. exists q. auto. }
  destruct HH as [H1 H2].
  eapply clear_hom; [exact C| | | |].
  - intros x. cbn. rewrite TH. cbn. congruence.
  - intros t' x y NT R1 R2. rewrite !PE. destruct (RR t' x R1) as [(-> & ->)|(NX & S1)]; [congruence|].
    destruct (RR t' y R2) as [(-> & ->)|(NY & S2)]; [congruence|].
    destruct (N.eqb_spec x k); [congruence|]. destruct (N.eqb_spec y k); [congruence|]. eauto.
  - intros t' x NT I1 R. rewrite PE. destruct (RR t' x R) as [(-> & ->)|(NX & S1)]; [congruence|].
    destruct (N.eqb_spec x k); [congruence|]. eauto.
  - intros x R. rewrite PE. destruct (RR t x R) as [(-> & _)|(NX & S1)]; [rewrite N.eqb_refl; auto|].
    destruct (N.eqb_spec x k); [congruence|]. destruct B as [B|B]; [left; eauto|]. right. apply B.
    destruct S1 as (q & Q1 & Q2 & _). exists q. auto.
Qed.

Variable X : Type.
Variable L : (ckey -> option V) -> X.

Lemma busy_not_res : forall (s : cst) t k, trole k (c_thr s t) <> RFree -> trole k (c_thr s t) <> ROwed -> ~ res s t k.
Proof. intros s t k A B (p & _ & _ & [C|C]); contradiction. Qed.

Theorem step_hom : forall (s s' : cst) o, Inv s -> Hom s -> contract L s o -> cstep s o = Some s' -> o <> OBegin -> Hom s'.
Proof.
  intros s s' o HI HH CT E NB.
  destruct o as [t|t|t k|t deps|t k deps|t k|t cl|t us|t k|t k v deps|t k|t k t'|t k|t|t|t rm| |k cl|k|];
    cbn [cstep] in E; try congruence.
  - dg E. injection E as <-. apply andb_true_iff in G as [G1 G2]. destruct HH as [H1 H2]. split; [exact H1|].
    intros t' x I1 R. cbn in I1. destruct I1 as [<-|I1]; [|eauto]. exfalso. destruct R as (p & P1 & P2 & _).
    exact (holds_none_sound V s t x p HI G2 P1 P2).
  - dg E. injection E as <-. destruct HH as [H1 H2]. split; [exact H1|]. intros t' x I1. apply H2. cbn in I1. apply del_In in I1. tauto.
  - (* lock *)
    dg E. dg E. dg E. apply idle_run in G. injection E as <-.
    apply (hom_one s _ k); cbn; auto.
    + intros x NX. apply fupd_other. exact NX.
    + intros t' x q NX Q1 Q2. unfold fupd. destruct (N.eqb_spec t' t) as [->|]; [|reflexivity].
      rewrite G. cbn. destruct (N.eqb_spec x k); congruence.
    + intros t' (q & Q1 & Q2 & Q3). cbn in *. rewrite fupd_same in Q1. injection Q1 as <-. cbn in Q2. injection Q2 as <-.
      rewrite fupd_same in Q3. cbn in Q3. rewrite N.eqb_refl in Q3. destruct Q3; discriminate.
  - (* resolve *)
    destruct (c_thr s t) as [|k| |] eqn:TH; try discriminate.
    destruct (clear_bits s t (k :: deps)) as [[s1 todo]|] eqn:C; [|discriminate]. injection E as <-.
    destruct HH as [H1 H2]. eapply clear_hom; [exact C| | | |]; eauto.
    + intros x. rewrite TH. cbn. destruct (N.eqb_spec x k); [auto|congruence].
    + intros x R. cbn in CT. destruct CT as [B|B]; [left; eauto|]. right. 
      destruct (N.eq_dec x k) as [->|NX]; [left; reflexivity|]. right. apply B.
      * destruct R as (q & Q1 & Q2 & _). exists q. auto.
      * rewrite TH. congruence.
  - (* miss *)
    dg E. dg E. dg E. apply idle_run in G. destruct (c_tab s k) eqn:T; [discriminate|].
    destruct (clear_bits _ t deps) as [[s1 todo]|] eqn:C; [|discriminate]. injection E as <-.
    eapply add_clear_hom; [exact HI|exact HH|exact T| | |exact G| |exact C]; try reflexivity.
    cbn in CT. destruct CT as [B|B]; [auto|]. right. intros x PX. apply B; [exact PX|]. rewrite G. discriminate.
  - (* fetch *)
    dg E. dg E. apply owns_true in G0. destruct (p_val p) eqn:PV; [discriminate|]. dg E. injection E as <-.
    apply (hom_one s _ k); cbn; auto.
    + intros x NX. apply fupd_other. exact NX.
    + intros t' (q & Q1 & Q2 & Q3). cbn in *. unfold pend; cbn. rewrite fupd_same in *. injection Q1 as <-. cbn in Q2.
      rewrite G. split; [exists p; auto|reflexivity].
  - (* write *)
    destruct (c_thr s t) as [[|k todo]| | |] eqn:TH; try discriminate.
    dg E. dg E. injection E as <-.
    destruct (I_thr s HI t k) as (q & Q1 & Q2); [rewrite TH; cbn; rewrite N.eqb_refl; discriminate|].
    rewrite G in Q1. injection Q1 as <-.
    destruct (wfc_sound _ _ _ _ _ _ G0 G) as (W1 & W2 & W3 & W4 & W5 & W6 & W7 & p' & W8 & W9 & W10 & W11).
    apply (hom_one s _ k); cbn; rewrite ?W4, ?W5; auto.
    + intros x NX. apply W7. exact NX.
    + intros t' x q NX Q1 Q3. unfold fupd. destruct (N.eqb_spec t' t) as [->|]; [|reflexivity].
      rewrite TH. cbn. destruct (N.eqb_spec x k); [congruence|reflexivity].
    + intros t' (q & R1 & R2 & R3). cbn in *. rewrite W8 in R1. injection R1 as <-. rewrite W9, Q2 in R2. injection R2 as <-.
      split; [|unfold pend; cbn; rewrite W8, G; exact W10].
      exists p. repeat split; auto. rewrite TH. cbn. rewrite N.eqb_refl. auto.
  - (* modify *)
    dg E. apply idle_run in G. apply modify_spec in E.
    destruct E as (C1 & C2 & C3 & C4 & C5 & C6 & C7 & C8 & C9 & C10).
    apply (hom_same s); auto; [|rewrite C7; auto].
    intros t' x (q & Q1 & Q2 & Q3). rewrite C9 in Q1. rewrite C6 in Q3. unfold res, pend. rewrite C9.
    destruct (lastv us x); [|split; [exists q; auto|reflexivity]].
    destruct (c_tab s x) as [q'|]; [|discriminate]. cbn in *. injection Q1 as <-. split; [exists q'; auto|reflexivity].
  - (* unpin *)
    dg E. dg E. dg E. dg E. injection E as <-.
    apply (hom_one s _ k); cbn; auto.
    + intros x NX. apply fupd_other. exact NX.
    + intros t' (q & Q1 & Q2 & Q3). cbn in *. rewrite fupd_same in Q1. injection Q1 as <-. discriminate.
  - (* put *)
    dg E. dg E. dg E. apply idle_run in G. destruct (c_tab s k) eqn:T; [discriminate|].
    destruct (clear_bits _ t deps) as [[s1 todo]|] eqn:C; [|discriminate]. injection E as <-.
    eapply add_clear_hom; [exact HI|exact HH|exact T| | |exact G| |exact C]; try reflexivity.
    cbn in CT. destruct CT as [B|B]; [auto|]. right. intros x PX. apply B; [exact PX|]. rewrite G. discriminate.
  - (* remove *)
    dg E. dg E. dg E. dg E. injection E as <-.
    apply (hom_one s _ k); cbn; auto.
    + intros x NX. apply fupd_other. exact NX.
    + intros t' (q & Q1 & Q2 & Q3). cbn in *. rewrite fupd_same in Q1. discriminate.
  - (* hand over *)
    dg E. dg E. dg E. injection E as <-. apply andb_true_iff in G as [G NU]. apply andb_true_iff in G as [G HN]. apply andb_true_iff in G as [G GT].
    apply idle_run in G. apply idle_run in GT. apply owns_true in G1.
    destruct HH as [H1 H2].
    assert (RR : forall t1 x, res (set_pair s k (with_lock p (Some t'))) t1 x -> (x = k /\ t1 = t') \/ (x <> k /\ res s t1 x /\ t1 <> t')).
    { intros t1 x (q & Q1 & Q2 & Q3). cbn in *. unfold fupd in Q1. destruct (N.eqb_spec x k) as [->|NX].
      - injection Q1 as <-. cbn in Q2. left. split; congruence.
      - right. split; [exact NX|]. split; [exists q; auto|]. intros ->. exact (holds_none_sound V s t' x q HI HN Q1 Q2). }
    assert (PE : forall x, pend (set_pair s k (with_lock p (Some t'))) x = pend s x).
    { intros x. unfold pend; cbn. unfold fupd. destruct (N.eqb_spec x k) as [->|]; [rewrite G0; reflexivity|reflexivity]. }
    split.
    + intros t1 x y R1 R2. rewrite !PE. destruct (RR t1 x R1) as [(-> & ->)|(NX & S1 & N1)], (RR _ y R2) as [(-> & E2)|(NY & S2 & N2)]; try congruence.
      eauto.
    + intros t1 x I1 R. rewrite PE. destruct (RR t1 x R) as [(-> & ->)|(NX & S1 & N1)]; [|eauto].
      exfalso. apply negb_true_iff in NU. apply mem_false in NU. apply NU. exact I1.
  - (* evictor locks *)
    dg E. dg E. dg E. dg E. apply idle_run in G. injection E as <-.
    apply (hom_one s _ k); cbn; auto.
    + intros x NX. apply fupd_other. exact NX.
    + intros t' x q NX Q1 Q2. unfold fupd. destruct (N.eqb_spec t' t) as [->|]; [|reflexivity].
      rewrite G. cbn. destruct (N.eqb_spec x k); congruence.
    + intros t' (q & Q1 & Q2 & Q3). cbn in *. rewrite fupd_same in Q1. injection Q1 as <-. cbn in Q2. injection Q2 as <-.
      rewrite fupd_same in Q3. cbn in Q3. rewrite N.eqb_refl in Q3. destruct Q3; discriminate.
  - (* evictor starts *)
    destruct (c_thr s t) as [| |k|] eqn:TH; try discriminate. dg E. injection E as <-.
    destruct (ev_lock V s t k HI (or_introl TH)) as (q & Q1 & Q2 & _). rewrite G in Q1. injection Q1 as <-.
    apply (hom_one s _ k); cbn; auto.
    + intros x NX. apply fupd_other. exact NX.
    + intros t' x q NX R1 R2. unfold fupd. destruct (N.eqb_spec t' t) as [->|]; [|reflexivity].
      rewrite TH. cbn. destruct (N.eqb_spec x k); congruence.
    + intros t' (q & R1 & R2 & R3). cbn in *. rewrite fupd_same in R1. injection R1 as <-. cbn in R2.
      assert (t' = t) by congruence. subst t'. rewrite fupd_same in R3. cbn in R3. rewrite N.eqb_refl in R3. destruct R3; discriminate.
  - (* evictor writes *)
    destruct (c_thr s t) as [| | |k fc] eqn:TH; try discriminate. dg E. destruct (p_dirty p) eqn:D; [|discriminate].
    unfold write_locked_pair in E. destruct (p_clone p) eqn:CL; [discriminate|]. rewrite D in E.
    destruct (p_val p) as [v|] eqn:PV; [|discriminate]. injection E as <-.
    apply (hom_one s _ k); cbn; auto.
    + intros x NX. apply fupd_other. exact NX.
    + intros t' (q & R1 & R2 & R3). cbn in *. unfold pend; cbn. rewrite fupd_same in *. injection R1 as <-. cbn in R2.
      rewrite G. split; [exists p; auto|reflexivity].
  - (* evictor frees *)
    assert (EV : exists k, (c_thr s t = TEv k \/ exists fc, c_thr s t = TEvx k fc) /\
       (do q <- c_tab s k; guard negb (p_dirty q); guard (match p_clone q with None => true | Some _ => false end);
          let s1 := if rm then rem_pair s k else set_pair s k (with_lock q None) in
          let s2 := set_thr s1 t (TRun []) in
          Some (mkC (c_tab s2) (c_keys s2) (c_cur s2) (c_inp s2) (c_last s2) (c_ck s2) (c_thr s2) (c_users s2) (del t (c_exps s2)))) = Some s').
    { destruct (c_thr s t) as [| |k|k fc] eqn:TH; try discriminate; exists k; eauto. }
    clear E. destruct EV as (k & TH & E). cbv zeta in E. dg E. dg E. dg E. injection E as <-.
    assert (R1 : forall y, y <> k -> trole y (c_thr s t) = RFree).
    { intros y NX. destruct TH as [TH|(fc & TH)]; rewrite TH; cbn; destruct (N.eqb_spec y k); congruence. }
    apply (hom_one s _ k); cbn; auto.
    + intros x NX. destruct rm; cbn; apply fupd_other; exact NX.
    + intros t' x q NX Q1 Q2. destruct rm; cbn; unfold fupd; (destruct (N.eqb_spec t' t) as [->|]; [rewrite R1; auto|reflexivity]).
    + intros t' (q & Q1 & Q2 & Q3). destruct rm; cbn in *; rewrite fupd_same in Q1; [discriminate|]. injection Q1 as <-. discriminate.
    + destruct rm; cbn; auto.
  - (* the checkpoint thread takes a page *)
    dg E. dg E. dg E. dg E. dg E. dg E. injection E as <-. destruct (p_lock p) eqn:LK; [discriminate|].
    assert (WW : c_thr c = c_thr s /\ c_users c = c_users s /\ (forall y, y <> k -> c_tab c y = c_tab s y) /\ p_lock p0 = None).
    { destruct (p_pend p) eqn:PP.
      - destruct (wfc_sound _ _ _ _ _ _ G3 G1) as (W1 & W2 & W3 & W4 & W5 & W6 & W7 & p' & W8 & W9 & W10 & W11).
        rewrite G4 in W8. injection W8 as <-. rewrite W9. repeat (split; [assumption|]). split; [|exact LK]. intros y NY. apply W7. exact NY.
      - injection G3 as <-. rewrite G1 in G4. injection G4 as <-. do 3 (split; [auto|]). exact LK. }
    destruct WW as (W4 & W5 & W7 & LK0).
    apply (hom_one s _ k); cbn; rewrite ?W4, ?W5; auto.
    + intros x NX. rewrite fupd_other by exact NX. auto.
    + intros t' (q & Q1 & Q2 & Q3). cbn in *. rewrite fupd_same in Q1. injection Q1 as <-. cbn in Q2. congruence.
  - (* a clone is written *)
    dg E. destruct (p_clone p) as [w|] eqn:CL; [|discriminate]. injection E as <-.
    apply (hom_one s _ k); cbn; auto.
    + intros x NX. apply fupd_other. exact NX.
    + intros t' (q & R1 & R2 & R3). cbn in *. unfold pend; cbn. rewrite fupd_same in *. injection R1 as <-. cbn in R2.
      rewrite G. split; [exists p; auto|reflexivity].
  - dg E. dg E. injection E as <-. exact HH.
Qed.

Lemma begin_hom : forall s s' : cst, cstep s OBegin = Some s' -> Hom s'.
Proof.
  intros s s' E. cbn [cstep] in E. dg E. dg E. injection E as <-.
  assert (US : c_users s = []) by (destruct (c_users s); [reflexivity|discriminate]).
  split.
  - intros t x y (p & P1 & _) (q & Q1 & _). unfold pend. cbn in *.
    destruct (c_tab s x), (c_tab s y); cbn in *; try discriminate. reflexivity.
  - intros t x I1. cbn in I1. rewrite US in I1. contradiction.
Qed.

(** ** The cut *)
Hypothesis L_ext : forall m m', (forall k, m k = m' k) -> L m = L m'.

Lemma pinned_res : forall (s : cst) t x, c_thr s t = TRun [] -> pinned s t x -> res s t x.
Proof. intros s t x TH (p & P1 & P2). exists p. rewrite TH. auto. Qed.

Lemma img_pend : forall (s : cst) x, pend s x = true -> img s x = content s x.
Proof.
  intros s x P. unfold pend in P. unfold img, content. destruct (c_tab s x) as [p|]; [|discriminate].
  unfold imgl. rewrite P. reflexivity.
Qed.

Theorem step_cut : forall (s s' : cst) o, Inv s -> Hom s -> running (c_ck s) = true -> contract L s o ->
  cstep s o = Some s' -> o <> OEnd -> L (img s') = L (img s).
Proof.
  intros s s' o HI HH RN CT E NE.
  assert (SI := fun x => proj2 (step_img V s s' o x HI RN E NE)).
  destruct o as [t|t|t k|t deps|t k deps|t k|t cl|t us|t k|t k v deps|t k|t k t'|t k|t|t|t rm| |k cl|k|]; try (apply L_ext; exact SI).
  - (* modify *)
    cbn [cstep] in E. dg E. apply idle_run in G. apply modify_spec in E.
    destruct E as (C1 & C2 & C3 & C4 & C5 & C6 & C7 & C8 & C9 & C10). destruct HH as [H1 H2].
    assert (PN : forall x v, lastv us x = Some v -> res s t x).
    { intros x v LV. destruct (C10 x v LV) as (p & w & P1 & P2 & P3). apply pinned_res; [exact G|]. exists p. auto. }
    assert (NONE : (forall x v, lastv us x = Some v -> pend s x = false) -> L (img s') = L (img s)).
    { intros N1. apply L_ext. intros x. rewrite SI. destruct (lastv us x) as [v|] eqn:LV; [|reflexivity]. rewrite (N1 x v LV). reflexivity. }
    destruct us as [|[k0 v0] us0] eqn:US.
    { apply NONE. intros x v. discriminate. }
    rewrite <- US in *. assert (exists v1, lastv us k0 = Some v1) as (v1 & LV1).
    { rewrite US. cbn. destruct (lastv us0 k0); [eauto|]. rewrite N.eqb_refl. eauto. }
    destruct (pend s k0) eqn:PK.
    + assert (ALL : forall x, res s t x -> pend s x = true). { intros x R. rewrite <- PK. eauto. }
      cbn in CT. destruct CT as [CT|CT].
      * apply NONE. intros x v LV. eauto.
      * rewrite <- (CT (img s)).
        -- apply L_ext. intros x. rewrite SI, upds_spec. destruct (lastv us x) as [v|] eqn:LV; [|reflexivity].
           rewrite (ALL x) by eauto. reflexivity.
        -- intros x PX. apply img_pend. apply ALL. apply pinned_res; assumption.
    + apply NONE. intros x v LV. rewrite <- PK. eauto.
  - (* remove *)
    cbn [cstep] in E. dg E. dg E. dg E. dg E. apply idle_run in G. apply owns_true in G1. clear E. destruct HH as [H1 H2].
    assert (RK : res s t k). { apply pinned_res; [exact G|]. exists p. auto. }
    destruct (pend s k) eqn:PK.
    + assert (ALL : forall x, res s t x -> pend s x = true). { intros x R. rewrite <- PK. eauto. }
      cbn in CT. destruct CT as [CT|CT].
      * rewrite (H2 t k CT RK) in PK. discriminate.
      * rewrite <- (CT (img s)).
        -- apply L_ext. intros x. rewrite SI. unfold fupd. destruct (N.eqb_spec x k) as [->|NX]; cbn; [rewrite PK; reflexivity|reflexivity].
        -- intros x PX. apply img_pend. apply ALL. apply pinned_res; assumption.
    + apply L_ext. intros x. rewrite SI. destruct (N.eqb_spec x k) as [->|NX]; cbn; [rewrite PK; reflexivity|reflexivity].
Qed.
End S.
Arguments res {V}. Arguments Hom {V}.
