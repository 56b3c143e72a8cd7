(** * A page with its bit still set that a client has pinned was pinned before the bit was set *)
From Coq Require Import List Bool NArith Lia.
From Verif Require Import Base CtModel CtSpec CtProofs CtInv CtImg CtCut.
Import ListNotations.
Local Open Scope N_scope.

Section S.
Variable V : Type.
Notation cst := (cst V).
Notation pair := (pair V).

Ltac dg H := match type of H with
  | (if ?b then _ else None) = Some _ => let E := fresh "G" in destruct b eqn:E; [|discriminate H]
  | match ?b with Some _ => _ | None => None end = Some _ => let E := fresh "G" in destruct b eqn:E; [|discriminate H]
  end.

(** [x] is pinned by a client and its bit is set. *)
Definition pp (s : cst) (x : ckey) : Prop := exists t, res s t x /\ pend s x = true.

Lemma pp_one : forall (s s' : cst) k x,
  (forall y, y <> k -> c_tab s' y = c_tab s y) ->
  (forall t y p, y <> k -> c_tab s y = Some p -> p_lock p = Some t -> trole y (c_thr s' t) = trole y (c_thr s t)) ->
  (pp s' k -> pp s k) -> pp s' x -> pp s x.
Proof.
  intros s s' k x A B C P. destruct (N.eq_dec x k) as [->|NX]; [auto|].
  destruct P as (t & (p & P1 & P2 & P3) & P4). exists t. unfold res, pend in *. rewrite A in * by exact NX.
  rewrite P1 in *. split; [|exact P4]. exists p. rewrite <- (B t x p) by auto. auto.
Qed.

Lemma pp_clear : forall (s s' : cst) t ks todo x, clear_bits s t ks = Some (s', todo) ->
  (forall k, trole k (c_thr s t) <> RFree -> In k ks) ->
  pp (set_thr s' t (TRun todo)) x -> pp s x.
Proof.
  intros s s' t ks todo x C A (t' & (p & P1 & P2 & P3) & P4). apply clear_bits_spec in C.
  destruct C as (C1 & C2 & C3 & C4 & C5 & C6 & C7 & C8 & C9 & C10 & C11 & C12).
  unfold pend in P4. cbn in *. rewrite C9 in *. destruct (mem x ks) eqn:M.
  - destruct (c_tab s x); discriminate.
  - exists t'. unfold res, pend. rewrite P1 in *. split; [|exact P4]. exists p. repeat split; auto.
    rewrite C6 in P3. unfold fupd in P3. destruct (N.eqb_spec t' t) as [->|]; [|exact P3].
    left. destruct (trole x (c_thr s t)) eqn:TR; try reflexivity; exfalso; apply mem_false in M; apply M, A; rewrite TR; discriminate.
Qed.

Theorem step_pp : forall (s s' : cst) o x, Inv s -> cstep s o = Some s' -> o <> OBegin -> pp s' x -> pp s x.
Proof.
  intros s s' o x HI E NB.
  destruct o as [t|t|t k|t deps|t k deps|t k|t cl|t us|t k|t k v deps|t k|t k t'|t k|t|t|t rm| |k cl|k|];
    cbn [cstep] in E; try congruence.
  - dg E. injection E as <-. auto.
  - dg E. injection E as <-. auto.
  - dg E. dg E. dg E. apply idle_run in G. injection E as <-. apply (pp_one s _ k); cbn.
    + intros y NX. apply fupd_other. exact NX.
    + intros t' y q NX Q1 Q2. unfold fupd. destruct (N.eqb_spec t' t) as [->|]; [|reflexivity].
      rewrite G. cbn. destruct (N.eqb_spec y k); congruence.
    + intros (t' & (q & Q1 & Q2 & Q3) & Q4). cbn in *. rewrite fupd_same in Q1. injection Q1 as <-. cbn in Q2. injection Q2 as <-.
      rewrite fupd_same in Q3. cbn in Q3. rewrite N.eqb_refl in Q3. destruct Q3; discriminate.
  - destruct (c_thr s t) as [|k| |] eqn:TH; try discriminate.
    destruct (clear_bits s t (k :: deps)) as [[s1 todo]|] eqn:C; [|discriminate]. injection E as <-.
    eapply pp_clear; [exact C|]. intros y. rewrite TH. cbn. destruct (N.eqb_spec y k); [auto|congruence].
  - dg E. dg E. dg E. apply idle_run in G. destruct (c_tab s k) eqn:T; [discriminate|].
    destruct (clear_bits _ t deps) as [[s1 todo]|] eqn:C; [|discriminate]. injection E as <-.
    intros P. eapply pp_clear in P; [|exact C|cbn; rewrite G; cbn; congruence]. revert P.
    apply (pp_one s _ k); cbn; auto.
    + intros y NX. apply fupd_other. exact NX.
    + intros (t' & _ & Q4). unfold pend in Q4. cbn in Q4. rewrite fupd_same in Q4. discriminate.
  - dg E. dg E. destruct (p_val p) eqn:PV; [discriminate|]. dg E. injection E as <-. apply (pp_one s _ k); cbn; auto.
    + intros y NX. apply fupd_other. exact NX.
    + intros (t' & (q & Q1 & Q2 & Q3) & Q4). unfold pend in Q4. cbn in *. rewrite fupd_same in *. injection Q1 as <-. cbn in *.
      exists t'. unfold res, pend. rewrite G. split; [exists p; auto|exact Q4].
  - destruct (c_thr s t) as [[|k todo]| | |] eqn:TH; try discriminate.
    dg E. dg E. injection E as <-.
    destruct (I_thr s HI t k) as (q & Q1 & Q2); [rewrite TH; cbn; rewrite N.eqb_refl; discriminate|].
    rewrite G in Q1. injection Q1 as <-.
    destruct (wfc_sound _ _ _ _ _ _ G0 G) as (W1 & W2 & W3 & W4 & W5 & W6 & W7 & p' & W8 & W9 & W10 & W11).
    apply (pp_one s _ k); cbn.
    + intros y NX. apply W7. exact NX.
    + intros t' y q NX Q1 Q3. rewrite W4. unfold fupd. destruct (N.eqb_spec t' t) as [->|]; [|reflexivity].
      rewrite TH. cbn. destruct (N.eqb_spec y k); [congruence|reflexivity].
    + intros (t' & _ & Q4). unfold pend in Q4. cbn in Q4. rewrite W8, W10 in Q4.
      assert (HK := Kat_get V s k p t HI G Q2). rewrite TH in HK. cbn in HK. rewrite N.eqb_refl in HK.
      assert (p_pend p = false) by (apply HK; reflexivity). congruence.
  - dg E. apply modify_spec in E. destruct E as (C1 & C2 & C3 & C4 & C5 & C6 & C7 & C8 & C9 & C10).
    intros (t' & (q & Q1 & Q2 & Q3) & Q4). unfold pend in Q4. rewrite C9 in *. rewrite C6 in Q3. exists t'. unfold res, pend.
    destruct (lastv us x); [|rewrite Q1 in *; split; [exists q; auto|exact Q4]].
    destruct (c_tab s x) as [q'|]; [|discriminate]. cbn in *. injection Q1 as <-. split; [exists q'; auto|exact Q4].
  - dg E. dg E. dg E. dg E. injection E as <-. apply (pp_one s _ k); cbn; auto.
    + intros y NX. apply fupd_other. exact NX.
    + intros (t' & (q & Q1 & Q2 & Q3) & Q4). cbn in *. rewrite fupd_same in Q1. injection Q1 as <-. discriminate.
  - dg E. dg E. dg E. apply idle_run in G. destruct (c_tab s k) eqn:T; [discriminate|].
    destruct (clear_bits _ t deps) as [[s1 todo]|] eqn:C; [|discriminate]. injection E as <-.
    intros P. eapply pp_clear in P; [|exact C|cbn; rewrite G; cbn; congruence]. revert P.
    apply (pp_one s _ k); cbn; auto.
    + intros y NX. apply fupd_other. exact NX.
    + intros (t' & _ & Q4). unfold pend in Q4. cbn in Q4. rewrite fupd_same in Q4. discriminate.
  - dg E. dg E. dg E. dg E. injection E as <-. apply (pp_one s _ k); cbn; auto.
    + intros y NX. apply fupd_other. exact NX.
    + intros (t' & (q & Q1 & Q2 & Q3) & Q4). cbn in *. rewrite fupd_same in Q1. discriminate.
  - dg E. dg E. dg E. injection E as <-. apply andb_true_iff in G as [G NU]. apply andb_true_iff in G as [G HN]. apply andb_true_iff in G as [G GT].
    apply idle_run in G. apply owns_true in G1. apply (pp_one s _ k); cbn; auto.
    + intros y NX. apply fupd_other. exact NX.
    + intros (t1 & (q & Q1 & Q2 & Q3) & Q4). unfold pend in Q4. cbn in *. rewrite fupd_same in *. injection Q1 as <-. cbn in *.
      exists t. unfold res, pend. rewrite G0, G. split; [exists p; auto|exact Q4].
  - dg E. dg E. dg E. dg E. apply idle_run in G. injection E as <-. apply (pp_one s _ k); cbn.
    + intros y NX. apply fupd_other. exact NX.
    + intros t' y q NX Q1 Q2. unfold fupd. destruct (N.eqb_spec t' t) as [->|]; [|reflexivity].
      rewrite G. cbn. destruct (N.eqb_spec y k); congruence.
    + intros (t' & (q & Q1 & Q2 & Q3) & Q4). cbn in *. rewrite fupd_same in Q1. injection Q1 as <-. cbn in Q2. injection Q2 as <-.
      rewrite fupd_same in Q3. cbn in Q3. rewrite N.eqb_refl in Q3. destruct Q3; discriminate.
  - destruct (c_thr s t) as [| |k|] eqn:TH; try discriminate. dg E. injection E as <-. apply (pp_one s _ k); cbn.
    + intros y NX. apply fupd_other. exact NX.
    + intros t' y q NX R1 R2. unfold fupd. destruct (N.eqb_spec t' t) as [->|]; [|reflexivity].
      rewrite TH. cbn. destruct (N.eqb_spec y k); congruence.
    + intros (t' & _ & Q4). unfold pend in Q4. cbn in Q4. rewrite fupd_same in Q4. discriminate.
  - destruct (c_thr s t) as [| | |k fc] eqn:TH; try discriminate. dg E. destruct (p_dirty p) eqn:D; [|discriminate].
    unfold write_locked_pair in E. destruct (p_clone p) eqn:CL; [discriminate|]. rewrite D in E.
    destruct (p_val p) as [v|] eqn:PV; [|discriminate]. injection E as <-. apply (pp_one s _ k); cbn; auto.
    + intros y NX. apply fupd_other. exact NX.
    + intros (t' & (q & Q1 & Q2 & Q3) & Q4). unfold pend in Q4. cbn in *. rewrite fupd_same in *. injection Q1 as <-. cbn in *.
      exists t'. unfold res, pend. rewrite G. split; [exists p; auto|exact Q4].
  - assert (EV : exists k, (c_thr s t = TEv k \/ exists fc, c_thr s t = TEvx k fc) /\
       (do q <- c_tab s k; guard negb (p_dirty q); guard (match p_clone q with None => true | Some _ => false end);
          let s1 := if rm then rem_pair s k else set_pair s k (with_lock q None) in
          let s2 := set_thr s1 t (TRun []) in
          Some (mkC (c_tab s2) (c_keys s2) (c_cur s2) (c_inp s2) (c_last s2) (c_ck s2) (c_thr s2) (c_users s2) (del t (c_exps s2)))) = Some s').
    { destruct (c_thr s t) as [| |k|k fc] eqn:TH; try discriminate; exists k; eauto. }
    clear E. destruct EV as (k & TH & E). cbv zeta in E. dg E. dg E. dg E. injection E as <-.
    assert (R1 : forall y, y <> k -> trole y (c_thr s t) = RFree).
    { intros y NX. destruct TH as [TH|(fc & TH)]; rewrite TH; cbn; destruct (N.eqb_spec y k); congruence. }
    apply (pp_one s _ k); cbn; auto.
    + intros y NX. destruct rm; cbn; apply fupd_other; exact NX.
    + intros t' y q NX Q1 Q2. destruct rm; cbn; unfold fupd; (destruct (N.eqb_spec t' t) as [->|]; [rewrite R1; auto|reflexivity]).
    + intros (t' & (q & Q1 & Q2 & Q3) & Q4). destruct rm; cbn in *; rewrite fupd_same in Q1; [discriminate|]. injection Q1 as <-. discriminate.
  - dg E. dg E. dg E. dg E. dg E. dg E. injection E as <-. destruct (p_lock p) eqn:LK; [discriminate|].
    assert (WW : c_thr c = c_thr s /\ (forall y, y <> k -> c_tab c y = c_tab s y)).
    { destruct (p_pend p) eqn:PP.
      - destruct (wfc_sound _ _ _ _ _ _ G3 G1) as (W1 & W2 & W3 & W4 & W5 & W6 & W7 & _). split; [exact W4|]. intros y NY. apply W7. exact NY.
      - injection G3 as <-. auto. }
    destruct WW as (W4 & W7). apply (pp_one s _ k); cbn.
    + intros y NX. rewrite fupd_other by exact NX. auto.
    + intros t' y q NX Q1 Q2. rewrite W4. reflexivity.
    + intros (t' & _ & Q4). unfold pend in Q4. cbn in Q4. rewrite fupd_same in Q4. discriminate.
  - dg E. destruct (p_clone p) as [w|] eqn:CL; [|discriminate]. injection E as <-. apply (pp_one s _ k); cbn; auto.
    + intros y NX. apply fupd_other. exact NX.
    + intros (t' & (q & Q1 & Q2 & Q3) & Q4). unfold pend in Q4. cbn in *. rewrite fupd_same in *. injection Q1 as <-. cbn in *.
      exists t'. unfold res, pend. rewrite G. split; [exists p; auto|exact Q4].
  - dg E. dg E. injection E as <-. auto.
Qed.
End S.
Arguments pp {V}.
