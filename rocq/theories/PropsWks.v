(** C63: the shared set of work. *)
From Coq Require Import ZArith Permutation.
From Verif Require Import Base WksModel.

(** ** Lemmas *)
Fixpoint doing (w : list wk) : list nat := match w with [] => [] | KDo j :: r => j :: doing r | _ :: r => doing r end.
Definition doing_main (m : caller) : list nat := match m with MWork k => doing [k] | _ => [] end.
Definition live1 (k : wk) : Z := match k with KGone => 0 | _ => 1 end.
Fixpoint live (w : list wk) : Z := match w with [] => 0%Z | k :: r => (live1 k + live r)%Z end.
(** A thread has seen the set empty. *)
Definition leaving (k : wk) : Prop := k = KRel \/ k = KGone.

Lemma doing_app a b : doing (a ++ b) = doing a ++ doing b.
Proof. induction a as [|[] a IH]; cbn; auto. f_equal. auto. Qed.
Lemma doing_set w : forall i x y, nth_error w i = Some y -> Permutation (doing (kset w i x) ++ doing [y]) (doing w ++ doing [x]).
Proof.
  induction w as [|a w IH]; intros [|i] x y E; cbn [nth_error kset] in *; try discriminate.
  - injection E as ->. change (doing (x :: w)) with (doing ([x] ++ w)). change (doing (y :: w)) with (doing ([y] ++ w)).
    rewrite !doing_app. rewrite Permutation_app_comm. rewrite app_assoc, <- !app_assoc. apply Permutation_app_head, Permutation_app_comm.
  - specialize (IH i x y E). destruct a; cbn [doing]; auto. cbn [app]. constructor. auto.
Qed.
Lemma live_set w : forall i x y, nth_error w i = Some y -> (live (kset w i x) + live1 y = live w + live1 x)%Z.
Proof. induction w as [|a w IH]; intros [|i] x y E; cbn [nth_error kset live] in *; try discriminate; [injection E as ->; lia|]. specialize (IH i x y E). lia. Qed.
Lemma live_app a b : live (a ++ b) = (live a + live b)%Z.
Proof. induction a; cbn [app live]; lia. Qed.
Lemma live_pos w : (0 <= live w <= Z.of_nat (length w))%Z.
Proof. induction w as [|[] w IH]; cbn [live live1 length] in *; lia. Qed.
Lemma kset_len w : forall i x, length (kset w i x) = length w.
Proof. induction w as [|a w IH]; intros [|i] x; cbn; auto. Qed.
Lemma kset_in w : forall i x z, In z (kset w i x) -> z = x \/ In z w.
Proof. induction w as [|a w IH]; intros [|i] x z J; cbn in *; auto; destruct J as [J|J]; auto. apply IH in J. tauto. Qed.

(** What a thread's own step does to items, work and references. *)
Lemma wk_step_spec items refs k items1 refs1 b k1 dn : wk_step items refs k = Some (items1, refs1, b, k1, dn) ->
  Permutation (items1 ++ doing [k1] ++ dn) (items ++ doing [k]) /\ (refs1 = refs - live1 k + live1 k1)%Z /\
  (b = (refs1 =? 0)%Z \/ (b = false /\ refs1 = refs)) /\ k <> KGone /\ (items = [] -> items1 = []) /\
  (leaving k1 -> items1 = []  \/ leaving k).
Proof.
  destruct k as [|j| |]; cbn [wk_step]; intros E; try discriminate.
  - destruct items as [|j r]; injection E as <- <- <- <- <-; cbn [doing app live1]; repeat split; auto; try lia; try discriminate; try congruence.
    + rewrite !app_nil_r. symmetry. apply Permutation_cons_append.
    + intros [X|X]; discriminate.
  - injection E as <- <- <- <- <-. cbn [doing app live1]. repeat split; auto; try lia; try discriminate. intros [X|X]; discriminate.
  - injection E as <- <- <- <- <-. cbn [doing app live1]. repeat split; auto; try lia; try discriminate. intros _. right. left. auto.
Qed.

Definition refs_ok (s : ws) : Prop :=
  (match ws_main s with
  | MStart => ws_refs s = 1 - Z.of_nat (length (ws_w s)) + live (ws_w s)
  | MWork k => k <> KGone /\ ws_refs s = 1 + live (ws_w s)
  | MJoin => ws_refs s = live (ws_w s)
  | MSleep => ws_refs s = live (ws_w s) /\ ws_refs s <> 0
  | MPast => ws_refs s = 0 /\ live (ws_w s) = 0
  end)%Z.
Record wsinv (all : list nat) (s : ws) : Prop := {
  wi_work : Permutation (ws_items s ++ doing_main (ws_main s) ++ doing (ws_w s) ++ ws_done s) all;
  wi_refs : refs_ok s;
  wi_main : match ws_main s with MStart => True | MWork k => leaving k -> ws_items s = [] | _ => ws_items s = [] end }.

Lemma init_wsinv all : wsinv all (ws_init all).
Proof.
  split; [|unfold refs_ok|]; cbn [ws_init ws_items ws_refs ws_main ws_w ws_done doing_main doing app live length]; auto; try lia. rewrite app_nil_r. auto.
Qed.

Lemma step_wsinv all s e s1 : wsinv all s -> ws_step s e = Some s1 -> wsinv all s1.
Proof.
  intros [I1 I2 I3] X. unfold refs_ok in I2. destruct e as [| | |i|]; cbn [ws_step] in X.
  - destruct (ws_main s) eqn:M; try discriminate. injection X as <-. split; cbn [ws_items ws_refs ws_main ws_w ws_done]; auto.
    + rewrite doing_app. cbn [doing]. rewrite app_nil_r. auto.
    + unfold refs_ok. cbn [ws_items ws_refs ws_main ws_w ws_done]. rewrite live_app, app_length. cbn [live live1 length]. lia.
  - destruct (ws_main s) eqn:M; try discriminate. injection X as <-. split; cbn [ws_items ws_refs ws_main ws_w ws_done]; auto.
    + unfold refs_ok. cbn [ws_items ws_refs ws_main ws_w ws_done]. split; [discriminate|lia].
    + intros [H|H]; discriminate.
  - destruct (ws_main s) as [|k| | |] eqn:M; try discriminate.
    + destruct (wk_step (ws_items s) (ws_refs s) k) as [[[[[items refs] b] k1] dn]|] eqn:E; [|discriminate]. injection X as <-.
      apply wk_step_spec in E. destruct E as (E1 & E2 & _ & E4 & E5 & E6).
      assert (DM : doing_main (match k1 with KGone => MJoin | _ => MWork k1 end) = doing [k1]) by (destruct k1; auto).
      split; cbn [ws_items ws_refs ws_main ws_w ws_done].
      * rewrite DM, <- I1. cbn [doing_main].
        rewrite (app_assoc (ws_items s)). rewrite <- E1. rewrite <- !app_assoc. do 2 apply Permutation_app_head.
        rewrite (Permutation_app_comm dn (doing (ws_w s) ++ ws_done s)). rewrite <- app_assoc. auto.
      * destruct I2 as [_ I2]. unfold refs_ok. cbn [ws_items ws_refs ws_main ws_w ws_done].
        destruct k; try congruence; destruct k1; cbn [live1] in E2; try (split; [discriminate|lia]); lia.
      * assert (LV : leaving k1 -> items = []) by (intros H; destruct (E6 H) as [H1|H1]; auto).
        destruct k1; auto; apply LV; unfold leaving; auto.
    + injection X as <-. split; cbn [ws_items ws_refs ws_main ws_w ws_done]; auto.
      * destruct (ws_refs s =? 0)%Z; auto.
      * unfold refs_ok. cbn [ws_items ws_refs ws_main ws_w ws_done]. destruct (Z.eqb_spec (ws_refs s) 0); lia.
      * destruct (ws_refs s =? 0)%Z; auto.
  - destruct (nth_error (ws_w s) i) as [k|] eqn:N; [|discriminate].
    destruct (wk_step (ws_items s) (ws_refs s) k) as [[[[[items refs] b] k1] dn]|] eqn:E; [|discriminate]. injection X as <-.
    apply wk_step_spec in E. destruct E as (E1 & E2 & E3 & E4 & E5 & E6).
    pose proof (live_set _ _ k1 _ N) as LS. pose proof (doing_set _ _ k1 _ N) as DS. pose proof (live_pos (kset (ws_w s) i k1)) as LP.
    assert (DM : doing_main (wake b (ws_main s)) = doing_main (ws_main s)) by (destruct (ws_main s), b; auto).
    split; cbn [ws_items ws_refs ws_main ws_w ws_done].
    + rewrite DM, <- I1.
      (* count occurrences *)
      apply (Permutation_count_occ Nat.eq_dec). intros x.
      pose proof (proj1 (Permutation_count_occ Nat.eq_dec _ _) E1 x) as C1. pose proof (proj1 (Permutation_count_occ Nat.eq_dec _ _) DS x) as C2.
      rewrite !count_occ_app in *. lia.
    + unfold refs_ok. cbn [ws_items ws_refs ws_main ws_w ws_done]. rewrite kset_len.
      assert (R : (refs - live (kset (ws_w s) i k1) = ws_refs s - live (ws_w s))%Z) by lia.
      destruct (ws_main s) as [|k0| | |]; cbn [wake]; try lia.
      * destruct I2. split; auto. lia.
      * assert (P1 : live1 k = 1%Z) by (destruct k; cbn [live1]; congruence). assert (P2 : (0 <= live1 k1)%Z) by (destruct k1; cbn; lia).
        destruct I2 as [I2 I4]. assert (LB : forall w, nth_error w i = Some k -> (live1 k <= live w)%Z).
        { clear. revert i. intros i w. revert i. induction w as [|a w IH]; intros [|i] E; cbn in *; try discriminate.
          - injection E as ->. pose proof (live_pos w). lia.
          - specialize (IH i E). destruct a; cbn [live1]; lia. }
        specialize (LB _ N). lia.
    + destruct (ws_main s) as [|k0| | |]; cbn [wake]; auto; destruct b; auto.
  - destruct (ws_main s) eqn:M; try discriminate. injection X as <-. split; cbn [ws_items ws_refs ws_main ws_w ws_done]; auto.
    unfold refs_ok. cbn [ws_items ws_refs ws_main ws_w ws_done]. lia.
Qed.
Lemma run_wsinv all es : forall s s1, wsinv all s -> ws_run s es = Some s1 -> wsinv all s1.
Proof.
  induction es as [|e es IH]; intros s s1 I X; cbn [ws_run] in X; [injection X as <-; auto|].
  destruct (ws_step s e) as [s2|] eqn:E; [|discriminate]. apply (IH s2); auto. eapply step_wsinv; eauto.
Qed.
Lemma live0 w : live w = 0%Z -> Forall (fun k => k = KGone) w.
Proof.
  induction w as [|k w IH]; intros H; cbn [live] in H; [constructor|]. pose proof (live_pos w). destruct k; cbn [live1] in H; try lia. constructor; auto.
Qed.

(** ** The theorems *)

(** When the caller is past workset_join every piece of work has been done exactly once
    and every worker has let go of the set for good: even if workers took, did and
    released before their references were added. *)
Theorem C63_join : forall items es s, ws_run (ws_init items) es = Some s -> ws_main s = MPast ->
  Permutation (ws_done s) items /\ ws_items s = [] /\ Forall (fun k => k = KGone) (ws_w s) /\
  forall e, ws_step s e = None.
Proof.
  intros items es s X M. destruct (run_wsinv items es _ s (init_wsinv items) X) as [I1 I2 I3]. unfold refs_ok in I2. rewrite M in *.
  destruct I2 as [_ I2]. pose proof (live0 _ I2) as G.
  assert (D : doing (ws_w s) = []) by (clear - G; induction (ws_w s) as [|k w IH]; auto; inversion G; subst; cbn; auto).
  rewrite I3, D in I1. cbn [app doing_main] in I1. split; auto. split; auto. split; auto.
  intros e. destruct e as [| | |i|]; cbn [ws_step]; rewrite ?M; auto. destruct (nth_error (ws_w s) i) as [k|] eqn:N; auto.
  apply nth_error_In in N. rewrite Forall_forall in G. rewrite (G _ N). auto.
Qed.
Print Assumptions C63_join.

(** No lost wake-up: until then some thread can go on without being woken by chance. *)
Theorem C63_progress : forall items es s, ws_run (ws_init items) es = Some s -> ws_main s <> MPast ->
  exists e s1, e <> VSpur /\ e <> VStart /\ ws_step s e = Some s1.
Proof.
  intros items es s X M. destruct (run_wsinv items es _ s (init_wsinv items) X) as [I1 I2 I3]. unfold refs_ok in I2.
  destruct (ws_main s) as [|k| | |] eqn:E; [| | | |congruence].
  - exists VAddRef. cbn [ws_step]. rewrite E. eexists. repeat split; discriminate.
  - exists VMain. cbn [ws_step]. rewrite E. destruct I2 as [I2 _].
    destruct k; cbn [wk_step]; [destruct (ws_items s)| | |congruence]; eexists; repeat split; discriminate.
  - exists VMain. cbn [ws_step]. rewrite E. eexists. repeat split; discriminate.
  - destruct I2 as [I2 I4].
    assert (exists i k, nth_error (ws_w s) i = Some k /\ k <> KGone) as (i & k & N & G).
    { rewrite I2 in I4. clear - I4. induction (ws_w s) as [|k w IH]; cbn [live] in I4; [lia|].
      destruct k; try (exists 0; eexists; split; [reflexivity|discriminate]). destruct IH as (i & k & N & G); [cbn [live1] in I4; lia|]. exists (S i), k. auto. }
    exists (VWorker i). cbn [ws_step]. rewrite N.
    destruct k; cbn [wk_step]; [destruct (ws_items s)| | |congruence]; eexists; repeat split; discriminate.
Qed.
Print Assumptions C63_progress.

(** Two workers, one of which is done before its reference is added. *)
Example c63_ex : exists s, ws_run (ws_init [5; 6; 7])
  [VStart; VStart; VWorker 0; VWorker 0; VWorker 0; VWorker 1; VWorker 1; VWorker 0; VWorker 0; VWorker 0; VWorker 1; VAddRef; VMain; VMain; VMain;
   VWorker 1; VMain] = Some s /\ ws_main s = MPast /\ ws_done s = [5; 7; 6].
Proof. eexists. split; [vm_compute; reflexivity|]. split; reflexivity. Qed.
