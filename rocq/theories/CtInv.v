(** * Every step of the cachetable model keeps the invariant *)
From Coq Require Import List Bool NArith Lia.
From Verif Require Import Base CtModel CtSpec CtProofs.
Import ListNotations.
Local Open Scope N_scope.

Lemma idle_run : forall h, is_idle h = true -> h = TRun [].
Proof. intros [[|]| | |]; cbn; congruence. Qed.

Lemma trole_nil : forall k, trole k (TRun []) = RFree.
Proof. reflexivity. Qed.

Section S.
Variable V : Type.
Notation cst := (cst V).
Notation pair := (pair V).
Implicit Types s : cst.
Implicit Types p : pair.

Lemma owns_true : forall p t, owns p t = true -> p_lock p = Some t.
Proof. intros p t E. unfold owns in E. destruct (p_lock p) as [t'|]; [|discriminate]. apply N.eqb_eq in E. congruence. Qed.

Lemma Kat_frame : forall s s' x, Kat s x ->
  c_tab s' x = c_tab s x -> c_cur s' x = c_cur s x -> c_inp s' x = c_inp s x ->
  inl (c_ck s') x = inl (c_ck s) x -> running (c_ck s') = running (c_ck s) ->
  (forall p t, c_tab s x = Some p -> p_lock p = Some t -> trole x (c_thr s' t) = trole x (c_thr s t)) ->
  Kat s' x.
Proof.
  intros s s' x HK E1 E2 E3 E4 E5 E6 p T. rewrite E1 in T. rewrite E2, E3, E4, E5.
  replace (prole (c_thr s') x p) with (prole (c_thr s) x p); [exact (HK p T)|].
  unfold prole. destruct (p_lock p) as [t|] eqn:LK; [|reflexivity]. symmetry. eauto.
Qed.

Lemma img_frame : forall s s' x,
  c_tab s' x = c_tab s x -> c_cur s' x = c_cur s x -> c_inp s' x = c_inp s x ->
  (forall p t, c_tab s x = Some p -> p_lock p = Some t -> trole x (c_thr s' t) = trole x (c_thr s t)) ->
  img s' x = img s x.
Proof.
  intros s s' x E1 E2 E3 E6. unfold img. rewrite E1, E2, E3. destruct (c_tab s x) as [p|] eqn:T; [|reflexivity].
  f_equal. unfold prole. destruct (p_lock p) as [t|] eqn:LK; [|reflexivity]. eauto.
Qed.

Lemma Kat_here : forall s x p r c i l u, c_tab s x = Some p -> K p r c i l u ->
  prole (c_thr s) x p = r -> c_cur s x = c -> c_inp s x = i -> inl (c_ck s) x = l -> running (c_ck s) = u -> Kat s x.
Proof. intros s x p r c i l u T HK E1 E2 E3 E4 E5 p' T'. rewrite T in T'. injection T' as <-. subst. exact HK. Qed.

Lemma Kat_get : forall s x p t, Inv s -> c_tab s x = Some p -> p_lock p = Some t ->
  K p (trole x (c_thr s t)) (c_cur s x) (c_inp s x) (inl (c_ck s) x) (running (c_ck s)).
Proof. intros s x p t HI T LK. assert (H := I_K s HI x p T). unfold prole in H. rewrite LK in H. exact H. Qed.

Lemma Kat_get_un : forall s x p, Inv s -> c_tab s x = Some p -> p_lock p = None ->
  K p RUn (c_cur s x) (c_inp s x) (inl (c_ck s) x) (running (c_ck s)).
Proof. intros s x p HI T LK. assert (H := I_K s HI x p T). unfold prole in H. rewrite LK in H. exact H. Qed.

(** A step that changes the table at one page [k] already there, maybe the disk
    content of [k], and maybe the state of one thread. *)
Lemma inv_one : forall s s' k p p' t h,
  Inv s -> c_tab s k = Some p ->
  c_keys s' = c_keys s -> (forall x, c_tab s' x = fupd (c_tab s) k (Some p') x) ->
  (forall x, x <> k -> c_cur s' x = c_cur s x /\ c_inp s' x = c_inp s x /\ inl (c_ck s') x = inl (c_ck s) x) ->
  running (c_ck s') = running (c_ck s) ->
  (forall t', c_thr s' t' = fupd (c_thr s) t h t') ->
  (forall t', t' <> t -> In t' (c_exps s) -> In t' (c_exps s')) ->
  (forall x fc, h = TEvx x fc -> In t (c_exps s')) ->
  (forall todo, h = TRun todo -> NoDup todo) ->
  (forall x, x <> k -> trole x h = trole x (c_thr s t)) ->
  (trole k h <> RFree -> p_lock p' = Some t) ->
  (forall t', t' <> t -> p_lock p = Some t' -> trole k (c_thr s t') <> RFree -> p_lock p' = Some t') ->
  K p' (match p_lock p' with None => RUn | Some t' => if t' =? t then trole k h else trole k (c_thr s t') end)
     (c_cur s' k) (c_inp s' k) (inl (c_ck s') k) (running (c_ck s')) ->
  Inv s'.
Proof.
  intros s s' k p p' t h HI T E1 E2 E3 E4 E5 X1 X2 ND R1 R2 R3 HK. constructor.
  - intros x. rewrite E1, E2. unfold fupd. destruct (N.eqb_spec x k) as [E|NE].
    + subst x. rewrite (I_keys s HI). rewrite T. split; discriminate.
    + apply (I_keys s HI).
  - intros t' x. rewrite E5, E2. unfold fupd. destruct (N.eqb_spec t' t) as [E|NE].
    + subst t'. intros NR. destruct (N.eqb_spec x k) as [E|NX].
      * subst x. eauto.
      * rewrite R1 in NR by exact NX. exact (I_thr s HI t x NR).
    + intros NR. destruct (I_thr s HI t' x NR) as (q & Q1 & Q2). destruct (N.eqb_spec x k) as [E|NX]; [|eauto].
      subst x. rewrite T in Q1. injection Q1 as <-. eauto.
  - intros t' todo. rewrite E5. unfold fupd. destruct (N.eqb_spec t' t); [auto|apply (I_nodup s HI)].
  - intros t' x fc. rewrite E5. unfold fupd. destruct (N.eqb_spec t' t) as [E|NE]; [subst; eauto|].
    intros E. apply X1; [exact NE|]. exact (I_exps s HI t' x fc E).
  - intros x. destruct (N.eq_dec x k) as [E|NX].
    + subst x. eapply Kat_here; eauto; [rewrite E2; apply fupd_same|].
      unfold prole. destruct (p_lock p') as [t'|]; [|reflexivity].
      rewrite E5. unfold fupd. destruct (t' =? t); reflexivity.
    + destruct (E3 x NX) as (A & B & C). apply (Kat_frame s); auto using I_K.
      * rewrite E2. apply fupd_other. exact NX.
      * intros q t' Q1 Q2. rewrite E5. unfold fupd. destruct (N.eqb_spec t' t) as [E|]; [subst; auto|reflexivity].
Qed.

(** The thread map does not change. *)
Lemma fupd_id : forall A (f : N -> A) k x, fupd f k (f k) x = f x.
Proof. intros. unfold fupd. destruct (N.eqb_spec x k); congruence. Qed.

Lemma inv_one' : forall s s' k p p',
  Inv s -> c_tab s k = Some p ->
  c_keys s' = c_keys s -> (forall x, c_tab s' x = fupd (c_tab s) k (Some p') x) ->
  (forall x, x <> k -> c_cur s' x = c_cur s x /\ c_inp s' x = c_inp s x /\ inl (c_ck s') x = inl (c_ck s) x) ->
  running (c_ck s') = running (c_ck s) ->
  c_thr s' = c_thr s -> c_exps s' = c_exps s ->
  (forall t', p_lock p = Some t' -> trole k (c_thr s t') <> RFree -> p_lock p' = Some t') ->
  K p' (prole (c_thr s) k p') (c_cur s' k) (c_inp s' k) (inl (c_ck s') k) (running (c_ck s')) ->
  Inv s'.
Proof.
  intros s s' k p p' HI T E1 E2 E3 E4 E5 X1 R3 HK. constructor.
  - intros x. rewrite E1, E2. unfold fupd. destruct (N.eqb_spec x k) as [E|NE].
    + subst x. rewrite (I_keys s HI). rewrite T. split; discriminate.
    + apply (I_keys s HI).
  - intros t' x. rewrite E5, E2. unfold fupd.
    intros NR. destruct (I_thr s HI t' x NR) as (q & Q1 & Q2). destruct (N.eqb_spec x k) as [E|NX]; [|eauto].
    subst x. rewrite T in Q1. injection Q1 as <-. eauto.
  - intros t' todo. rewrite E5. apply (I_nodup s HI).
  - intros t' x fc. rewrite E5, X1. apply (I_exps s HI).
  - intros x. destruct (N.eq_dec x k) as [E|NX].
    + subst x. eapply Kat_here; eauto; [rewrite E2; apply fupd_same|]. rewrite E5. reflexivity.
    + destruct (E3 x NX) as (A & B & C). apply (Kat_frame s); auto using I_K.
      * rewrite E2. apply fupd_other. exact NX.
      * intros q t' Q1 Q2. rewrite E5. reflexivity.
Qed.

(** Removal of page [k]. *)
Lemma inv_rem : forall s s' k p t h,
  Inv s -> c_tab s k = Some p -> p_lock p = Some t ->
  c_keys s' = del k (c_keys s) -> c_tab s' = fupd (c_tab s) k None ->
  (forall x, x <> k -> c_cur s' x = c_cur s x /\ c_inp s' x = c_inp s x) ->
  c_ck s' = option_map (del k) (c_ck s) ->
  (forall t', c_thr s' t' = fupd (c_thr s) t h t') ->
  (forall t', t' <> t -> In t' (c_exps s) -> In t' (c_exps s')) ->
  h = TRun [] ->
  (forall x, x <> k -> trole x (c_thr s t) = RFree) ->
  Inv s'.
Proof.
  intros s s' k p t h HI T LK E1 E2 E3 E4 E5 X1 -> R1.
  assert (IL : forall x, x <> k -> inl (c_ck s') x = inl (c_ck s) x).
  { intros x NX. rewrite E4. destruct (c_ck s) as [l|]; cbn; [|reflexivity].
    destruct (mem x l) eqn:M.
    - apply mem_In. apply del_In. apply mem_In in M. auto.
    - apply mem_false. apply mem_false in M. rewrite del_In. tauto. }
  assert (RN : running (c_ck s') = running (c_ck s)). { rewrite E4. destruct (c_ck s); reflexivity. }
  constructor.
  - intros x. rewrite E1, E2, del_In. unfold fupd. destruct (N.eqb_spec x k) as [E|NE].
    + split; [tauto|congruence].
    + rewrite (I_keys s HI). tauto.
  - intros t' x. rewrite E5, E2. unfold fupd. destruct (N.eqb_spec t' t) as [E|NE].
    + cbn. congruence.
    + intros NR. destruct (I_thr s HI t' x NR) as (q & Q1 & Q2). destruct (N.eqb_spec x k) as [E|NX]; [|eauto].
      subst x. rewrite T in Q1. injection Q1 as <-. congruence.
  - intros t' todo. rewrite E5. unfold fupd. destruct (N.eqb_spec t' t); [intros [= <-]; constructor|apply (I_nodup s HI)].
  - intros t' x fc. rewrite E5. unfold fupd. destruct (N.eqb_spec t' t) as [E|NE]; [discriminate|].
    intros E. apply X1; [exact NE|]. exact (I_exps s HI t' x fc E).
  - intros x. destruct (N.eq_dec x k) as [E|NX].
    + subst x. intros q. rewrite E2, fupd_same. discriminate.
    + destruct (E3 x NX) as (A & B). apply (Kat_frame s); auto using I_K.
      * rewrite E2. apply fupd_other. exact NX.
      * intros q t' Q1 Q2. rewrite E5. unfold fupd. destruct (N.eqb_spec t' t) as [E|]; [subst; rewrite R1; auto|reflexivity].
Qed.

(** Clearing pending bits of pages of [t], then running with the list of those set. *)
Lemma inv_clear : forall s s' t ks todo,
  Inv s -> clear_bits s t ks = Some (s', todo) ->
  (forall k, trole k (c_thr s t) <> RFree -> In k ks) ->
  (forall k, In k ks -> trole k (c_thr s t) = RFree \/ trole k (c_thr s t) = RBusy) ->
  Inv (set_thr s' t (TRun todo)).
Proof.
  intros s s' t ks todo HI C A B. apply clear_bits_spec in C.
  destruct C as (C1 & C2 & C3 & C4 & C5 & C6 & C7 & C8 & C9 & C10 & C11 & C12).
  constructor; cbn.
  - intros k. rewrite C1, C9, (I_keys s HI). destruct (mem k ks); [|tauto]. destruct (c_tab s k); cbn; split; congruence.
  - intros t' k. rewrite C6, C9. unfold fupd. destruct (N.eqb_spec t' t) as [E|NE].
    + subst t'. cbn. destruct (mem k todo) eqn:M; [|congruence]. intros _. apply mem_In, C12 in M. destruct M as (I1 & _).
      destruct (C10 k I1) as (p & P1 & P2). assert (M : mem k ks = true) by (apply mem_In; exact I1). rewrite M, P1. cbn. eexists; split; [reflexivity|exact P2].
    + intros NR. destruct (I_thr s HI t' k NR) as (p & P1 & P2). rewrite P1. destruct (mem k ks) eqn:M; cbn; eexists; split; try reflexivity; exact P2.
  - intros t' td. rewrite C6. unfold fupd. destruct (N.eqb_spec t' t); [intros [= <-]; exact C11|apply (I_nodup s HI)].
  - intros t' k fc. rewrite C6, C8. unfold fupd. destruct (N.eqb_spec t' t); [discriminate|apply (I_exps s HI)].
  - intros k. destruct (mem k ks) eqn:M.
    + apply mem_In in M as I1. destruct (C10 k I1) as (p & P1 & P2).
      assert (HK := Kat_get s k p t HI P1 P2). apply K_resolve in HK; [|apply B; exact I1].
      eapply Kat_here; cbn; rewrite ?C9, ?M, ?P1, ?C6, ?C2, ?C3, ?C5; cbn; try reflexivity.
      unfold prole. cbn. rewrite P2, fupd_same. cbn.
      replace (if mem k todo then ROwed else RFree) with (if p_pend p then ROwed else RFree); [exact HK|].
      destruct (p_pend p) eqn:PP.
      * replace (mem k todo) with true; [reflexivity|]. symmetry. apply mem_In, C12. eauto.
      * replace (mem k todo) with false; [reflexivity|]. symmetry. apply mem_false. rewrite C12. intros (_ & q & Q1 & Q2). congruence.
    + apply (Kat_frame s); cbn; rewrite ?C9, ?M, ?C2, ?C3, ?C5, ?C6; auto using I_K.
      intros p t' P1 P2. unfold fupd. destruct (N.eqb_spec t' t) as [E|]; [|reflexivity]. subst t'. cbn.
      assert (NI : ~ In k ks) by (apply mem_false; exact M).
      replace (mem k todo) with false by (symmetry; apply mem_false; rewrite C12; tauto).
      destruct (trole k (c_thr s t)) eqn:TR; try reflexivity; exfalso; apply NI, A; rewrite TR; discriminate.
Qed.

(** Insertion of a new page locked by [t]. *)
Lemma inv_add : forall s k p t, Inv s -> c_tab s k = None -> c_thr s t = TRun [] -> p_lock p = Some t ->
  (forall l u c i, (l = true -> u = true) -> K p RFree c i l u) -> Inv (add_pair s k p).
Proof.
  intros s k p t HI T TH LK HK. constructor; cbn.
  - intros x. unfold fupd. destruct (N.eqb_spec x k) as [E|NE].
    + subst x. split; [discriminate|auto].
    + rewrite <- (I_keys s HI). intuition congruence.
  - intros t' x NR. unfold fupd. destruct (I_thr s HI t' x NR) as (q & Q1 & Q2). destruct (N.eqb_spec x k) as [E|]; [|eauto].
    subst x. congruence.
  - apply (I_nodup s HI).
  - apply (I_exps s HI).
  - intros x. destruct (N.eq_dec x k) as [E|NX].
    + subst x. eapply Kat_here with (r := RFree) (p := p); cbn; try reflexivity; [apply fupd_same| |].
      * apply HK. unfold inl, running. destruct (c_ck s); [reflexivity|congruence].
      * unfold prole. rewrite LK, TH. reflexivity.
    + apply (Kat_frame s); cbn; auto using I_K. apply fupd_other. exact NX.
Qed.

Ltac dg H := match type of H with
  | (if ?b then _ else None) = Some _ => let E := fresh "G" in destruct b eqn:E; [|discriminate H]
  | match ?b with Some _ => _ | None => None end = Some _ => let E := fresh "G" in destruct b eqn:E; [|discriminate H]
  end.

Lemma holds_none_sound : forall s t k p, Inv s -> holds_none s t = true -> c_tab s k = Some p -> p_lock p <> Some t.
Proof.
  intros s t k p HI E T LK. unfold holds_none in E. rewrite forallb_forall in E.
  assert (I1 : In k (c_keys s)) by (apply (I_keys s HI); congruence).
  specialize (E k I1). cbn beta in E. rewrite T in E. unfold owns in E. rewrite LK, N.eqb_refl in E. discriminate.
Qed.

Lemma no_clones_sound : forall s k p, Inv s -> no_clones s = true -> c_tab s k = Some p -> p_clone p = None.
Proof.
  intros s k p HI E T. unfold no_clones in E. rewrite forallb_forall in E.
  assert (I1 : In k (c_keys s)) by (apply (I_keys s HI); congruence).
  specialize (E k I1). cbn beta in E. rewrite T in E. destruct (p_clone p); congruence.
Qed.

(** A page in the part [RBusy] for the thread that is in [TEv] or [TEvx]. *)
Lemma ev_lock : forall s t k, Inv s -> (c_thr s t = TEv k \/ exists fc, c_thr s t = TEvx k fc) ->
  exists p, c_tab s k = Some p /\ p_lock p = Some t /\ (trole k (c_thr s t) = RBusy \/ exists fc, trole k (c_thr s t) = REv fc).
Proof.
  intros s t k HI E. destruct (I_thr s HI t k) as (p & P1 & P2).
  - destruct E as [E|(fc & E)]; rewrite E; cbn; rewrite N.eqb_refl; discriminate.
  - exists p. repeat split; auto. destruct E as [E|(fc & E)]; rewrite E; cbn; rewrite N.eqb_refl; eauto.
Qed.

Theorem step_inv : forall s o s', Inv s -> cstep s o = Some s' -> Inv s'.
Proof.
  intros s o s' HI E. destruct o as [t|t|t k|t deps|t k deps|t k|t cl|t us|t k|t k v deps|t k|t k t'|t k|t|t|t rm| |k cl|k|];
    cbn [cstep] in E.
  - dg E. injection E as <-. destruct HI as [A B C D F]. constructor; cbn; auto.
  - dg E. injection E as <-. destruct HI as [A B C D F]. constructor; cbn; auto.
  - (* lock *)
    dg E. dg E. dg E. apply idle_run in G. injection E as <-. destruct (p_lock p) as [|] eqn:LK; [discriminate|].
    eapply (inv_one s _ k p (with_lock p (Some t)) t (TLock k)); cbn; auto; try discriminate.
    + intros x NX. rewrite G. cbn. destruct (N.eqb_spec x k); congruence.
    + rewrite LK; intros; discriminate.
    + rewrite !N.eqb_refl. apply K_lock. apply Kat_get_un; auto.
  - (* resolve *)
    destruct (c_thr s t) as [|k| |] eqn:TH; try discriminate.
    destruct (clear_bits s t (k :: deps)) as [[s1 todo]|] eqn:C; [|discriminate]. injection E as <-.
    apply (inv_clear s s1 t (k :: deps)); auto; intros x; rewrite TH; cbn; destruct (N.eqb_spec x k); subst; auto; congruence.
  - (* miss *)
    dg E. dg E. dg E. apply idle_run in G. destruct (c_tab s k) eqn:T; [discriminate|].
    destruct (clear_bits _ t deps) as [[s1 todo]|] eqn:C; [|discriminate]. injection E as <-.
    apply (inv_clear _ s1 t deps todo) in C; auto.
    + apply (inv_add s k _ t); auto. intros. apply K_miss; auto.
    + intros x. cbn. rewrite G. cbn. congruence.
    + intros x. cbn. rewrite G. cbn. auto.
  - (* fetch *)
    dg E. dg E. apply owns_true in G0. destruct (p_val p) eqn:PV; [discriminate|]. dg E. injection E as <-.
    eapply (inv_one' s _ k p); cbn; auto.
    assert (HK := Kat_get s k p t HI G G0). unfold prole. cbn. rewrite G0. rewrite G1 in *.
    apply K_fetch in HK; auto.
  - (* write *)
    destruct (c_thr s t) as [[|k todo]| | |] eqn:TH; try discriminate.
    dg E. dg E. injection E as <-.
    destruct (I_thr s HI t k) as (q & Q1 & Q2); [rewrite TH; cbn; rewrite N.eqb_refl; discriminate|].
    rewrite G in Q1. injection Q1 as <-.
    assert (ND := I_nodup s HI t _ TH). inversion ND as [|a b ND1 ND2]; subst a b.
    destruct (wfc_sound _ _ _ _ _ _ G0 G) as (W1 & W2 & W3 & W4 & W5 & W6 & W7 & p' & W8 & W9 & W10 & W11).
    assert (HK := Kat_get s k p t HI G Q2). rewrite TH in HK. cbn in HK. rewrite N.eqb_refl in HK. cbn in HK.
    assert (PP : p_pend p = false) by (apply HK; reflexivity).
    assert (HK2 := K_write _ _ _ _ _ _ _ _ _ _ HK PP W11).
    assert (TB : forall x, c_tab c x = fupd (c_tab s) k (Some p') x).
    { intros x. unfold fupd. destruct (N.eqb_spec x k) as [EX|NX]; [subst x; exact W8|apply (proj1 (W7 x NX))]. }
    eapply (inv_one s _ k p p' t (TRun todo)); cbn; rewrite ?W1, ?W3, ?W4, ?W6; auto; try discriminate.
    + intros x NX. destruct (W7 x NX) as (_ & A & B). rewrite A, B. auto.
    + intros td [= <-]. exact ND2.
    + intros x NX. rewrite TH. cbn. destruct (N.eqb_spec x k); [congruence|reflexivity].
    + rewrite W9, Q2. reflexivity.
    + rewrite W9. auto.
    + rewrite W9, Q2, N.eqb_refl. replace (mem k todo) with false by (symmetry; apply mem_false; exact ND1). exact HK2.
  - (* modify *)
    dg E. apply idle_run in G. apply modify_spec in E.
    destruct E as (C1 & C2 & C3 & C4 & C5 & C6 & C7 & C8 & C9 & C10). constructor.
    + intros x. rewrite C1, C9, (I_keys s HI). destruct (lastv us x); [|tauto]. destruct (c_tab s x); cbn; split; congruence.
    + intros t' x. rewrite C6, C9. intros NR. destruct (I_thr s HI t' x NR) as (p & P1 & P2).
      rewrite P1. destruct (lastv us x); cbn; eexists; split; try reflexivity; exact P2.
    + rewrite C6. apply (I_nodup s HI).
    + rewrite C6, C8. apply (I_exps s HI).
    + intros x. destruct (lastv us x) as [v|] eqn:LV.
      * destruct (C10 x v LV) as (p & w & P1 & P2 & P3).
        assert (HK := Kat_get s x p t HI P1 P2). rewrite G in HK. apply K_mod with (v := v) in HK.
        eapply Kat_here; rewrite ?C9, ?LV, ?P1, ?C2, ?C3, ?C5; cbn; try reflexivity.
        unfold prole. cbn. rewrite P2, C6, G. exact HK.
      * apply (Kat_frame s); rewrite ?C9, ?LV, ?C2, ?C3, ?C5, ?C6; auto using I_K.
  - (* unpin *)
    dg E. dg E. dg E. dg E. injection E as <-. apply idle_run in G. apply owns_true in G1.
    destruct (p_val p) as [w|] eqn:PV; [|discriminate].
    eapply (inv_one' s _ k p); cbn; auto.
    + intros t' LK NR. rewrite G1 in LK. injection LK as <-. rewrite G in NR. cbn in NR. congruence.
    + unfold prole. cbn. apply K_unpin; [|congruence]. assert (HK := Kat_get s k p t HI G0 G1). rewrite G in HK. exact HK.
  - (* put *)
    dg E. dg E. dg E. apply idle_run in G. destruct (c_tab s k) eqn:T; [discriminate|].
    destruct (clear_bits _ t deps) as [[s1 todo]|] eqn:C; [|discriminate]. injection E as <-.
    apply (inv_clear _ s1 t deps todo) in C; auto.
    + apply (inv_add s k _ t); auto. intros. apply K_put; auto.
    + intros x. cbn. rewrite G. cbn. congruence.
    + intros x. cbn. rewrite G. cbn. auto.
  - (* remove *)
    dg E. dg E. dg E. dg E. injection E as <-. apply idle_run in G. apply owns_true in G1.
    eapply (inv_rem s _ k p t (TRun [])); cbn; auto.
    + intros x NX. rewrite fupd_other by exact NX. destruct (p_pend p); rewrite ?fupd_other by exact NX; auto.
    + intros t'. rewrite <- G. rewrite fupd_id. reflexivity.
    + intros x NX. rewrite G. reflexivity.
  - (* hand over *)
    dg E. dg E. dg E. injection E as <-. repeat (apply andb_true_iff in G as [G ?]). 
    apply idle_run in G. apply idle_run in H1. apply owns_true in G1.
    eapply (inv_one' s _ k p); cbn; auto.
    + intros t1 LK NR. rewrite G1 in LK. injection LK as <-. rewrite G in NR. cbn in NR. congruence.
    + unfold prole. cbn. rewrite H1. cbn. apply K_relock. assert (HK := Kat_get s k p t HI G0 G1). rewrite G in HK. exact HK.
  - (* evictor locks *)
    dg E. dg E. dg E. dg E. apply idle_run in G. injection E as <-. destruct (p_lock p) as [|] eqn:LK; [discriminate|].
    eapply (inv_one s _ k p (with_lock p (Some t)) t (TEv k)); cbn; auto; try discriminate.
    + intros x NX. rewrite G. cbn. destruct (N.eqb_spec x k); congruence.
    + rewrite LK; intros; discriminate.
    + rewrite !N.eqb_refl. apply K_lock. apply Kat_get_un; auto.
  - (* evictor starts on the writer thread *)
    destruct (c_thr s t) as [| |k|] eqn:TH; try discriminate. dg E. injection E as <-.
    destruct (ev_lock s t k HI (or_introl TH)) as (q & Q1 & Q2 & _). rewrite G in Q1. injection Q1 as <-.
    eapply (inv_one s _ k p (with_pend p false) t (TEvx k (p_pend p))); cbn; auto; try discriminate.
    + intros x NX. rewrite TH. cbn. destruct (N.eqb_spec x k); congruence.
    + rewrite Q2, !N.eqb_refl. assert (HK := Kat_get s k p t HI G Q2). rewrite TH in HK. cbn in HK. rewrite N.eqb_refl in HK.
      apply K_evstart. exact HK.
  - (* evictor writes *)
    destruct (c_thr s t) as [| | |k fc] eqn:TH; try discriminate. dg E. destruct (p_dirty p) eqn:D; [|discriminate].
    destruct (ev_lock s t k HI (or_intror (ex_intro _ fc TH))) as (q & Q1 & Q2 & _). rewrite G in Q1. injection Q1 as <-.
    unfold write_locked_pair in E. destruct (p_clone p) eqn:CL; [discriminate|]. rewrite D in E.
    destruct (p_val p) as [v|] eqn:PV; [|discriminate]. injection E as <-.
    eapply (inv_one' s _ k p (cleaned p None)); cbn; auto.
    + intros x NX. rewrite fupd_other by exact NX. destruct fc; rewrite ?fupd_other by exact NX; auto.
    + unfold prole. cbn. rewrite Q2, fupd_same. assert (HK := Kat_get s k p t HI G Q2). rewrite TH in *. cbn in *. rewrite N.eqb_refl in *.
      destruct fc; rewrite ?fupd_same.
      * exact (K_evwrite V p true v _ _ _ _ HK CL PV).
      * exact (K_evwrite V p false v _ _ _ _ HK CL PV).
  - (* evictor frees *)
    assert (EV : exists k, (c_thr s t = TEv k \/ exists fc, c_thr s t = TEvx k fc) /\
       (do q <- c_tab s k; guard negb (p_dirty q); guard (match p_clone q with None => true | Some _ => false end);
          let s1 := if rm then rem_pair s k else set_pair s k (with_lock q None) in
          let s2 := set_thr s1 t (TRun []) in
          Some (mkC (c_tab s2) (c_keys s2) (c_cur s2) (c_inp s2) (c_last s2) (c_ck s2) (c_thr s2) (c_users s2) (del t (c_exps s2)))) = Some s').
    { destruct (c_thr s t) as [| |k|k fc] eqn:TH; try discriminate; exists k; eauto. }
    clear E. destruct EV as (k & TH & E). cbv zeta in E. dg E. dg E. dg E. injection E as <-.
    destruct (ev_lock s t k HI TH) as (q & Q1 & Q2 & Q3). rewrite G in Q1. injection Q1 as <-.
    apply negb_true_iff in G0. destruct (p_clone p) eqn:CL; [discriminate|].
    assert (R1 : forall x, x <> k -> trole x (c_thr s t) = RFree).
    { intros x NX. destruct TH as [TH|(fc & TH)]; rewrite TH; cbn; destruct (N.eqb_spec x k); congruence. }
    destruct rm.
    + eapply (inv_rem s _ k p t (TRun [])); cbn; auto. intros t' NT I1. apply del_In. auto.
    + eapply (inv_one s _ k p (with_lock p None) t (TRun [])); cbn; auto; try discriminate; try congruence.
      * intros t' NT I1. apply del_In. auto.
      * intros td [= <-]. constructor.
      * intros x NX. rewrite R1; auto.
      * eapply K_evfree; [|exact G0|exact Q3]. apply Kat_get; auto.
  - (* begin *)
    dg E. dg E. injection E as <-. destruct (c_ck s) eqn:CK; [discriminate|].
    destruct (c_users s) as [|] eqn:US; [|discriminate]. destruct (c_exps s) as [|] eqn:EX; [|discriminate].
    constructor; cbn.
    + intros x. rewrite (I_keys s HI). destruct (c_tab s x); cbn; split; congruence.
    + intros t x NR. destruct (I_thr s HI t x NR) as (p & P1 & P2). rewrite P1. cbn. eexists; split; [reflexivity|exact P2].
    + apply (I_nodup s HI).
    + intros t x fc TH. assert (I1 := I_exps s HI t x fc TH). rewrite EX in I1. exact I1.
    + intros x p. cbn. destruct (c_tab s x) as [q|] eqn:T; cbn; [|discriminate]. intros [= <-].
      assert (HK := I_K s HI x q T). rewrite CK in HK. cbn in HK.
      replace (mem x (c_keys s)) with true by (symmetry; apply mem_In, (I_keys s HI); congruence).
      apply K_begin with (i := c_inp s x); [exact HK|].
      intros fc. unfold prole. cbn. destruct (p_lock q) as [t|]; [|discriminate]. intros R.
      assert (exists k, c_thr s t = TEvx k fc) as (k & TH).
      { destruct (c_thr s t) as [todo|k|k|k f]; cbn in R; [destruct (mem x todo)|destruct (x =? k)|destruct (x =? k)|destruct (x =? k)]; try discriminate.
        injection R as <-. eauto. }
      assert (I1 := I_exps s HI t k fc TH). rewrite EX in I1. exact I1.
  - (* the checkpoint thread takes a page *)
    dg E. dg E. dg E. dg E. dg E. dg E. injection E as <-. destruct (p_lock p) eqn:LK; [discriminate|].
    assert (IL : inl (c_ck s) k = true) by (rewrite G; exact G0).
    assert (HK := Kat_get_un s k p HI G1 LK). rewrite IL in HK.
    assert (WW : c_keys c = c_keys s /\ c_thr c = c_thr s /\ c_exps c = c_exps s /\
       (forall x, x <> k -> c_tab c x = c_tab s x /\ c_cur c x = c_cur s x /\ c_inp c x = c_inp s x) /\
       p_lock p0 = None /\ K (with_pend p0 false) RUn (c_cur c k) (c_inp c k) false (running (c_ck s))).
    { destruct (p_pend p) eqn:PP.
      - destruct (wfc_sound _ _ _ _ _ _ G3 G1) as (W1 & W2 & W3 & W4 & W5 & W6 & W7 & p' & W8 & W9 & W10 & W11).
        rewrite G4 in W8. injection W8 as <-. rewrite W9. repeat (split; [assumption|]). eapply K_ckpair_pend; eauto.
      - injection G3 as <-. rewrite G1 in G4. injection G4 as <-. do 5 (split; [auto|]). eapply K_ckpair_not; eauto. }
    destruct WW as (W1 & W4 & W6 & W7 & LK0 & HK2).
    eapply (inv_one' s _ k p (with_pend p0 false)); cbn; rewrite ?W1, ?W4, ?W6, ?G; auto.
    + intros x. unfold fupd. destruct (N.eqb_spec x k); [reflexivity|]. apply W7. assumption.
    + intros x NX. destruct (W7 x NX) as (_ & A & B). rewrite A, B. repeat split; auto.
      cbn. destruct (mem x l) eqn:M.
      * apply mem_In. apply del_In. apply mem_In in M. auto.
      * apply mem_false. apply mem_false in M. rewrite del_In. tauto.
    + intros t'. congruence.
    + replace (mem k (del k l)) with false by (symmetry; apply mem_false; rewrite del_In; tauto).
      unfold prole. cbn. rewrite LK0. rewrite G in HK2. exact HK2.
  - (* a clone is written *)
    dg E. destruct (p_clone p) as [w|] eqn:CL; [|discriminate]. injection E as <-.
    eapply (inv_one' s _ k p); cbn; auto.
    + intros x NX. rewrite !fupd_other by exact NX. auto.
    + rewrite !fupd_same. eapply K_clone; [|exact CL]. exact (I_K s HI k p G).
  - (* end *)
    dg E. dg E. injection E as <-. apply andb_true_iff in G0 as [G0 NC]. destruct l; [|discriminate].
    destruct HI as [A B C D F]. constructor; cbn; auto.
    intros x p T. cbn in *. assert (HK := F x p T). rewrite G in HK. cbn in HK. apply K_end in HK; [exact HK|].
    eapply no_clones_sound; eauto. constructor; auto.
Qed.
End S.
