(** Escalation of the locks of one dictionary, on the list of locks. *)
From Coq Require Import Sorting.Sorted Sorting.Permutation.
From Verif Require Import Base Bytes LtTreeModel RangeBufModel LtModel LtSpec LtTreeProofs RangeBufProofs LtProofs.
Open Scope N_scope.

Definition tends (e : rlock) : ep * ep * txnid := (ends (fst e), snd e).

Section Fop.
Context {A : Type} (R : A -> A -> Prop).

Lemma fop_perm l l' : (forall a b, R a b -> R b a) -> Permutation l l' ->
  ForallOrdPairs R l -> ForallOrdPairs R l'.
Proof.
  intros Sy P. induction P as [|x l l' P IH|x y l|l l' l'' P1 IH1 P2 IH2]; intros H; auto.
  - inversion H; subst. constructor; auto. eapply Permutation_Forall; eauto.
  - inversion H as [|? ? F1 H1]; subst. inversion H1 as [|? ? F2 H2]; subst.
    inversion F1; subst. constructor; [constructor; auto|]. constructor; auto.
Qed.
End Fop.

Section Ord.

Variable kcmp : bytes -> bytes -> comparison.
Hypothesis OK : cmp_ok kcmp.
Variable overhead : N.

Notation cmp := (ecmp kcmp).
Notation le a b := (cmp a b <> Gt).
Notation valid := (valid kcmp).
Notation within := (within kcmp).
Notation apart := (apart kcmp).
Notation rlt := (rlt kcmp).
Notation dsorted := (dsorted kcmp).
Notation lkr_ok := (lkr_ok kcmp).
Notation lock_size := (lock_size overhead).
Notation mem := (mem overhead).
Notation pin := (pin kcmp).
Notation lt_inv := (lt_inv kcmp overhead).

(** ** Taking out a batch *)

Lemma extract_sticky n : sticky (extract_fn n).
Proof.
  intros a g x H g' x'. unfold extract_fn in *.
  destruct (length a <? n)%nat eqn:E; cbn in *; [discriminate|]. rewrite E. reflexivity.
Qed.

Lemma extract_fold n es : forall a, (length a <= n)%nat ->
  fold_left (fold_fn (extract_fn n)) es a = a ++ firstn (n - length a) es.
Proof.
  induction es as [|[g x] es IH]; intros a H; cbn [fold_left].
  - rewrite firstn_nil, app_nil_r. reflexivity.
  - unfold fold_fn at 2, extract_fn. cbn [fst snd]. destruct (length a <? n)%nat eqn:E.
    + cbn [fst]. rewrite IH by (rewrite app_length; cbn; apply Nat.ltb_lt in E; lia).
      rewrite app_length. cbn [length]. apply Nat.ltb_lt in E.
      replace (n - length a)%nat with (S (n - (length a + 1))) by lia. cbn [firstn].
      rewrite <- app_assoc. reflexivity.
    + cbn [fst]. rewrite IH by auto. apply Nat.ltb_ge in E.
      replace (n - length a)%nat with 0%nat by lia. reflexivity.
Qed.

Lemma inf_not_apart g : ~ apart inf_range g.
Proof. intros [H|H]; unfold LtTreeProofs.rlt in H; cbn in H; destruct g as [[| |] [| |] ?]; easy. Qed.

Lemma remove_all_ok ls : forall k m b,
  lkr_ok k -> k_rng k = inf_range -> kelems k = ls ++ b -> mem ls <= m ->
  exists k' m', remove_all_of kcmp overhead k m ls = Some (k', m') /\
    lkr_ok k' /\ k_rng k' = inf_range /\ k_ctx k' = k_ctx k /\ kelems k' = b /\ m' = m - mem ls.
Proof.
  induction ls as [|[g y] ls IH]; intros k m b K R E M.
  - exists k, m. cbn. repeat (split; [solve [auto]|]). cbn. lia.
  - rewrite mem_cons in M. cbn [fst] in M. cbn [remove_all_of].
    destruct (remove_lock_ok kcmp OK overhead k m g y [] (ls ++ b)) as (k1 & -> & K1 & E1 & R1 & C1); auto.
    { rewrite R. apply inf_not_apart. } { lia. }
    destruct (IH k1 (m - lock_size g) b) as (k2 & m2 & -> & K2 & R2 & C2 & E2 & Em); auto.
    { congruence. } { lia. }
    exists k2, m2. rewrite mem_cons. cbn [fst].
    refine (conj eq_refl (conj K2 (conj R2 (conj _ (conj E2 _))))); [congruence|lia].
Qed.

Lemma extract_ok k m n : lkr_ok k -> k_rng k = inf_range -> mem (kelems k) <= m ->
  exists k' m', extract_first_n kcmp overhead k m n = Some (firstn n (kelems k), k', m') /\
    lkr_ok k' /\ k_rng k' = inf_range /\ k_ctx k' = k_ctx k /\
    kelems k' = skipn n (kelems k) /\ m' + mem (firstn n (kelems k)) = m.
Proof.
  intros K R M. unfold extract_first_n.
  destruct (iterate_ok kcmp OK k (extract_fn n) [] K (extract_sticky n)) as (k1 & -> & K1 & E1 & R1 & C1 & _).
  rewrite R, (filter_inf kcmp OK) by apply K. rewrite extract_fold by (cbn; lia). cbn [app length].
  rewrite Nat.sub_0_r.
  assert (mem (firstn n (kelems k)) <= m) as M1.
  { rewrite <- (firstn_skipn n (kelems k)), mem_app in M. lia. }
  destruct (remove_all_ok (firstn n (kelems k)) k1 m (skipn n (kelems k))) as (k2 & m2 & -> & K2 & R2 & C2 & E2 & Em); auto.
  { congruence. } { rewrite E1. symmetry. apply firstn_skipn. }
  exists k2, m2. refine (conj eq_refl (conj K2 (conj R2 (conj _ (conj E2 _))))); [congruence|lia].
Qed.

(** ** Merging a batch *)

(** The result of widening: every old lock lies in a new one of the same owner,
    every new one spans from one old lock of its owner to another. *)
Record spans (L L' : list rlock) : Prop := {
  sp_keep : forall g y, In (g, y) L -> exists h, In (h, y) L' /\ within g h;
  sp_span : forall h y, In (h, y) L' -> exists g g', In (g, y) L /\ In (g', y) L /\
    r_l h = r_l g /\ r_r h = r_r g' /\ within g h /\ within g' h }.

Lemma spans_app A B A' B' : spans A A' -> spans B B' -> spans (A ++ B) (A' ++ B').
Proof.
  intros [K1 S1] [K2 S2]. constructor.
  - intros g y H. apply in_app_or in H. destruct H as [H|H].
    + destruct (K1 _ _ H) as (h & ? & ?). exists h. split; auto. apply in_or_app; auto.
    + destruct (K2 _ _ H) as (h & ? & ?). exists h. split; auto. apply in_or_app; auto.
  - intros g y H. apply in_app_or in H. destruct H as [H|H].
    + destruct (S1 _ _ H) as (h & h' & ? & ? & ?). exists h, h'. rewrite !in_app_iff. auto.
    + destruct (S2 _ _ H) as (h & h' & ? & ? & ?). exists h, h'. rewrite !in_app_iff. auto.
Qed.

Lemma spans_nil : spans [] [].
Proof. constructor; intros ? ? []. Qed.

Lemma rlt_valid_le a b : valid b -> rlt a b -> le (r_r a) (r_r b).
Proof.
  intros V H. apply (lt_le kcmp). eapply (lt_le_trans kcmp OK); eauto.
Qed.

(** [pre] are the locks of the run collected so far, [g0] the first, [g1] the
    last of them. *)
Lemma merge_run_ok ls : forall x pre g0 g1 same,
  dsorted (pre ++ ls) -> Forall (fun e => goodg (fst e)) (pre ++ ls) ->
  In (g0, x) pre -> In (g1, x) pre -> Forall (fun e => snd e = x) pre ->
  (forall e, In e pre -> within (fst e) (Rng (r_l g0) (r_r g1) same)) ->
  (same = true -> r_l g0 = r_r g1) ->
  let M := merge_run x (r_l g0) same (r_r g1) ls in
  dsorted M /\ Forall (fun e => goodg (fst e)) M /\ spans (pre ++ ls) M /\ M <> [] /\
  (length M <= length ls + 1)%nat.
Proof.
  induction ls as [|[g y] ls IH]; intros x pre g0 g1 same D G I0 I1 O W Sa; cbn zeta.
  - rewrite app_nil_r in *. cbn [merge_run].
    assert (V0 : valid g0) by (apply (dsorted_valid kcmp pre (g0, x)); auto).
    assert (V : valid (Rng (r_l g0) (r_r g1) same)).
    { destruct (W _ I0) as [_ H]. unfold LtTreeProofs.valid. cbn in *.
      eapply (le_trans kcmp OK); eauto. }
    rewrite Forall_forall in G. rewrite Forall_forall in O.
    refine (conj _ (conj _ (conj _ (conj _ _)))).
    + apply dsorted_cons. refine (conj V (conj (dsorted_nil kcmp) _)). easy.
    + repeat constructor; cbn.
      * apply (G _ I0). * apply (G _ I1). * exact Sa.
    + constructor.
      * intros i z H. pose proof (O _ H) as Hz. cbn in Hz. subst z.
        eexists. split; [left; reflexivity|]. apply (W _ H).
      * intros h z [[= <- <-]|[]]. exists g0, g1. cbn.
        refine (conj I0 (conj I1 (conj eq_refl (conj eq_refl (conj (W _ I0) (W _ I1)))))).
    + easy.
    + cbn. lia.
  - assert (D' := D). apply dsorted_app in D'. destruct D' as (Dp & Dl & Db).
    assert (Dl' := Dl). apply dsorted_cons in Dl'. destruct Dl' as (Vg & Dl' & _). cbn in Vg.
    cbn [merge_run]. destruct (x =? y) eqn:Ey.
    + apply N.eqb_eq in Ey. subst y.
      assert (W1 : forall e, In e pre -> rlt (fst e) g) by (intros e He; apply (Db e (g, x)); auto; left; auto).
      destruct (IH x (pre ++ [(g, x)]) g0 g false) as (A1 & A2 & A3 & A4 & A5).
      * rewrite <- app_assoc. exact D.
      * rewrite <- app_assoc. exact G.
      * apply in_or_app; auto.
      * apply in_or_app; right; left; auto.
      * apply Forall_app; auto.
      * intros e He. apply in_app_or in He. destruct He as [He|[<- |[]]].
        -- destruct (W _ He) as [Wl _]. split; cbn in *; auto. apply rlt_valid_le; auto.
        -- cbn. split; cbn; [|apply (le_refl kcmp OK)].
           assert (V0 : valid g0) by (apply (dsorted_valid kcmp pre (g0, x)); auto).
           eapply (le_trans kcmp OK); [exact V0|]. apply (lt_le kcmp). apply (W1 _ I0).
      * discriminate.
      * cbn [merge_run]. refine (conj A1 (conj A2 (conj _ (conj A4 _)))).
        -- rewrite <- app_assoc in A3. exact A3.
        -- cbn [length]. lia.
    + assert (V0 : valid g0) by (apply (dsorted_valid kcmp pre (g0, x)); auto).
      assert (V : valid (Rng (r_l g0) (r_r g1) same)).
      { destruct (W _ I0) as [_ H]. unfold LtTreeProofs.valid. cbn in *.
        eapply (le_trans kcmp OK); eauto. }
      apply Forall_app in G. destruct G as [Gp Gl].
      destruct (IH y [(g, y)] g g (r_same g)) as (A1 & A2 & A3 & A4 & A5); auto.
      * left; auto.
      * left; auto.
      * intros e [<- |[]]. cbn. split; cbn; apply (le_refl kcmp OK).
      * apply Forall_cons_iff in Gl. destruct Gl as [(_ & _ & Gs) _]. exact Gs.
      * rewrite Forall_forall in Gp. rewrite Forall_forall in O.
        refine (conj _ (conj _ (conj _ (conj _ _)))).
        -- apply dsorted_cons. refine (conj V (conj A1 _)). intros [h z] Hh.
           destruct (sp_span _ _ A3 _ _ Hh) as (i & i' & Hi & _ & El & _).
           unfold before, LtTreeProofs.rlt. cbn [fst]. rewrite El.
           apply (Db (g1, x) (i, z)); auto.
        -- constructor; auto. cbn. refine (conj _ (conj _ Sa)); [apply (Gp _ I0)|apply (Gp _ I1)].
        -- change ((Rng (r_l g0) (r_r g1) same, x) :: merge_run y (r_l g) (r_same g) (r_r g) ls)
             with ([(Rng (r_l g0) (r_r g1) same, x)] ++ merge_run y (r_l g) (r_same g) (r_r g) ls).
           apply spans_app; auto. constructor.
           ++ intros i z H. pose proof (O _ H) as Hz. cbn in Hz. subst z.
              eexists. split; [left; reflexivity|]. apply (W _ H).
           ++ intros h z [[= <- <-]|[]]. exists g0, g1. cbn.
              refine (conj I0 (conj I1 (conj eq_refl (conj eq_refl (conj (W _ I0) (W _ I1)))))).
        -- easy.
        -- cbn [length]. lia.
Qed.

Lemma merge_batch_ok ls : dsorted ls -> Forall (fun e => goodg (fst e)) ls ->
  dsorted (merge_batch ls) /\ Forall (fun e => goodg (fst e)) (merge_batch ls) /\
  spans ls (merge_batch ls) /\ (length (merge_batch ls) <= length ls)%nat.
Proof.
  intros D G. destruct ls as [|[g x] ls]; cbn [merge_batch].
  - refine (conj D (conj G (conj spans_nil _))). cbn. lia.
  - destruct (merge_run_ok ls x [(g, x)] g g (r_same g)) as (A & B & C & _ & L); auto.
    + left; auto.
    + left; auto.
    + intros e [<- |[]]. cbn. split; cbn; apply (le_refl kcmp OK).
    + apply Forall_cons_iff in G. destruct G as [(_ & _ & Gs) _]. exact Gs.
    + cbn [length]. refine (conj A (conj B (conj C _))). lia.
Qed.

(** ** The buffers by owner *)

Definition of_owner (x : txnid) (F : list rlock) : list rng :=
  map fst (filter (fun e => snd e =? x) F).

Lemma of_owner_app x A B : of_owner x (A ++ B) = of_owner x A ++ of_owner x B.
Proof. unfold of_owner. rewrite filter_app, map_app. reflexivity. Qed.

(** [bs] holds the locks [F], by owner, owners descending. *)
Record bufs_rep (bs : list (txnid * rbuf)) (F : list rlock) : Prop := {
  br_sorted : StronglySorted (fun a b => fst b < fst a) bs;
  br_rep : forall x b, In (x, b) bs -> rb_rep b (of_owner x F) /\ of_owner x F <> [];
  br_all : forall g x, In (g, x) F -> exists b, In (x, b) bs }.

Lemma bufs_rep_nil : bufs_rep [] [].
Proof. constructor; [constructor|easy|easy]. Qed.

Lemma of_owner_other x y g F : x <> y -> of_owner x (F ++ [(g, y)]) = of_owner x F.
Proof.
  intros H. rewrite of_owner_app. unfold of_owner at 2. cbn.
  replace (y =? x) with false by (symmetry; apply N.eqb_neq; auto). cbn. apply app_nil_r.
Qed.

Lemma of_owner_same x g F : of_owner x (F ++ [(g, x)]) = of_owner x F ++ [g].
Proof. rewrite of_owner_app. unfold of_owner at 2. cbn. rewrite N.eqb_refl. reflexivity. Qed.

Lemma of_owner_nil x F : (forall g, ~ In (g, x) F) -> of_owner x F = [].
Proof.
  intros H. unfold of_owner. rewrite filter_none; auto. intros [g y] Hi. cbn.
  apply N.eqb_neq. intros ->. eapply H; eauto.
Qed.

Lemma bufs_append_ok x g bs F : bufs_rep bs F -> goodg g ->
  exists bs', bufs_append x g bs = Some bs' /\ bufs_rep bs' (F ++ [(g, x)]).
Proof.
  intros [S R A] G.
  assert (HN : (forall b, ~ In (x, b) bs) -> of_owner x F = []).
  { intros H. apply of_owner_nil. intros g' Hi. destruct (A _ _ Hi) as (b & Hb). eapply H; eauto. }
  enough (exists bs', bufs_append x g bs = Some bs' /\
    StronglySorted (fun a b : txnid * rbuf => fst b < fst a) bs' /\
    (forall y b, In (y, b) bs' -> (y <> x /\ In (y, b) bs) \/
       (y = x /\ rb_rep b (of_owner x F ++ [g]))) /\
    (exists b, In (x, b) bs') /\ (forall y b, In (y, b) bs -> exists b', In (y, b') bs')) as (bs' & -> & S' & R' & X & A').
  { exists bs'. split; auto. constructor; auto.
    - intros y b Hi. destruct (R' y b Hi) as [[Hn Hi']|[-> Hr]].
      + rewrite of_owner_other by auto. auto.
      + rewrite of_owner_same. split; auto. destruct (of_owner x F); easy.
    - intros g' y Hi. apply in_app_or in Hi. destruct Hi as [Hi|[[= <- <-]|[]]]; auto.
      destruct (A _ _ Hi) as (b & Hb). eauto. }
  assert (HR : forall b, In (x, b) bs -> rb_rep b (of_owner x F)) by (intros; apply R; auto).
  clear R A. revert HN HR. generalize (of_owner x F) as gs. intros gs HN HR.
  induction bs as [|[y b] bs IH]; cbn [bufs_append].
  - destruct (rep_append rb_empty [] g rep_empty (good_storable _ G)) as (b' & -> & R' & _).
    eexists. split; [reflexivity|]. rewrite HN by easy.
    refine (conj _ (conj _ (conj _ _))).
    + repeat constructor.
    + intros z c [[= <- <-]|[]]. auto.
    + eexists. left. reflexivity.
    + easy.
  - inversion S as [|? ? S' F']; subst. rewrite Forall_forall in F'.
    destruct (x <? y) eqn:E1.
    + apply N.ltb_lt in E1. destruct IH as (bs' & -> & S1 & R1 & X1 & A1); auto.
      { intros Hn. apply HN. intros b' [[= -> ->]|Hi]; [lia|]. eapply Hn; eauto. }
      { intros b' Hi. apply HR. right; auto. }
      eexists. split; [reflexivity|]. refine (conj _ (conj _ (conj _ _))).
      * constructor; auto. apply Forall_forall. intros [z c] Hz. cbn.
        destruct (R1 _ _ Hz) as [[_ Hi]|[-> _]]; auto. apply (F' _ Hi).
      * intros z c [[= <- <-]|Hi]; [left; split; [lia|left; auto]|].
        destruct (R1 _ _ Hi) as [[Hn Hi']|Hr]; auto. left. split; auto. right; auto.
      * destruct X1 as (c & Hc). exists c. right; auto.
      * intros z c [[= <- <-]|Hi]; [eexists; left; reflexivity|].
        destruct (A1 _ _ Hi) as (c' & Hc'). exists c'. right; auto.
    + apply N.ltb_ge in E1. destruct (x =? y) eqn:E2.
      * apply N.eqb_eq in E2. subst y.
        destruct (rep_append b gs g (HR b (or_introl eq_refl)) (good_storable _ G)) as (b' & -> & R' & _).
        eexists. split; [reflexivity|]. refine (conj _ (conj _ (conj _ _))).
        -- constructor; auto. apply Forall_forall. intros z Hz. apply (F' z Hz).
        -- intros z c [[= <- <-]|Hi]; auto. left. split; [|right; auto].
           pose proof (F' _ Hi) as Hlt. cbn in Hlt. lia.
        -- eexists. left; reflexivity.
        -- intros z c [[= <- <-]|Hi]; [eexists; left; reflexivity|]. exists c. right; auto.
      * apply N.eqb_neq in E2.
        assert (HX : forall c, ~ In (x, c) ((y, b) :: bs)).
        { intros c [[= -> ->]|Hi]; [lia|]. pose proof (F' _ Hi) as Hlt. cbn in Hlt. lia. }
        destruct (rep_append rb_empty [] g rep_empty (good_storable _ G)) as (b' & -> & R' & _).
        eexists. split; [reflexivity|]. rewrite (HN HX). refine (conj _ (conj _ (conj _ _))).
        -- constructor; auto. constructor; [cbn; lia|]. apply Forall_forall. intros z Hz.
           eapply N.lt_le_trans; [apply (F' _ Hz)|exact E1].
        -- intros z c [[= <- <-]|Hi]; auto. left. split; auto. intros ->. eapply HX; eauto.
        -- eexists. left; reflexivity.
        -- intros z c Hi. exists c. right; auto.
Qed.

Lemma bufs_append_all_ok ls : forall bs F, bufs_rep bs F -> Forall (fun e => goodg (fst e)) ls ->
  exists bs', bufs_append_all ls bs = Some bs' /\ bufs_rep bs' (F ++ ls).
Proof.
  induction ls as [|[g x] ls IH]; intros bs F R G; cbn [bufs_append_all].
  - exists bs. rewrite app_nil_r. auto.
  - apply Forall_cons_iff in G. destruct G as [G1 G].
    destruct (bufs_append_ok x g bs F R G1) as (bs1 & -> & R1).
    destruct (IH bs1 _ R1 G) as (bs2 & E2 & R2). exists bs2. rewrite <- app_assoc in R2. auto.
Qed.

(** ** The loop *)

Lemma escalate_loop_ok n : forall k m bs F ext,
  (length (kelems k) < n)%nat -> lkr_ok k -> k_rng k = inf_range -> k_ctx k = [] ->
  Forall (fun e => goodg (fst e)) (kelems k) -> m = mem (kelems k) + ext ->
  bufs_rep bs F ->
  exists k' bs' M, escalate_loop kcmp overhead n k m bs = Some (k', ext, bs') /\
    k' = lkr_prepare E /\ bufs_rep bs' (F ++ M) /\
    dsorted M /\ Forall (fun e => goodg (fst e)) M /\ spans (kelems k) M /\
    (length M <= length (kelems k))%nat.
Proof.
  induction n as [|n IH]; intros k m bs F ext L K R C G Em B; [lia|]. cbn [escalate_loop].
  destruct (extract_ok k m batch_size K R) as (k1 & m1 & -> & K1 & R1 & C1 & E1 & M1); [lia|].
  destruct (firstn batch_size (kelems k)) as [|e0 ls0] eqn:Ef.
  - assert (kelems k = []) as Ek.
    { destruct (kelems k); auto. discriminate. }
    rewrite Ek in *. rewrite skipn_nil in E1. change (mem []) with 0 in *.
    exists k1, bs, []. rewrite app_nil_r.
    replace m1 with ext by lia.
    refine (conj eq_refl (conj _ (conj B (conj (dsorted_nil kcmp) (conj _ (conj spans_nil _)))))).
    + rewrite (lkr_eta k1) by congruence. f_equal. apply elems_E. exact E1.
    + constructor.
    + cbn. lia.
  - set (ls := e0 :: ls0) in *. assert (Hs : kelems k = ls ++ kelems k1).
    { rewrite E1, <- Ef. symmetry. apply firstn_skipn. }
    assert (D : dsorted (kelems k)) by apply K.
    rewrite Hs in D, G. apply dsorted_app in D. destruct D as (Da & Db & Dab).
    apply Forall_app in G. destruct G as [Ga Gb].
    destruct (merge_batch_ok ls Da Ga) as (Dm & Gm & Sm & Lm).
    destruct (bufs_append_all_ok (merge_batch ls) bs F B Gm) as (bs1 & -> & B1).
    destruct (IH k1 m1 bs1 (F ++ merge_batch ls) ext) as (k2 & bs2 & M & E2 & Ek2 & B2 & D2 & G2 & S2 & L2); auto.
    { rewrite Hs in L. rewrite app_length in L. unfold ls in L. cbn [length] in L. lia. }
    { congruence. }
    { rewrite Hs in Em. rewrite mem_app in Em. lia. }
    exists k2, bs2, (merge_batch ls ++ M). rewrite E2. rewrite <- app_assoc in B2.
    refine (conj eq_refl (conj Ek2 (conj B2 (conj _ (conj _ (conj _ _)))))).
    + apply dsorted_app. refine (conj Dm (conj D2 _)). intros [g x] [h y] Hg Hh.
      destruct (sp_span _ _ Sm _ _ Hg) as (_ & i' & _ & Hi & _ & Er & _).
      destruct (sp_span _ _ S2 _ _ Hh) as (j & _ & Hj & _ & El & _).
      unfold before, LtTreeProofs.rlt. cbn [fst]. rewrite Er, El. apply (Dab _ _ Hi Hj).
    + apply Forall_app; auto.
    + rewrite Hs. apply spans_app; auto.
    + rewrite Hs, !app_length. lia.
Qed.

(** ** Building the new tree *)

Definition eapart (a b : ep * ep * txnid) : Prop :=
  cmp (snd (fst a)) (fst (fst b)) = Datatypes.Lt \/ cmp (snd (fst b)) (fst (fst a)) = Datatypes.Lt.

Lemma eapart_iff a b : eapart (tends a) (tends b) <-> apart (fst a) (fst b).
Proof. reflexivity. Qed.

Lemma dsorted_fop es : dsorted es -> ForallOrdPairs eapart (map tends es).
Proof.
  induction es as [|e es IH]; intros D; cbn; constructor.
  - apply dsorted_cons in D. destruct D as (_ & _ & B). apply Forall_forall. intros t Ht.
    apply in_map_iff in Ht. destruct Ht as (e' & <- & He). apply eapart_iff. left. apply B; auto.
  - apply IH. apply dsorted_cons in D. tauto.
Qed.

Lemma insert_all_ok x gs : forall k m, lkr_ok k -> k_rng k = inf_range ->
  Forall valid gs -> ForallOrdPairs eapart (map tends (kelems k ++ tag x gs)) ->
  exists k' m', insert_all kcmp overhead k m x gs = Some (k', m') /\ lkr_ok k' /\
    k_rng k' = inf_range /\ k_ctx k' = k_ctx k /\
    Permutation (kelems k ++ tag x gs) (kelems k') /\ m' = m + mem (tag x gs).
Proof.
  induction gs as [|g gs IH]; intros k m K R V P; cbn [insert_all].
  - exists k, m. cbn. rewrite app_nil_r. repeat (split; [solve [auto]|]). cbn. lia.
  - apply Forall_cons_iff in V. destruct V as [V1 V].
    assert (Hsy : forall a b, eapart a b -> eapart b a) by (unfold eapart; tauto).
    assert (P1 : ForallOrdPairs eapart (map tends ((g, x) :: kelems k ++ tag x gs))).
    { eapply fop_perm; [exact Hsy| |exact P]. apply Permutation_map. cbn [tag map].
      symmetry. apply Permutation_middle. }
    cbn [map] in P1. inversion P1 as [|? ? F1 P2]; subst. rewrite Forall_forall in F1.
    destruct (insert_ok kcmp OK k g x) as (k1 & a & b & I & K1 & E1 & E1' & R1 & C1); auto.
    { intros e He. change (eapart (tends (g, x)) (tends e)). apply F1. apply in_map. apply in_or_app; auto. }
    { rewrite R. apply inf_not_apart. }
    assert (Pk : Permutation ((g, x) :: kelems k) (kelems k1)).
    { rewrite E1, E1'. apply Permutation_middle. }
    unfold insert_lock. rewrite I.
    destruct (IH k1 (m + lock_size g)) as (k2 & m2 & -> & K2 & R2 & C2 & P' & Em); auto.
    { congruence. }
    { eapply fop_perm; [exact Hsy| |exact P1]. rewrite <- (map_cons tends (g, x)). apply Permutation_map.
      rewrite app_comm_cons. apply Permutation_app_tail. exact Pk. }
    exists k2, m2. refine (conj eq_refl (conj K2 (conj R2 (conj _ (conj _ _))))); [congruence| |].
    + etransitivity; [|exact P']. cbn [tag map]. etransitivity.
      { symmetry. apply Permutation_middle. }
      rewrite app_comm_cons. apply Permutation_app_tail. exact Pk.
    + change (tag x (g :: gs)) with ((g, x) :: tag x gs). rewrite mem_cons. cbn [fst]. lia.
Qed.

Lemma mem_tends A B : Permutation (map tends A) (map tends B) -> mem A = mem B.
Proof.
  intros P. assert (H : forall l : list rlock, mem l =
    fold_right N.add 0 (map (fun t : ep * ep * txnid => ep_size (fst (fst t)) + ep_size (snd (fst t)) + overhead) (map tends l))).
  { intros l. induction l as [|e l IH]; [reflexivity|]. rewrite mem_cons. cbn [map fold_right]. rewrite IH. reflexivity. }
  rewrite !H. apply (Permutation_map (fun t : ep * ep * txnid => ep_size (fst (fst t)) + ep_size (snd (fst t)) + overhead)) in P.
  revert P. generalize (map (fun t : ep * ep * txnid => ep_size (fst (fst t)) + ep_size (snd (fst t)) + overhead) (map tends A)).
  generalize (map (fun t : ep * ep * txnid => ep_size (fst (fst t)) + ep_size (snd (fst t)) + overhead) (map tends B)).
  intros l1 l2 P. induction P; cbn; lia.
Qed.

Lemma perm_filter_split {A} (f : A -> bool) l :
  Permutation l (filter f l ++ filter (fun a => negb (f a)) l).
Proof.
  induction l as [|a l IH]; cbn; auto. destruct (f a); cbn.
  - constructor. exact IH.
  - etransitivity; [constructor; exact IH|]. apply Permutation_middle.
Qed.

Lemma tag_of_owner x F : tag x (of_owner x F) = filter (fun e => snd e =? x) F.
Proof.
  unfold tag, of_owner. rewrite map_map. induction F as [|[g y] F IH]; cbn; auto.
  destruct (y =? x) eqn:E; cbn; auto. apply N.eqb_eq in E. subst y. f_equal. exact IH.
Qed.

Lemma map_tends_tag x rs gs : Permutation (map ends rs) (map ends gs) ->
  Permutation (map tends (tag x rs)) (map tends (tag x gs)).
Proof.
  intros P. unfold tag. rewrite !map_map. unfold tends. cbn [fst snd].
  rewrite <- (map_map ends (fun e => (e, x)) rs), <- (map_map ends (fun e => (e, x)) gs).
  apply Permutation_map. exact P.
Qed.

Lemma rebuild_ok bs : forall k m F,
  bufs_rep bs F -> lkr_ok k -> k_rng k = inf_range ->
  Forall (fun e => valid (fst e)) F -> Forall (fun e => goodg (fst e)) F ->
  Forall (fun e => goodg (fst e)) (kelems k) ->
  ForallOrdPairs eapart (map tends (kelems k ++ F)) ->
  exists k' m', rebuild kcmp overhead k m bs = Some (k', m') /\ lkr_ok k' /\
    k_rng k' = inf_range /\ k_ctx k' = k_ctx k /\
    Permutation (map tends (kelems k ++ F)) (map tends (kelems k')) /\
    Forall (fun e => goodg (fst e)) (kelems k') /\ m' = m + mem F.
Proof.
  assert (Hsy : forall a b, eapart a b -> eapart b a) by (unfold eapart; tauto).
  induction bs as [|[x b] bs IH]; intros k m F B K R V G Gk P; cbn [rebuild].
  - assert (F = []) as ->.
    { destruct F as [|[g x] F]; auto. destruct (br_all _ _ B g x) as (b & []). left; auto. }
    rewrite app_nil_r in *. exists k, m. repeat (split; [solve [auto]|]). cbn. lia.
  - destruct (br_rep _ _ B x b (or_introl eq_refl)) as [Rb _].
    destruct (rep_records _ _ Rb) as (rs & -> & Pr & Sn & _).
    set (F1 := filter (fun e => snd e =? x) F). set (F2 := filter (fun e => negb (snd e =? x)) F).
    assert (PF : Permutation F (F1 ++ F2)) by apply perm_filter_split.
    assert (HF1 : tag x (of_owner x F) = F1) by apply tag_of_owner.
    assert (HG : Forall goodg (of_owner x F) /\ Forall valid (of_owner x F)).
    { rewrite Forall_forall in G, V. unfold of_owner. split; apply Forall_forall; intros g Hg;
        apply in_map_iff in Hg; destruct Hg as (e & <- & He); apply filter_In in He; [apply G|apply V]; tauto. }
    destruct HG as [Go Vo].
    destruct (ends_props kcmp (of_owner x F) rs Pr Sn Go Vo) as [Gr Vr].
    pose proof (map_tends_tag x rs (of_owner x F) Pr) as Pt. rewrite HF1 in Pt.
    assert (P1 : ForallOrdPairs eapart (map tends (kelems k ++ tag x rs ++ F2))).
    { eapply fop_perm; [exact Hsy| |exact P]. rewrite !map_app. apply Permutation_app_head.
      etransitivity; [apply Permutation_map; exact PF|]. rewrite map_app. apply Permutation_app_tail.
      symmetry. exact Pt. }
    assert (P1' : ForallOrdPairs eapart (map tends (kelems k ++ tag x rs))).
    { rewrite app_assoc, map_app in P1. revert P1. generalize (map tends (kelems k ++ tag x rs)). clear.
      intros l H. induction l as [|a l IHl]; cbn in *; constructor; inversion H; subst; auto.
      match goal with H : Forall _ (_ ++ _) |- _ => apply Forall_app in H; apply H end. }
    destruct (insert_all_ok x rs k m) as (k1 & m1 & -> & K1 & R1 & C1 & Pk & Em); auto.
    assert (Gk1 : Forall (fun e => goodg (fst e)) (kelems k1)).
    { eapply Permutation_Forall; [exact Pk|]. apply Forall_app. split; auto.
      rewrite Forall_forall in Gr. apply Forall_forall. intros [g y] Hg. apply in_tag in Hg. apply Gr. tauto. }
    assert (B2 : bufs_rep bs F2).
    { destruct B as [S Rp A]. inversion S as [|? ? S' Fs]; subst. rewrite Forall_forall in Fs.
      assert (Hne : forall y c, In (y, c) bs -> y <> x).
      { intros y c Hi. pose proof (Fs _ Hi) as Hlt. cbn in Hlt. lia. }
      assert (HO : forall y, y <> x -> of_owner y F2 = of_owner y F).
      { intros y Hn. unfold of_owner, F2. f_equal. clear - Hn. induction F as [|[g z] F IHF]; cbn; auto.
        destruct (z =? x) eqn:E1; cbn.
        - apply N.eqb_eq in E1. subst z. replace (x =? y) with false by (symmetry; apply N.eqb_neq; auto). exact IHF.
        - destruct (z =? y); [f_equal|]; exact IHF. }
      constructor; auto.
      - intros y c Hi. rewrite HO by eauto. apply Rp. right; auto.
      - intros g y Hi. apply filter_In in Hi. destruct Hi as [Hi Hn]. cbn in Hn.
        apply negb_true_iff, N.eqb_neq in Hn. destruct (A g y Hi) as (c & [[= -> ->]|Hc]); [congruence|].
        eauto. }
    destruct (IH k1 m1 F2) as (k2 & m2 & -> & K2 & R2 & C2 & Pk2 & Gk2 & Em2); auto.
    { unfold F2. rewrite Forall_forall in *. intros e He. apply filter_In in He. apply V; tauto. }
    { unfold F2. rewrite Forall_forall in *. intros e He. apply filter_In in He. apply G; tauto. }
    { eapply fop_perm; [exact Hsy| |exact P1]. apply Permutation_map. rewrite app_assoc.
      apply Permutation_app_tail. exact Pk. }
    exists k2, m2. refine (conj eq_refl (conj K2 (conj R2 (conj _ (conj _ (conj Gk2 _)))))); [congruence| |].
    + etransitivity; [|exact Pk2].
      etransitivity; [|apply Permutation_map; apply Permutation_app_tail; exact Pk].
      rewrite <- app_assoc, !map_app. apply Permutation_app_head.
      etransitivity; [apply Permutation_map; exact PF|]. rewrite map_app. apply Permutation_app_tail.
      symmetry. exact Pt.
    + rewrite Em2, Em. assert (mem (tag x rs) = mem F1) as -> by (apply mem_tends; exact Pt).
      assert (mem F = mem (F1 ++ F2)) as -> by (apply mem_tends; apply Permutation_map; exact PF).
      rewrite mem_app. lia.
Qed.

(** ** Escalation *)

Lemma acquire_inf t : dsorted (elems t) ->
  lkr_acquire kcmp (lkr_prepare t) inf_range = Some (lkr_prepare t).
Proof.
  intros D. unfold lkr_acquire. cbn [lkr_prepare k_sub k_ctx]. destruct t as [|dl l g x dr r]; auto.
  replace (roverlaps kcmp g inf_range) with true; auto. symmetry.
  assert (valid g) as V.
  { cbn in D. apply dsorted_app in D. destruct D as (_ & D & _). apply dsorted_cons in D. tauto. }
  apply roverlaps_iff; auto. { apply inf_valid. }
  intros H. apply apart_sym in H. revert H. apply inf_not_apart.
Qed.

(** Owners and ranges are those of [F], up to which memory holds the keys. *)
Definition same_ends (F L : list rlock) : Prop := Permutation (map tends F) (map tends L).

Lemma escalate_ok s gs ext : lt_inv s gs ext ->
  exists s' bs F, escalate kcmp overhead s = Some (s', bs) /\
    lt_inv s' [] ext /\ lt_sto s' = TXNID_NONE /\
    (exists L1, regroup kcmp (locks s gs) L1 /\ spans L1 F /\ (length F <= length L1)%nat /\
       (lt_sto s = TXNID_NONE -> L1 = locks s gs) /\ dsorted L1) /\
    same_ends F (elems (lt_tree s')) /\ dsorted F /\ bufs_rep bs F /\ Forall (fun e => goodg (fst e)) F.
Proof.
  intros I. unfold escalate. rewrite acquire_inf by apply I.
  assert (H : exists s1 t1, (if negb (lt_sto s =? TXNID_NONE)
     then sto_end_early kcmp overhead s (lkr_prepare (lt_tree s))
     else Some (s, lkr_prepare (lt_tree s))) = Some (s1, lkr_prepare t1) /\
     lt_sto s1 = TXNID_NONE /\ rb_rep (lt_buf s1) [] /\ rb_mem (lt_buf s1) = 0 /\
     dsorted (elems t1) /\ Forall (fun e => goodg (fst e)) (elems t1) /\
     lt_mem s1 = mem (elems t1) + ext /\ regroup kcmp (locks s gs) (elems t1) /\
     (lt_sto s = TXNID_NONE -> elems t1 = locks s gs)).
  { destruct (lt_sto s =? TXNID_NONE) eqn:Es; cbn [negb].
    - apply N.eqb_eq in Es. pose proof (li_none _ _ _ _ _ I Es) as Eg. subst gs.
      assert (rb_mem (lt_buf s) = 0) as Mb.
      { assert (rb_is_empty (lt_buf s) = true) as Eb by (eapply rep_nil_iff; [apply I|auto]).
        apply N.eqb_eq. exact Eb. }
      exists s, (lt_tree s). rewrite locks_none. pose proof (li_mem _ _ _ _ _ I) as Hm.
      refine (conj eq_refl (conj Es (conj _ (conj Mb (conj _ (conj _ (conj _ (conj _ _)))))))); try apply I.
      + lia. + apply regroup_refl; auto. + auto.
    - apply N.eqb_neq in Es. destruct (li_sto _ _ _ _ _ I Es) as [Et Hg]. rewrite Et.
      destruct (sto_end_early_ok kcmp OK overhead s gs ext I Es) as (s1 & t1 & -> & Es1 & Eb1 & D1 & G1 & M1 & R1 & _).
      exists s1, t1. rewrite Eb1.
      refine (conj eq_refl (conj Es1 (conj rep_empty (conj rb_mem_empty (conj D1 (conj G1 (conj M1 (conj R1 _)))))))).
      congruence. }
  destruct H as (s1 & t1 & -> & Es1 & Rb1 & Mb1 & D1 & G1 & M1 & R1 & EL).
  change (lkr_release (lkr_prepare t1)) with t1.
  destruct (escalate_loop_ok (S (size t1)) (lkr_prepare t1) (lt_mem s1) [] [] ext)
    as (k2 & bs & F & -> & -> & B & DF & GF & SF & LF); auto.
  { change (kelems (lkr_prepare t1)) with (elems t1). rewrite size_elems. lia. }
  { apply prepare_ok; auto. } { apply bufs_rep_nil. }
  change (kelems (lkr_prepare t1)) with (elems t1) in *. cbn [app] in B.
  change (is_E (lkr_release (lkr_prepare E))) with true. cbn iota.
  destruct (rebuild_ok bs (lkr_prepare E) ext F) as (k3 & m3 & -> & K3 & R3 & C3 & P3 & G3 & Em); auto.
  { apply prepare_ok. apply dsorted_nil. } { apply DF. } { constructor. }
  { change (kelems (lkr_prepare E)) with (@nil rlock). apply dsorted_fop; auto. }
  change (kelems (lkr_prepare E)) with (@nil rlock) in P3. cbn [app] in P3.
  eexists _, bs, F. split; [reflexivity|]. cbn [set_tree lt_tree lt_sto].
  refine (conj _ (conj Es1 (conj _ (conj P3 (conj DF (conj B GF)))))).
  - constructor; cbn [set_tree lt_tree lt_sto lt_buf lt_mem]; auto.
    + apply K3.
    + congruence.
    + change (elems (lkr_release k3)) with (kelems k3). rewrite <- (mem_tends _ _ P3). lia.
  - exists (elems t1). auto 6.
Qed.

End Ord.
