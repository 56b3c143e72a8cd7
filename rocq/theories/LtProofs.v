(** The operations of the lock tree of one dictionary, on the list of locks. *)
From Coq Require Import Sorting.Sorted Sorting.Permutation.
From Verif Require Import Base Bytes LtTreeModel RangeBufModel LtModel LtSpec LtTreeProofs RangeBufProofs.
Open Scope N_scope.

(** A range that can be asked for: infinite end points, or keys that are not
    empty and shorter than 2^16 bytes. *)
Definition good_ep (e : ep) : Prop := match e with Fin k => k <> [] /\ len k < 65536 | _ => True end.
Definition goodg (g : rng) : Prop := good_ep (r_l g) /\ good_ep (r_r g) /\ sane g.

Lemma good_storable g : goodg g -> storable g.
Proof.
  intros (Hl & Hr & Hs). unfold storable. destruct g as [l r s]. cbn in *.
  assert (forall e, good_ep e -> ep_size e < 65536) as Hz.
  { intros [|k|]; cbn; lia. }
  refine (conj _ (conj _ (conj Hs _))); auto.
  intros ->. cbn in Hr. destruct Hr. congruence.
Qed.

Lemma good_ends g g' : ends g' = ends g -> sane g' -> goodg g -> goodg g'.
Proof.
  unfold ends, goodg. intros [= -> ->] ? (? & ? & ?). auto.
Qed.

(** ** Sets of owners *)

Lemma set_add_in x s y : In y (set_add x s) <-> y = x \/ In y s.
Proof.
  induction s as [|z s IH]; cbn; [intuition|].
  destruct (x <? z) eqn:?; cbn; [intuition|].
  destruct (x =? z) eqn:?; cbn.
  - assert (x = z) by lia. subst. intuition.
  - rewrite IH. intuition.
Qed.

Lemma set_add_ne x s : set_add x s <> [].
Proof. destruct s as [|z s]; cbn; [easy|]. destruct (x <? z), (x =? z); easy. Qed.

Lemma conflicting_in x ls s y : In y (conflicting x ls s) <->
  In y s \/ (y <> x /\ exists g, In (g, y) ls).
Proof.
  revert s. induction ls as [|[g z] ls IH]; cbn; intros s; [firstorder|].
  rewrite IH. destruct (z =? x) eqn:Ez.
  - assert (z = x) by lia. subst. firstorder congruence.
  - rewrite set_add_in. assert (z <> x) by lia. split.
    + intros [[-> | ?]|(? & g' & ?)]; eauto 6.
    + intros [?|(? & g' & [[= <- <-]|?])]; eauto.
Qed.

Lemma conflicting_nil x ls : conflicting x ls [] = [] -> Forall (fun e => snd e = x) ls.
Proof.
  intros H. apply Forall_forall. intros [g y] Hi. cbn.
  destruct (N.eq_dec y x) as [|Hn]; auto.
  assert (In y (conflicting x ls [])) as Hc by (apply conflicting_in; eauto).
  rewrite H in Hc. easy.
Qed.

Lemma conflicting_own x ls : Forall (fun e => snd e = x) ls -> conflicting x ls [] = [].
Proof.
  intros H. destruct (conflicting x ls []) as [|y c] eqn:Ec; auto. exfalso.
  assert (In y (conflicting x ls [])) as Hc by (rewrite Ec; left; auto).
  apply conflicting_in in Hc. destruct Hc as [[]|(Hn & g & Hi)].
  rewrite Forall_forall in H. apply H in Hi. auto.
Qed.

Section Ord.

Variable kcmp : bytes -> bytes -> comparison.
Hypothesis OK : cmp_ok kcmp.
Variable overhead : N.

Notation cmp := (ecmp kcmp).
Notation le a b := (cmp a b <> Gt).
Notation lt a b := (cmp a b = Lt).
Notation valid := (valid kcmp).
Notation within := (within kcmp).
Notation apart := (apart kcmp).
Notation rlt := (rlt kcmp).
Notation dsorted := (dsorted kcmp).
Notation ovl := (ovl kcmp).
Notation lkr_ok := (lkr_ok kcmp).
Notation lock_size := (lock_size overhead).

(** The point [p] is in the range [g]. *)
Definition pin (p : ep) (g : rng) : Prop := le (r_l g) p /\ le p (r_r g).

Lemma not_apart_pin a b : valid a -> valid b -> ~ apart a b -> exists p, pin p a /\ pin p b.
Proof.
  intros Va Vb H. unfold LtTreeProofs.apart, LtTreeProofs.rlt in H.
  assert (le (r_l b) (r_r a)) as H1.
  { destruct (le_or_lt kcmp OK (r_l b) (r_r a)) as [|]; auto. }
  assert (le (r_l a) (r_r b)) as H2.
  { destruct (le_or_lt kcmp OK (r_l a) (r_r b)) as [|]; auto. }
  destruct (le_or_lt kcmp OK (r_l a) (r_l b)) as [Hl|Hl].
  - exists (r_l b). unfold pin. auto using (le_refl kcmp OK).
  - exists (r_l a). unfold pin. apply (lt_le kcmp) in Hl. auto using (le_refl kcmp OK).
Qed.

Lemma pin_not_apart a b p : pin p a -> pin p b -> ~ apart a b.
Proof.
  intros [A1 A2] [B1 B2] [H|H]; unfold LtTreeProofs.rlt in H.
  - apply (lt_irrefl kcmp OK p). eapply (le_lt_trans kcmp OK); [exact A2|].
    eapply (lt_le_trans kcmp OK); eauto.
  - apply (lt_irrefl kcmp OK p). eapply (le_lt_trans kcmp OK); [exact B2|].
    eapply (lt_le_trans kcmp OK); eauto.
Qed.

Lemma pin_within p a b : pin p a -> within a b -> pin p b.
Proof.
  intros [A B] [C D]. split; eapply (le_trans kcmp OK); eauto.
Qed.

Lemma pin_l g : valid g -> pin (r_l g) g.
Proof. intros V. split; [apply (le_refl kcmp OK)|exact V]. Qed.

Lemma within_apart a b c : within a b -> apart b c -> apart a c.
Proof.
  intros W [H|H]; [left|right].
  - eapply rlt_within; eauto. apply within_refl; auto.
  - eapply rlt_within; eauto. apply within_refl; auto.
Qed.

Lemma apart_sym a b : apart a b -> apart b a.
Proof. intros [|]; [right|left]; auto. Qed.

Lemma ovl_iff rg e : valid rg -> valid (fst e) -> (ovl rg e = true <-> ~ apart rg (fst e)).
Proof. intros. unfold LtTreeProofs.ovl. apply roverlaps_iff; auto. Qed.

(** The locks overlapping a range are consecutive. *)
Lemma ovl_split es rg : dsorted es -> valid rg ->
  exists a b, es = a ++ filter (ovl rg) es ++ b /\
    (forall e, In e a -> rlt (fst e) rg) /\ (forall e, In e b -> rlt rg (fst e)).
Proof.
  induction es as [|e es IH]; intros D V.
  - exists [], []. cbn. tauto.
  - apply dsorted_cons in D. destruct D as (Ve & D & B).
    destruct (IH D V) as (a & b & E & Ha & Hb).
    cbn. destruct (ovl rg e) eqn:Eo.
    + exists [], b. cbn. split; [|split; [easy|auto]]. f_equal.
      destruct a as [|e' a]; [exact E|]. exfalso.
      apply ovl_iff in Eo; auto. apply Eo. right.
      eapply rlt_trans; [| | |apply Ha; left; reflexivity]; auto.
      * eapply dsorted_valid; eauto. rewrite E. left; auto.
      * apply B. rewrite E. left. auto.
    + assert (apart rg (fst e)) as Hp.
      { unfold LtTreeProofs.ovl in Eo. apply roverlaps_false in Eo; auto. }
      destruct Hp as [Hp|Hp].
      * assert (filter (ovl rg) es = []) as ->.
        { apply filter_none. intros y Hy. apply ovl_lt; auto.
          - eapply dsorted_valid; eauto.
          - apply (rlt_trans kcmp OK rg (fst e)); auto. apply (B y Hy). }
        exists [], (e :: es). cbn. split; auto. split; [easy|].
        intros y [<- |Hy]; auto. apply (rlt_trans kcmp OK rg (fst e)); auto. apply (B y Hy).
      * exists (e :: a), b. cbn. split; [f_equal; auto|]. split; auto.
        intros y [<- |Hy]; auto.
Qed.

(** ** Consolidation *)

Definition mem (es : list rlock) : N := fold_right (fun e n => lock_size (fst e) + n) 0 es.

Lemma mem_app a b : mem (a ++ b) = mem a + mem b.
Proof. induction a as [|e a IH]; cbn [mem fold_right app]; [reflexivity|]. unfold mem in *. lia. Qed.

Lemma mem_cons e b : mem (e :: b) = lock_size (fst e) + mem b.
Proof. reflexivity. Qed.

Definition hull (rg : rng) (ls : list rlock) : rng :=
  fold_left (fun h e => rextend kcmp h (fst e)) ls rg.

Lemma good_extend a b : goodg a -> goodg b -> goodg (rextend kcmp a b).
Proof.
  intros (Al & Ar & As) (Bl & Br & Bs). unfold rextend.
  destruct (ecmp kcmp (r_l b) (r_l a)); cbn -[ecmp];
    destruct (ecmp kcmp (r_r b) _); refine (conj _ (conj _ _)); auto;
    intros Hd; solve [discriminate Hd | apply As; exact Hd].
Qed.

Lemma pin_extend a b p : valid a -> valid b -> ~ apart a b ->
  pin p (rextend kcmp a b) -> pin p a \/ pin p b.
Proof.
  intros Va Vb Hn [P1 P2].
  destruct (le_or_lt kcmp OK (r_l a) p) as [H1|H1].
  - destruct (le_or_lt kcmp OK p (r_r a)) as [H2|H2]; [left; split; auto|]. right.
    split.
    + destruct (le_or_lt kcmp OK (r_l b) p) as [|H3]; auto. exfalso. apply Hn. left.
      unfold LtTreeProofs.rlt. eapply (lt_trans kcmp OK); eauto.
    + destruct (extend_ends kcmp a b) as [_ [E|E]]; rewrite E in P2; auto.
      exfalso. apply (lt_not kcmp OK) in H2. auto.
  - right. split.
    + destruct (extend_ends kcmp a b) as [[E|E] _]; rewrite E in P1; auto.
      exfalso. apply (lt_not kcmp OK) in H1. auto.
    + destruct (le_or_lt kcmp OK p (r_r b)) as [|H3]; auto. exfalso. apply Hn. right.
      unfold LtTreeProofs.rlt. eapply (lt_trans kcmp OK); eauto.
Qed.

Lemma hull_ok ls : forall rg, valid rg -> goodg rg ->
  (forall e, In e ls -> valid (fst e) /\ goodg (fst e) /\ ~ apart rg (fst e)) ->
  let h := hull rg ls in
  valid h /\ goodg h /\ within rg h /\ (forall e, In e ls -> within (fst e) h) /\
  (forall c, rlt c rg -> (forall e, In e ls -> rlt c (fst e)) -> rlt c h) /\
  (forall c, rlt rg c -> (forall e, In e ls -> rlt (fst e) c) -> rlt h c) /\
  (forall p, pin p h -> pin p rg \/ exists e, In e ls /\ pin p (fst e)).
Proof.
  induction ls as [|e ls IH]; intros rg V G H; cbn zeta.
  - cbn. refine (conj V (conj G (conj (within_refl kcmp OK rg) (conj _ (conj _ (conj _ _)))))); auto.
    easy.
  - cbn [hull fold_left]. fold (hull (rextend kcmp rg (fst e)) ls).
    destruct (H e (or_introl eq_refl)) as (Ve & Ge & Ne).
    set (rg1 := rextend kcmp rg (fst e)).
    assert (W : within rg rg1) by (apply extend_l; auto).
    destruct (IH rg1) as (I1 & I2 & I3 & I4 & I5 & I6 & I7).
    + apply extend_valid; auto.
    + apply good_extend; auto.
    + intros y Hy. destruct (H y (or_intror Hy)) as (Vy & Gy & Ny).
      refine (conj Vy (conj Gy _)). intros Ha. apply Ny. eapply within_apart; eauto.
    + refine (conj I1 (conj I2 (conj _ (conj _ (conj _ (conj _ _)))))).
      * eapply within_trans; eauto.
      * intros y [<- |Hy]; auto. eapply within_trans; [auto| |exact I3]. apply extend_r; auto.
      * intros c Hc Hl. apply I5; [|intros; apply Hl; right; auto].
        apply extend_rlt_l; auto. apply Hl. left; auto.
      * intros c Hc Hl. apply I6; [|intros; apply Hl; right; auto].
        apply extend_rlt_r; auto. apply Hl. left; auto.
      * intros p Hp. destruct (I7 p Hp) as [Hq|(y & Hy & Hq)].
        -- apply pin_extend in Hq; auto. destruct Hq; auto. right. exists e. split; auto. left; auto.
        -- right. exists y. split; auto. right; auto.
Qed.

Lemma remove_lock_ok k m g x a b : lkr_ok k -> kelems k = a ++ (g, x) :: b ->
  ~ apart (k_rng k) g -> lock_size g <= m ->
  exists k', remove_lock kcmp overhead k m g = Some (k', m - lock_size g) /\
    lkr_ok k' /\ kelems k' = a ++ b /\ k_rng k' = k_rng k /\ k_ctx k' = k_ctx k.
Proof.
  intros K E N M. assert (valid g) as V.
  { destruct K as (D & _). apply (dsorted_valid kcmp _ (g, x) D). rewrite E. apply in_elt. }
  destruct (remove_ok kcmp OK k g a b g x) as (k' & R & K' & E' & Hr); auto.
  { apply req_refl; auto. }
  exists k'. unfold remove_lock. rewrite R. unfold mem_released.
  replace (lock_size g <=? m) with true by (symmetry; apply N.leb_le; auto). auto.
Qed.

Lemma consolidate_ok x ls : forall k m rg a b,
  lkr_ok k -> kelems k = a ++ ls ++ b ->
  Forall (fun e => snd e = x) ls -> (forall e, In e ls -> ~ apart (k_rng k) (fst e)) ->
  mem ls <= m ->
  exists k' m', consolidate kcmp overhead k m x rg ls = Some (k', m', hull rg ls) /\
    m' = m - mem ls /\
    lkr_ok k' /\ kelems k' = a ++ b /\ k_rng k' = k_rng k /\ k_ctx k' = k_ctx k.
Proof.
  induction ls as [|[g y] ls IH]; intros k m rg a b K E O N M.
  - exists k, m. cbn. refine (conj eq_refl (conj _ (conj K _))); auto. cbn. lia.
  - rewrite mem_cons in M. cbn [fst] in M.
    apply Forall_cons_iff in O. destruct O as [O1 O]. cbn in O1. subst y.
    cbn [consolidate]. rewrite N.eqb_refl.
    destruct (remove_lock_ok k m g x a (ls ++ b)) as (k1 & R & K1 & E1 & Hr1 & Hc1); auto.
    { apply (N (g, x)). left; auto. } { lia. }
    cbn zeta. rewrite R.
    destruct (IH k1 (m - lock_size g) (rextend kcmp rg g) a b) as (k2 & m2 & C & Em & K2 & E2 & Hr2 & Hc2); auto.
    { rewrite Hr1. intros e He. apply N. right; auto. } { lia. }
    exists k2, m2. rewrite C. rewrite mem_cons. cbn [fst].
    refine (conj eq_refl (conj _ (conj K2 (conj E2 (conj _ _))))); try congruence. lia.
Qed.

(** The effect of granting [rg] to [x] on the list of locks. *)
Record widen (es : list rlock) (x : txnid) (rg : rng) (es' : list rlock) : Prop := {
  wd_shape : exists a own b h, es = a ++ own ++ b /\ es' = a ++ (h, x) :: b /\
    Forall (fun e => snd e = x) own /\
    (forall e, In e own -> ~ apart rg (fst e)) /\
    (forall e, In e a -> rlt (fst e) rg) /\ (forall e, In e b -> rlt rg (fst e)) /\
    within rg h /\ (forall e, In e own -> within (fst e) h) /\
    (forall p, pin p h -> pin p rg \/ exists e, In e own /\ pin p (fst e));
  wd_sorted : dsorted es';
  wd_good : Forall (fun e => goodg (fst e)) es' }.

Lemma copy_fold ls : forall a, fold_left (fold_fn copy_fn) ls a = a ++ ls.
Proof.
  induction ls as [|[g x] ls IH]; intros a; cbn; [rewrite app_nil_r; auto|].
  rewrite IH, <- app_assoc. reflexivity.
Qed.

Lemma copy_sticky : sticky copy_fn.
Proof. intros a g x H. discriminate. Qed.

Lemma acq_cons_ok t m x rg : let es := elems t in
  dsorted es -> Forall (fun e => goodg (fst e)) es -> valid rg -> goodg rg -> mem es <= m ->
  exists an k' m', acquire_consolidated kcmp overhead (lkr_prepare t) m x rg = Some (an, k', m') /\
  match an with
  | NotGranted c => kelems k' = es /\ m' = m /\ c <> [] /\
      (forall y, In y c <-> y <> x /\ exists g, In (g, y) es /\ ~ apart rg g)
  | Granted => widen es x rg (kelems k') /\ m' + mem es = m + mem (kelems k')
  end.
Proof.
  cbn zeta. intros D G V Gr M. unfold acquire_consolidated.
  destruct (acquire_ok kcmp OK t rg V D) as (k1 & -> & K1 & E1 & R1).
  destruct (iterate_ok kcmp OK k1 copy_fn [] K1 copy_sticky) as (k2 & I2 & K2 & E2 & R2 & _).
  rewrite I2, copy_fold, R1, E1. cbn [app].
  destruct (ovl_split (elems t) rg D V) as (a & b & Hs & Ha & Hb).
  set (own := filter (ovl rg) (elems t)) in *.
  assert (Ho : forall e, In e own -> valid (fst e) /\ goodg (fst e) /\ ~ apart rg (fst e)).
  { intros e He. apply filter_In in He. destruct He as [He Hv].
    assert (valid (fst e)) by (eapply dsorted_valid; eauto).
    rewrite Forall_forall in G. refine (conj _ (conj (G e He) _)); auto.
    apply ovl_iff; auto. }
  destruct (conflicting x own []) as [|c0 c] eqn:Ec.
  - apply conflicting_nil in Ec.
    destruct (consolidate_ok x own k2 m rg a b) as (k3 & m3 & C3 & Em3 & K3 & E3 & R3 & _); auto.
    { congruence. }
    { rewrite R2, R1. intros e He. apply Ho; auto. }
    { rewrite Hs, !mem_app in M. lia. }
    rewrite C3.
    destruct (hull_ok own rg V Gr Ho) as (H1 & H2 & H3 & H4 & H5 & H6 & H7).
    set (h := hull rg own) in *.
    assert (HD : forall e, In e a -> rlt (fst e) h).
    { intros e He. apply H5; auto. intros e' He'. rewrite Hs in D.
      apply dsorted_app in D. destruct D as (_ & _ & D). apply D; auto. apply in_or_app; auto. }
    assert (HE : forall e, In e b -> rlt h (fst e)).
    { intros e He. apply H6; auto. intros e' He'. rewrite Hs in D.
      apply dsorted_app in D. destruct D as (_ & D & _).
      apply dsorted_app in D. destruct D as (_ & _ & D). apply D; auto. }
    destruct (insert_ok kcmp OK k3 h x) as (k4 & a' & b' & I4 & K4 & E4 & E4' & _); auto.
    { intros e He. rewrite E3 in He. apply in_app_or in He. destruct He; [right|left]; auto. }
    { rewrite R3, R2, R1. intros Hp.
      eapply (pin_not_apart rg h (r_l rg)); auto using pin_l.
      eapply pin_within; eauto using pin_l. }
    assert (a' = a /\ b' = b) as [-> ->].
    { destruct K4 as (D4 & _). rewrite E4' in D4. rewrite E3 in E4.
      apply dsorted_app in D4. destruct D4 as (_ & D4b & D4).
      apply dsorted_cons in D4b. destruct D4b as (_ & _ & D4b).
      assert (forall e, In e a' -> rlt (fst e) h) as Ha' by (intros e He; apply (D4 e (h, x)); auto; left; auto).
      assert (forall e, In e b' -> rlt h (fst e)) as Hb' by (intros e He; apply (D4b e); auto).
      assert (forall e, In e (a ++ b) -> rlt (fst e) h -> rlt h (fst e) -> False) as Hasy.
      { intros e Hi A B. apply (rlt_asym kcmp OK (fst e) h); auto.
        apply (dsorted_valid kcmp (elems t) e D). rewrite Hs. rewrite !in_app_iff in *. tauto. }
      clear - E4 Ha' Hb' HD HE Hasy.
      revert a' E4 Ha'. induction a as [|e a IHa]; intros a' E4 Ha'.
      - destruct a' as [|e' a']; cbn in E4; [auto|]. exfalso. subst b.
        apply (Hasy e'); [left; auto|apply Ha'|apply HE]; left; auto.
      - destruct a' as [|e' a']; cbn in E4.
        + exfalso. subst b'. apply (Hasy e); [left; auto|apply HD|apply Hb']; left; auto.
        + inversion E4. subst e'. destruct (IHa (fun e H => HD e (or_intror H)) (fun e H => Hasy e (or_intror H)) a'); auto.
          * intros y Hy. apply Ha'. right; auto.
          * subst. auto. }
    unfold insert_lock. rewrite I4.
    eexists _, _, _. split; [reflexivity|]. cbn beta iota. split.
    + constructor.
      * exists a, own, b, h. rewrite E4'.
        refine (conj Hs (conj eq_refl (conj Ec (conj _ (conj Ha (conj Hb (conj H3 (conj H4 H7)))))))).
        intros e He. apply Ho; auto.
      * apply K4.
      * rewrite E4'. rewrite Hs in G. rewrite !Forall_app in G. destruct G as (? & ? & ?).
        rewrite Forall_app. split; auto.
    + rewrite E4', Hs, !mem_app, mem_cons. cbn [fst]. rewrite Hs, !mem_app in M. lia.
  - eexists _, _, _. split; [reflexivity|]. cbn beta iota.
    refine (conj _ (conj eq_refl (conj _ _))); [congruence|easy|].
    intros y. rewrite <- Ec, conflicting_in. split.
    + intros [[]|(Hn & g & Hg)]. split; auto. exists g.
      split; [apply filter_In in Hg; tauto|]. apply (Ho (g, y)); auto.
    + intros (Hn & g & Hg & Hp). right. split; auto. exists g.
      apply filter_In. split; auto. apply ovl_iff; auto. eapply dsorted_valid in Hg; eauto.
Qed.

(** ** What a change of the list of locks keeps *)

Definition tag (x : txnid) (gs : list rng) : list rlock := map (fun g => (g, x)) gs.

(** Same owners and points, possibly cut into other pieces; every old piece lies
    in one new piece, every new piece contains an old one. *)
Record regroup (L L' : list rlock) : Prop := {
  rg_keep : forall g y, In (g, y) L -> exists h, In (h, y) L' /\ within g h;
  rg_based : forall h y, In (h, y) L' -> exists g, In (g, y) L /\ within g h;
  rg_exact : forall p h y, In (h, y) L' -> pin p h -> exists g, In (g, y) L /\ pin p g }.

(** The same with the range [rg] added for [x]. *)
Record grants (L : list rlock) (x : txnid) (rg : rng) (L' : list rlock) : Prop := {
  gr_keep : forall g y, In (g, y) L -> exists h, In (h, y) L' /\ within g h;
  gr_has : exists h, In (h, x) L' /\ within rg h;
  gr_based : forall h y, In (h, y) L' ->
    (exists g, In (g, y) L /\ within g h) \/ (y = x /\ within rg h);
  gr_exact : forall p h y, In (h, y) L' -> pin p h ->
    (exists g, In (g, y) L /\ pin p g) \/ (y = x /\ pin p rg) }.

Lemma regroup_refl L : regroup L L.
Proof.
  constructor; eauto.
  - intros g y H. exists g. split; auto. apply within_refl; auto.
  - intros g y H. exists g. split; auto. apply within_refl; auto.
Qed.

Lemma regroup_trans A B C : regroup A B -> regroup B C -> regroup A C.
Proof.
  intros [K1 B1 E1] [K2 B2 E2]. constructor.
  - intros g y H. destruct (K1 g y H) as (h & H1 & W1). destruct (K2 h y H1) as (i & H2 & W2).
    exists i. split; auto. eapply within_trans; eauto.
  - intros g y H. destruct (B2 g y H) as (h & H1 & W1). destruct (B1 h y H1) as (i & H2 & W2).
    exists i. split; auto. eapply within_trans; eauto.
  - intros p h y H P. destruct (E2 p h y H P) as (g & H1 & P1). eauto.
Qed.

Lemma regroup_grants A B C x rg : regroup A B -> grants B x rg C -> grants A x rg C.
Proof.
  intros [K1 B1 E1] [K2 Hs B2 E2]. constructor; auto.
  - intros g y H. destruct (K1 g y H) as (h & H1 & W1). destruct (K2 h y H1) as (i & H2 & W2).
    exists i. split; auto. eapply within_trans; eauto.
  - intros g y H. destruct (B2 g y H) as [(h & H1 & W1)|H1]; auto.
    destruct (B1 h y H1) as (i & H2 & W2).
    left. exists i. split; auto. eapply within_trans; eauto.
  - intros p h y H P. destruct (E2 p h y H P) as [(g & H1 & P1)|H1]; auto.
    left. eauto.
Qed.

Lemma widen_grants es x rg es' : widen es x rg es' -> grants es x rg es'.
Proof.
  intros [(a & own & b & h & -> & -> & O & N & Ha & Hb & W & Wo & P) _ _].
  rewrite Forall_forall in O. constructor.
  - intros g y H. rewrite !in_app_iff in H. destruct H as [H|[H|H]].
    + exists g. split; [apply in_or_app; auto|apply within_refl; auto].
    + pose proof (O _ H) as Hy. cbn in Hy. subst y. exists h. split; [apply in_elt|].
      apply (Wo _ H).
    + exists g. split; [apply in_or_app; right; right; auto|apply within_refl; auto].
  - exists h. split; auto. apply in_elt.
  - intros g y H. apply in_app_or in H. destruct H as [H|[H|H]].
    + left. exists g. split; [apply in_or_app; auto|apply within_refl; auto].
    + injection H as <- <-. auto.
    + left. exists g. split; [rewrite !in_app_iff; auto|apply within_refl; auto].
  - intros p g y H Pg. apply in_app_or in H. destruct H as [H|[H|H]].
    + left. exists g. split; auto. apply in_or_app; auto.
    + injection H as <- <-. destruct (P p Pg) as [|([g' y'] & H & Pe)]; auto.
      left. pose proof (O _ H) as Hy. cbn in *. subst y'.
      exists g'. split; auto. rewrite !in_app_iff; auto.
    + left. exists g. split; auto. rewrite !in_app_iff; auto.
Qed.

Lemma widen_owner es x rg es' : widen es x rg es' ->
  Forall (fun e => snd e = x) es -> Forall (fun e => snd e = x) es'.
Proof.
  intros [(a & own & b & h & -> & -> & _) _ _]. rewrite !Forall_app. intros (? & ? & ?).
  split; auto.
Qed.

Lemma widen_ne es x rg es' : widen es x rg es' -> es' <> [].
Proof. intros [(a & own & b & h & -> & -> & _) _ _]. destruct a; easy. Qed.

(** ** Moving the buffer into the tree *)

Lemma migrate_fill_ok x gs : forall t m,
  dsorted (elems t) -> Forall (fun e => goodg (fst e)) (elems t) ->
  Forall (fun e => snd e = x) (elems t) -> Forall goodg gs -> Forall valid gs ->
  mem (elems t) <= m ->
  exists t' m', migrate_fill kcmp overhead t m x gs = Some (t', m') /\
    dsorted (elems t') /\ Forall (fun e => goodg (fst e)) (elems t') /\
    Forall (fun e => snd e = x) (elems t') /\
    regroup (elems t ++ tag x gs) (elems t') /\
    m' + mem (elems t) = m + mem (elems t') /\
    (gs <> [] -> elems t' <> []).
Proof.
  induction gs as [|g gs IH]; intros t m D G O Gg Vg M.
  - exists t, m. cbn. rewrite app_nil_r.
    refine (conj eq_refl (conj D (conj G (conj O (conj (regroup_refl _) (conj eq_refl _)))))).
    easy.
  - apply Forall_cons_iff in Gg. destruct Gg as [Gg1 Gg].
    apply Forall_cons_iff in Vg. destruct Vg as [Vg1 Vg].
    cbn [migrate_fill].
    destruct (acq_cons_ok t m x g D G Vg1 Gg1 M) as (an & k & m1 & -> & Ha).
    destruct an as [|c].
    + destruct Ha as [W Em].
      assert (kelems k = elems (lkr_release k)) as Ek by reflexivity. rewrite Ek in *.
      destruct (IH (lkr_release k) m1) as (t' & m' & -> & D' & G' & O' & R' & Em' & Hne); auto.
      { apply W. } { apply W. } { eapply widen_owner; eauto. } { lia. }
      exists t', m'. refine (conj eq_refl (conj D' (conj G' (conj O' (conj _ (conj _ _)))))).
      * apply widen_grants in W. destruct W as [K1 H1 B1 E1]. destruct R' as [K2 B2 E2].
        assert (In1 : forall (h : rng) y, In (h, y) (elems (lkr_release k)) ->
          In (h, y) (elems (lkr_release k) ++ tag x gs)) by (intros; apply in_or_app; auto).
        constructor.
        -- intros i y H. apply in_app_or in H. destruct H as [H|[H|H]].
           ++ destruct (K1 _ _ H) as (h & H2 & W). destruct (K2 h y (In1 _ _ H2)) as (h' & H3 & W').
              exists h'. split; auto. eapply within_trans; eauto.
           ++ injection H as <- <-. destruct H1 as (h & H2 & W).
              destruct (K2 h x (In1 _ _ H2)) as (h' & H3 & W').
              exists h'. split; auto. eapply within_trans; eauto.
           ++ apply K2. apply in_or_app; auto.
        -- intros i y H. destruct (B2 _ _ H) as (h & H2 & W). apply in_app_or in H2.
           destruct H2 as [H2|H2].
           ++ destruct (B1 _ _ H2) as [(h' & H3 & W')|[-> W']].
              ** exists h'. split; [apply in_or_app; auto|eapply within_trans; eauto].
              ** exists g. split; [apply in_or_app; right; left; auto|eapply within_trans; eauto].
           ++ exists h. split; auto. apply in_or_app; right; right; auto.
        -- intros p i y H P. destruct (E2 p _ _ H P) as (h & H2 & W). apply in_app_or in H2.
           destruct H2 as [H2|H2].
           ++ destruct (E1 p _ _ H2 W) as [(h' & H3 & W')|[-> W']].
              ** exists h'. split; auto. apply in_or_app; auto.
              ** exists g. split; auto. apply in_or_app; right; left; auto.
           ++ exists h. split; auto. apply in_or_app; right; right; auto.
      * lia.
      * intros _ Hn. destruct R' as [K2 _ _]. apply widen_grants in W.
        destruct W as [_ (h & H1 & _) _ _].
        destruct (K2 h x) as (h' & H2 & _); [apply in_or_app; auto|]. rewrite Hn in H2. easy.
    + exfalso. destruct Ha as (_ & _ & Hc & Hi). destruct c as [|y c]; [easy|].
      destruct (Hi y) as [(Hn & g' & Hg & _) _]; [left; auto|].
      rewrite Forall_forall in O. apply O in Hg. auto.
Qed.

Lemma filter_inf es : dsorted es -> filter (ovl inf_range) es = es.
Proof.
  intros D. induction es as [|e es IH]; auto. cbn.
  apply dsorted_cons in D. destruct D as (V & D & _). rewrite IH; auto.
  replace (ovl inf_range e) with true; auto. symmetry. apply ovl_iff; auto.
  { apply inf_valid; auto. }
  intros [H|H]; unfold LtTreeProofs.rlt in H; cbn in H; destruct (fst e) as [[| |] [| |] ?]; easy.
Qed.

Lemma migrate_sticky : sticky (migrate_fn kcmp).
Proof. intros a g x H. discriminate. Qed.

Lemma migrate_fold es : forall k, lkr_ok k -> k_rng k = inf_range ->
  dsorted (kelems k ++ es) ->
  exists k', fold_left (fold_fn (migrate_fn kcmp)) es (Some k) = Some k' /\
    lkr_ok k' /\ k_rng k' = inf_range /\ k_ctx k' = k_ctx k /\ kelems k' = kelems k ++ es.
Proof.
  induction es as [|[g x] es IH]; intros k K R D.
  - exists k. rewrite app_nil_r. cbn. tauto.
  - assert (D' := D). apply dsorted_app in D'. destruct D' as (_ & D1 & D2).
    apply dsorted_cons in D1. destruct D1 as (V & D1 & _). cbn in V.
    destruct (insert_ok kcmp OK k g x) as (k1 & a & b & I & K1 & E1 & E1' & R1 & C1); auto.
    { intros e He. right. apply (D2 e (g, x)); auto. left; auto. }
    { rewrite R. intros [H|H]; unfold LtTreeProofs.rlt in H; cbn in H; destruct g as [[| |] [| |] ?]; easy. }
    assert (b = []) as ->.
    { destruct b as [|e b]; auto. exfalso.
      assert (In e (kelems k)) as He by (rewrite E1; apply in_elt).
      assert (valid (fst e)) as Ve.
      { apply (dsorted_valid kcmp (kelems k)); auto. apply K. }
      destruct K1 as (DK & _). rewrite E1' in DK. apply dsorted_app in DK.
      destruct DK as (_ & DK & _). apply dsorted_cons in DK. destruct DK as (_ & _ & DK).
      apply (rlt_asym kcmp OK (fst e) g); auto.
      - apply (D2 e (g, x)); auto. left; auto.
      - apply (DK e). left; auto. }
    rewrite app_nil_r in E1. subst a.
    cbn [fold_left]. unfold fold_fn at 2. cbn [migrate_fn fst snd]. rewrite I.
    destruct (IH k1) as (k' & F & K' & R' & C' & E'); auto; try congruence.
    { rewrite E1', <- app_assoc. exact D. }
    exists k'. refine (conj F (conj K' (conj R' (conj _ _)))); [congruence|].
    rewrite E', E1', <- app_assoc. reflexivity.
Qed.

Lemma prepare_ok t : dsorted (elems t) -> lkr_ok (lkr_prepare t).
Proof.
  intros D. unfold LtTreeProofs.lkr_ok, placed, anchored. cbn.
  refine (conj D (conj _ (conj (inf_valid kcmp) _))); auto. split; easy.
Qed.

Lemma lkr_eta k : k_ctx k = [] -> k_rng k = inf_range -> k = lkr_prepare (lkr_release k).
Proof. destruct k as [c s r]. cbn. intros -> ->. reflexivity. Qed.

(** ** The invariant of one lock tree *)

(** [gs] is the content of the single transaction's buffer, [ext] the memory
    counted for other things. *)
Record lt_inv (s : LtModel.lt) (gs : list rng) (ext : N) : Prop := {
  li_sorted : dsorted (elems (lt_tree s));
  li_good : Forall (fun e => goodg (fst e)) (elems (lt_tree s));
  li_rep : rb_rep (lt_buf s) gs;
  li_bufs : Forall goodg gs;
  li_bufv : Forall valid gs;
  li_none : lt_sto s = TXNID_NONE -> gs = [];
  li_sto : lt_sto s <> TXNID_NONE -> lt_tree s = E /\ gs <> [];
  li_mem : lt_mem s = mem (elems (lt_tree s)) + rb_mem (lt_buf s) + ext }.

(** All locks in force. *)
Definition locks (s : LtModel.lt) (gs : list rng) : list rlock :=
  elems (lt_tree s) ++ tag (lt_sto s) gs.

Lemma rb_mem_empty : rb_mem rb_empty = 0.
Proof. reflexivity. Qed.

Lemma in_tag g y x gs : In (g, y) (tag x gs) <-> y = x /\ In g gs.
Proof.
  unfold tag. rewrite in_map_iff. split.
  - intros (h & [= <- <-] & H). auto.
  - intros [-> H]. eauto.
Qed.

Lemma ends_regroup x gs rs : Permutation (map ends rs) (map ends gs) ->
  regroup (tag x gs) (tag x rs).
Proof.
  intros P.
  assert (A : forall g, In g gs -> exists r, In r rs /\ ends r = ends g).
  { intros g H. apply (in_map ends) in H. apply (Permutation_in _ (Permutation_sym P)) in H.
    apply in_map_iff in H. destruct H as (r & ? & ?). eauto. }
  assert (B : forall r, In r rs -> exists g, In g gs /\ ends g = ends r).
  { intros g H. apply (in_map ends) in H. apply (Permutation_in _ P) in H.
    apply in_map_iff in H. destruct H as (r & ? & ?). eauto. }
  constructor.
  - intros g y H. apply in_tag in H. destruct H as [-> H]. destruct (A g H) as (r & Hr & [= E1 E2]).
    exists r. rewrite in_tag. split; auto. unfold LtTreeProofs.within. rewrite E1, E2.
    split; apply (le_refl kcmp OK).
  - intros g y H. apply in_tag in H. destruct H as [-> H]. destruct (B g H) as (r & Hr & [= E1 E2]).
    exists r. rewrite in_tag. split; auto. unfold LtTreeProofs.within. rewrite E1, E2.
    split; apply (le_refl kcmp OK).
  - intros p g y H Pg. apply in_tag in H. destruct H as [-> H].
    destruct (B g H) as (r & Hr & [= E1 E2]).
    exists r. rewrite in_tag. split; auto. unfold pin. rewrite E1, E2. exact Pg.
Qed.

Lemma ends_props gs rs : Permutation (map ends rs) (map ends gs) -> Forall sane rs ->
  Forall goodg gs -> Forall valid gs -> Forall goodg rs /\ Forall valid rs.
Proof.
  rewrite !Forall_forall. intros P S G V.
  assert (B : forall r, In r rs -> exists g, In g gs /\ ends g = ends r).
  { intros g H. apply (in_map ends) in H. apply (Permutation_in _ P) in H.
    apply in_map_iff in H. destruct H as (r & ? & ?). eauto. }
  split; intros r Hr; destruct (B r Hr) as (g & Hg & E).
  - apply (good_ends g); auto.
  - unfold LtTreeProofs.valid. injection E as E1 E2. rewrite <- E1, <- E2. apply V; auto.
Qed.

Lemma sto_end_early_ok s gs ext : lt_inv s gs ext -> lt_sto s <> TXNID_NONE ->
  exists s' t', sto_end_early kcmp overhead s (lkr_prepare E) = Some (s', lkr_prepare t') /\
    lt_sto s' = TXNID_NONE /\ lt_buf s' = rb_empty /\
    dsorted (elems t') /\ Forall (fun e => goodg (fst e)) (elems t') /\
    lt_mem s' = mem (elems t') + ext /\ regroup (locks s gs) (elems t') /\
    t' <> E /\ Forall (fun e => snd e = lt_sto s) (elems t').
Proof.
  intros I Hs. destruct (li_sto _ _ _ I Hs) as [Et Hg].
  unfold sto_end_early, sto_migrate.
  destruct (rb_is_empty (lt_buf s)) eqn:Ee.
  { exfalso. apply Hg. eapply rep_nil_iff; [apply I|auto]. }
  rewrite Et. cbn [negb is_E].
  destruct (rep_records _ _ (li_rep _ _ _ I)) as (rs & -> & P & Sn & _).
  destruct (ends_props gs rs P Sn (li_bufs _ _ _ I) (li_bufv _ _ _ I)) as [Gr Vr].
  destruct (migrate_fill_ok (lt_sto s) rs E (lt_mem s)) as (t & m & -> & D & G & O & R & Em & Hne); auto.
  { apply dsorted_nil. } { cbn. constructor. } { cbn. constructor. } { cbn. lia. }
  destruct (iterate_ok kcmp OK (lkr_prepare t) (migrate_fn kcmp) (Some (lkr_prepare E)) (prepare_ok t D) migrate_sticky)
    as (k1 & -> & _). cbn [fst].
  change (k_rng (lkr_prepare t)) with inf_range. change (kelems (lkr_prepare t)) with (elems t).
  rewrite filter_inf; auto.
  destruct (migrate_fold (elems t) (lkr_prepare E)) as (k2 & -> & K2 & R2 & C2 & E2); auto.
  { apply prepare_ok. apply dsorted_nil. }
  change (kelems (lkr_prepare E)) with (@nil rlock) in E2. cbn [app] in E2.
  assert (elems t <> []) as Hn.
  { apply Hne. intros ->. cbn in P. apply Permutation_nil in P. apply map_eq_nil in P. auto. }
  replace (is_E (lkr_release k2)) with false.
  2: { destruct (lkr_release k2) eqn:Er; auto. exfalso. apply Hn. rewrite <- E2. unfold kelems. rewrite Er. reflexivity. }
  cbn [negb]. unfold sto_end, mem_released.
  pose proof (li_mem _ _ _ I) as Hm. rewrite Et in Hm. cbn [elems] in Hm, Em.
  change (mem []) with 0 in Hm, Em.
  replace (rb_mem (lt_buf s) <=? m) with true by (symmetry; apply N.leb_le; lia).
  rewrite (lkr_eta k2) by auto.
  eexists _, (lkr_release k2). split; [reflexivity|]. cbn [lt_sto lt_buf lt_mem].
  unfold kelems in E2. rewrite E2.
  refine (conj eq_refl (conj eq_refl (conj D (conj G (conj _ (conj _ (conj _ O))))))).
  - lia.
  - unfold locks. rewrite Et. cbn [elems app]. eapply regroup_trans; [|exact R].
    cbn [elems app]. apply ends_regroup. auto.
  - intros Hz. rewrite Hz in E2. apply Hn. symmetry. exact E2.
Qed.

(** ** Acquiring *)

Lemma regroup_conflict L L' x rg : Forall (fun e => valid (fst e)) L' -> valid rg ->
  regroup L L' -> forall y,
  (y <> x /\ exists g, In (g, y) L' /\ ~ apart rg g) <-> (y <> x /\ exists g, In (g, y) L /\ ~ apart rg g).
Proof.
  intros V Vr [K B E] y. split; intros (Hn & g & Hg & Ha); split; auto.
  - rewrite Forall_forall in V. destruct (not_apart_pin rg g) as (p & P1 & P2); auto.
    { apply (V _ Hg). }
    destruct (E p g y Hg P2) as (g' & Hg' & P3). exists g'. split; auto.
    eapply pin_not_apart; eauto.
  - destruct (K g y Hg) as (h & Hh & W). exists h. split; auto.
    intros Hp. apply Ha. apply apart_sym. eapply within_apart; eauto. apply apart_sym. auto.
Qed.

Lemma locks_none s : locks s [] = elems (lt_tree s).
Proof. unfold locks. cbn. apply app_nil_r. Qed.

Lemma widen_free es x rg es' : widen es x rg es' ->
  forall g y, In (g, y) es -> y <> x -> apart rg g.
Proof.
  intros [(a & own & b & h & -> & _ & O & _ & Ha & Hb & _) _ _] g y H Hn.
  rewrite !in_app_iff in H. destruct H as [H|[H|H]].
  - right. apply (Ha _ H).
  - rewrite Forall_forall in O. apply O in H. cbn in H. congruence.
  - left. apply (Hb _ H).
Qed.

Lemma append_lt_ok s gs ext x rg : rb_rep (lt_buf s) gs ->
  Forall goodg gs -> Forall valid gs -> lt_tree s = E -> lt_sto s = x -> x <> TXNID_NONE ->
  lt_mem s = rb_mem (lt_buf s) + ext -> valid rg -> goodg rg ->
  exists s', sto_append s rg = Some s' /\ lt_inv s' (gs ++ [rg]) ext /\
    lt_tree s' = E /\ lt_sto s' = x /\ grants (tag x gs) x rg (locks s' (gs ++ [rg])).
Proof.
  intros R G V Et Es Hx M Vr Gr. unfold sto_append.
  destruct (rep_append _ _ rg R (good_storable _ Gr)) as (b' & -> & R' & L).
  eexists. split; [reflexivity|]. cbn [lt_tree lt_sto].
  refine (conj _ (conj Et (conj Es _))).
  - constructor; cbn [lt_tree lt_sto lt_buf lt_mem]; auto.
    + rewrite Et. apply dsorted_nil.
    + rewrite Et. constructor.
    + apply Forall_app. split; auto.
    + apply Forall_app. split; auto.
    + congruence.
    + intros _. split; auto. destruct gs; easy.
    + rewrite Et. cbn [elems]. change (mem []) with 0. lia.
  - unfold locks. cbn [lt_tree lt_sto]. rewrite Et, Es. cbn [elems app].
    unfold tag. rewrite map_app. constructor.
    + intros g y H. exists g. split; [apply in_or_app; auto|apply within_refl; auto].
    + exists rg. split; [apply in_or_app; right; left; auto|apply within_refl; auto].
    + intros h y H. apply in_app_or in H. destruct H as [H|[[= <- <-]|[]]].
      * left. exists h. split; auto. apply within_refl; auto.
      * right. split; auto. apply within_refl; auto.
    + intros p h y H P. apply in_app_or in H. destruct H as [H|[[= <- <-]|[]]]; eauto.
Qed.

Definition acquired (L : list rlock) (x : txnid) (rg : rng) (an : answer) (L' : list rlock) : Prop :=
  match an with
  | Granted => grants L x rg L' /\ (forall g y, In (g, y) L -> y <> x -> apart rg g)
  | NotGranted c => regroup L L' /\ c <> [] /\
      (forall y, In y c <-> y <> x /\ exists g, In (g, y) L /\ ~ apart rg g)
  end.

Lemma acq_tree_ok L t m x rg ext buf score : dsorted (elems t) ->
  Forall (fun e => goodg (fst e)) (elems t) -> valid rg -> goodg rg ->
  m = mem (elems t) + ext -> regroup L (elems t) -> rb_rep buf [] -> rb_mem buf = 0 ->
  exists an k' m', acquire_consolidated kcmp overhead (lkr_prepare t) m x rg = Some (an, k', m') /\
    let s' := Lt (lkr_release k') TXNID_NONE buf score m' in
    lt_inv s' [] ext /\ acquired L x rg an (locks s' []).
Proof.
  intros D G V Gr M R Rb Mb.
  destruct (acq_cons_ok t m x rg D G V Gr) as (an & k' & m' & HA & H); [lia|].
  exists an, k', m'. split; auto. cbn zeta. rewrite locks_none. cbn [lt_tree].
  change (elems (lkr_release k')) with (kelems k').
  destruct an as [|c].
  - destruct H as [W Em]. split.
    + constructor; cbn [lt_tree lt_sto lt_buf lt_mem]; auto.
      * apply W. * apply W. * easy. 
      * change (elems (lkr_release k')) with (kelems k'). lia.
    + split; [eapply regroup_grants; eauto; apply widen_grants; auto|].
      intros g y Hi Hn. destruct (rg_keep _ _ R _ _ Hi) as (h & Hh & Wh).
      apply apart_sym. eapply within_apart; eauto. apply apart_sym. eapply widen_free; eauto.
  - destruct H as (Ek & -> & Hc & Hi). split.
    + constructor; cbn [lt_tree lt_sto lt_buf lt_mem]; auto;
        change (elems (lkr_release k')) with (kelems k'); rewrite ?Ek; auto; try easy. lia.
    + rewrite Ek. split; auto. split; auto. intros y. rewrite Hi.
      apply regroup_conflict; auto. apply D.
Qed.

Lemma acquire_lock_ok s gs ext x rg :
  lt_inv s gs ext -> x <> TXNID_NONE -> valid rg -> goodg rg ->
  exists an s' gs', acquire_lock kcmp overhead s x rg = Some (an, s') /\
    lt_inv s' gs' ext /\ acquired (locks s gs) x rg an (locks s' gs') /\
    (an <> Granted -> lt_sto s' = TXNID_NONE).
Proof.
  intros I Hx V Gr. unfold acquire_lock, sto_try_acquire.
  pose proof (li_mem _ _ _ I) as Hm.
  destruct (is_E (lt_tree s) && rb_is_empty (lt_buf s) && (STO_SCORE_THRESHOLD <=? lt_score s)%Z) eqn:E1.
  - apply andb_prop in E1. destruct E1 as [E1 _]. apply andb_prop in E1. destruct E1 as [E1 E2].
    assert (lt_tree s = E) as Et by (destruct (lt_tree s); easy).
    assert (gs = []) as -> by (eapply rep_nil_iff; [apply I|auto]).
    assert (lt_sto s = TXNID_NONE) as Es.
    { destruct (N.eq_dec (lt_sto s) TXNID_NONE); auto.
      destruct (li_sto _ _ _ I n) as [_ H]. easy. }
    rewrite Es, N.eqb_refl. cbn [lt_sto lt_buf].
    replace (x =? TXNID_NONE) with false by (symmetry; apply N.eqb_neq; auto). cbn [negb].
    rewrite N.eqb_refl.
    destruct (append_lt_ok (Lt (lt_tree s) x (lt_buf s) (lt_score s) (lt_mem s)) [] ext x rg)
      as (s' & Ha & I' & Et' & Es' & Gt); auto.
    { apply I. } { cbn [lt_mem lt_buf]. rewrite Et in Hm. cbn [elems] in Hm. change (mem []) with 0 in Hm. lia. }
    rewrite Ha. rewrite Et. cbn [lkr_prepare lkr_release k_ctx k_sub plug].
    exists Granted, (set_tree s' E (lt_mem s')), ([] ++ [rg]).
    assert (set_tree s' E (lt_mem s') = s') as -> by (destruct s'; cbn in *; unfold set_tree; cbn; congruence).
    refine (conj eq_refl (conj I' (conj _ (fun Hf => False_ind _ (Hf eq_refl))))). cbn [acquired].
    rewrite locks_none, Et. cbn [elems]. split; [exact Gt|easy].
  - destruct (lt_sto s =? TXNID_NONE) eqn:E2; cbn [negb].
    + apply N.eqb_eq in E2. assert (gs = []) as -> by (apply I; auto).
      rewrite E2. cbn [negb]. rewrite N.eqb_refl. cbn [negb].
      assert (rb_is_empty (lt_buf s) = true) as Eb by (eapply rep_nil_iff; [apply I|auto]).
      rewrite Eb.
      assert (rb_mem (lt_buf s) = 0) as Mb by (unfold rb_is_empty in Eb; apply N.eqb_eq; auto).
      destruct (acq_tree_ok (elems (lt_tree s)) (lt_tree s) (lt_mem s) x rg ext (lt_buf s) (lt_score s))
        as (an & k & m & -> & I' & A); auto; try apply I.
      { lia. } { apply regroup_refl. }
      exists an, (set_tree s (lkr_release k) m), []. split; [reflexivity|].
      unfold set_tree. rewrite E2. split; [exact I'|]. rewrite locks_none. split; [exact A|reflexivity].
    + assert (lt_sto s <> TXNID_NONE) as Hs by (apply N.eqb_neq; auto).
      destruct (li_sto _ _ _ I Hs) as [Et Hg].
      destruct (negb (lt_sto s =? x) || (STO_BUFFER_MAX_SIZE <? b_num (lt_buf s))) eqn:E3.
      * rewrite Et.
        destruct (sto_end_early_ok s gs ext I Hs) as (s1 & t1 & -> & Es1 & Eb1 & D1 & G1 & M1 & R1 & _).
        rewrite Es1, N.eqb_refl. cbn [negb]. rewrite Eb1.
        replace (rb_is_empty rb_empty) with true by reflexivity.
        destruct (acq_tree_ok (locks s gs) t1 (lt_mem s1) x rg ext rb_empty (lt_score s1))
          as (an & k & m & -> & I' & A); auto using rep_empty.
        exists an, (set_tree s1 (lkr_release k) m), []. split; [reflexivity|].
        unfold set_tree. rewrite Es1, Eb1. split; [exact I'|]. split; [exact A|reflexivity].
      * apply orb_false_iff in E3. destruct E3 as [E3 _]. apply negb_false_iff in E3.
        rewrite E2. cbn [negb]. rewrite E3. apply N.eqb_eq in E3.
        destruct (append_lt_ok s gs ext x rg) as (s' & Ha & I' & Et' & Es' & Gt); auto; try apply I.
        { rewrite Et in Hm. cbn [elems] in Hm. change (mem []) with 0 in Hm. lia. }
        rewrite Ha, Et. cbn [lkr_prepare lkr_release k_ctx k_sub plug].
        exists Granted, (set_tree s' E (lt_mem s')), (gs ++ [rg]).
        assert (set_tree s' E (lt_mem s') = s') as -> by (destruct s'; cbn in *; unfold set_tree; cbn; congruence).
        refine (conj eq_refl (conj I' (conj _ (fun Hf => False_ind _ (Hf eq_refl))))). cbn [acquired].
        unfold locks at 1 3. rewrite Et, E3. cbn [elems app]. split; [exact Gt|].
        intros g y H Hn. apply in_tag in H. destruct H. congruence.
Qed.

Lemma get_conflicts_ok s gs ext x rg : lt_inv s gs ext -> valid rg ->
  exists c s', get_conflicts kcmp s x rg = Some (c, s') /\ lt_inv s' gs ext /\
    elems (lt_tree s') = elems (lt_tree s) /\ lt_sto s' = lt_sto s /\
    (forall y, In y c <-> y <> x /\ exists g, In (g, y) (elems (lt_tree s)) /\ ~ apart rg g).
Proof.
  intros I V. unfold get_conflicts.
  destruct (acquire_ok kcmp OK (lt_tree s) rg V (li_sorted _ _ _ I)) as (k1 & -> & K1 & E1 & R1).
  destruct (iterate_ok kcmp OK k1 copy_fn [] K1 copy_sticky) as (k2 & I2 & K2 & E2 & R2 & _).
  rewrite I2, copy_fold, R1, E1. cbn [app].
  eexists _, _. split; [reflexivity|].
  assert (elems (lkr_release k2) = elems (lt_tree s)) as Ee by (transitivity (kelems k2); [reflexivity|congruence]).
  split; [|split; [|split]].
  - destruct I. constructor; cbn [set_tree lt_tree lt_sto lt_buf lt_mem]; rewrite ?Ee; auto.
    intros Hn. destruct (li_sto0 Hn) as [Et ?]. split; auto. rewrite Et in Ee. apply elems_E; auto.
  - exact Ee.
  - reflexivity.
  - intros y. rewrite conflicting_in. split.
    + intros [[]|(Hn & g & Hg)]. split; auto. exists g. apply filter_In in Hg. destruct Hg as [Hg Ho].
      split; auto. apply (ovl_iff rg (g, y)); auto.
      apply (dsorted_valid kcmp (elems (lt_tree s))); auto. apply I.
    + intros (Hn & g & Hg & Ha). right. split; auto. exists g. apply filter_In. split; auto.
      apply ovl_iff; auto. apply (dsorted_valid kcmp (elems (lt_tree s))); auto. apply I.
Qed.

(** ** Releasing *)

Lemma remove_own_ok x ls : forall k m a b,
  lkr_ok k -> kelems k = a ++ ls ++ b ->
  (forall e, In e ls -> ~ apart (k_rng k) (fst e)) -> mem ls <= m ->
  exists k' m', remove_own kcmp overhead k m x ls = Some (k', m') /\
    lkr_ok k' /\ kelems k' = a ++ filter (fun e => negb (snd e =? x)) ls ++ b /\
    m' + mem ls = m + mem (filter (fun e => negb (snd e =? x)) ls).
Proof.
  induction ls as [|[g y] ls IH]; intros k m a b K E N M.
  - exists k, m. cbn. auto.
  - rewrite mem_cons in M. cbn [fst] in M. cbn [remove_own filter snd].
    destruct (y =? x) eqn:Ey; cbn [negb].
    + destruct (remove_lock_ok k m g y a (ls ++ b)) as (k1 & R & K1 & E1 & Hr1 & Hc1); auto.
      { apply (N (g, y)). left; auto. } { lia. }
      rewrite R.
      destruct (IH k1 (m - lock_size g) a b) as (k2 & m2 & C & K2 & E2 & Em); auto.
      { rewrite Hr1. intros e He. apply N. right; auto. } { lia. }
      exists k2, m2. refine (conj C (conj K2 (conj E2 _))). rewrite mem_cons. cbn [fst]. lia.
    + destruct (IH k m (a ++ [(g, y)]) b) as (k2 & m2 & C & K2 & E2 & Em); auto.
      { rewrite <- app_assoc. exact E. } { intros e He. apply N. right; auto. } { lia. }
      exists k2, m2. refine (conj C (conj K2 (conj _ _))).
      * rewrite E2, <- app_assoc. reflexivity.
      * rewrite !mem_cons. cbn [fst]. lia.
Qed.

Lemma dsorted_filter f es : dsorted es -> dsorted (filter f es).
Proof.
  induction es as [|e es IH]; intros D; auto. apply dsorted_cons in D. destruct D as (V & D & B).
  cbn. destruct (f e); auto. apply dsorted_cons. refine (conj V (conj (IH D) _)).
  intros y Hy. apply filter_In in Hy. apply B. tauto.
Qed.

(** Releasing a range removes exactly the owner's locks that overlap it. *)
Lemma remove_overlapping_ok s gs ext x rg : lt_inv s gs ext -> valid rg ->
  exists s', remove_overlapping kcmp overhead s x rg = Some s' /\ lt_inv s' gs ext /\
    lt_sto s' = lt_sto s /\
    (forall e, In e (elems (lt_tree s')) <->
       In e (elems (lt_tree s)) /\ (snd e = x -> apart rg (fst e))).
Proof.
  intros I V. unfold remove_overlapping. pose proof (li_sorted _ _ _ I) as D.
  pose proof (li_mem _ _ _ I) as Hm.
  destruct (acquire_ok kcmp OK (lt_tree s) rg V D) as (k1 & -> & K1 & E1 & R1).
  destruct (iterate_ok kcmp OK k1 copy_fn [] K1 copy_sticky) as (k2 & I2 & K2 & E2 & R2 & _).
  rewrite I2, copy_fold, R1, E1. cbn [app].
  destruct (ovl_split (elems (lt_tree s)) rg D V) as (a & b & Hs & Ha & Hb).
  set (own := filter (ovl rg) (elems (lt_tree s))) in *.
  destruct (remove_own_ok x own k2 (lt_mem s) a b) as (k3 & m3 & -> & K3 & E3 & Em); auto.
  { congruence. }
  { intros e He. apply filter_In in He. rewrite R2, R1. destruct He as [He Ho].
    apply ovl_iff in Ho; auto. apply (dsorted_valid kcmp (elems (lt_tree s))); auto. }
  { rewrite Hm, Hs, !mem_app. lia. }
  eexists. split; [reflexivity|].
  assert (HI : forall e, In e (kelems k3) <-> In e (elems (lt_tree s)) /\ (snd e = x -> apart rg (fst e))).
  { intros e. rewrite E3, Hs, !in_app_iff, filter_In. split.
    - intros [H|[[H Hn]|H]].
      + split; auto. intros _. right. apply Ha; auto.
      + split; auto. intros Hx. exfalso. apply negb_true_iff in Hn. apply N.eqb_neq in Hn. apply Hn. exact Hx.
      + split; auto. intros _. left. apply Hb; auto.
    - intros [[H|[H|H]] Hx]; auto. right. left. split; auto.
      apply negb_true_iff, N.eqb_neq. intros Ex.
      apply filter_In in H. destruct H as [H Ho]. apply ovl_iff in Ho; auto.
      apply (dsorted_valid kcmp (elems (lt_tree s))); auto. }
  split; [|split; [reflexivity|exact HI]].
  assert (elems (lkr_release k3) = kelems k3) as Ee by reflexivity.
  destruct I. constructor; cbn [set_tree lt_tree lt_sto lt_buf lt_mem]; rewrite ?Ee; auto.
  - apply K3.
  - rewrite Forall_forall in *. intros e He. apply li_good0. apply HI. auto.
  - intros Hn. destruct (li_sto0 Hn) as [Et ?]. split; auto. apply elems_E. rewrite Ee.
    destruct (kelems k3) as [|e l] eqn:El; auto. exfalso.
    assert (In e (elems (lt_tree s))) as Hi by (apply HI; left; auto). rewrite Et in Hi. easy.
  - rewrite E3. rewrite Hm in Em. rewrite Hs in Em. rewrite !mem_app in *. lia.
Qed.

Lemma sto_try_release_ok s gs ext x : lt_inv s gs ext ->
  (lt_sto s <> TXNID_NONE -> lt_sto s = x) ->
  exists b s', sto_try_release s x = Some (b, s') /\
    (if b : bool then lt_sto s = x /\ lt_sto s <> TXNID_NONE /\ lt_inv s' [] ext /\ locks s' [] = [] /\
        lt_tree s' = E /\ lt_sto s' = TXNID_NONE
     else s' = s /\ lt_sto s = TXNID_NONE /\ gs = []).
Proof.
  intros I H. unfold sto_try_release. destruct (lt_sto s =? TXNID_NONE) eqn:Es.
  - apply N.eqb_eq in Es. exists false, s. split; auto. split; auto. split; auto. apply I; auto.
  - apply N.eqb_neq in Es. rewrite (H Es), N.eqb_refl.
    destruct (li_sto _ _ _ I Es) as [Et Hg]. pose proof (li_mem _ _ _ I) as Hm.
    rewrite Et in *. cbn [is_E elems] in *. change (mem []) with 0 in Hm.
    unfold sto_end, mem_released.
    replace (rb_mem (lt_buf s) <=? lt_mem s) with true by (symmetry; apply N.leb_le; lia).
    eexists true, _. split; [reflexivity|]. rewrite <- (H Es). refine (conj eq_refl (conj Es _)).
    cbn [lt_tree]. unfold locks. cbn [lt_tree lt_sto]. rewrite Et. split; [|auto].
    constructor; cbn [lt_tree lt_sto lt_buf lt_mem]; rewrite ?Et; auto using rep_empty, dsorted_nil.
    all: try (intros Hz; exfalso; apply Hz; reflexivity). all: try constructor.
    + cbn [elems]. change (mem []) with 0. rewrite rb_mem_empty. lia.
Qed.

End Ord.
