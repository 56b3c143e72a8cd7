(** What users can observe of a dictionary's row locks in a reachable state. *)
From Coq Require Import Relations.
From Verif Require Import Base Bytes LtTreeModel RangeBufModel LtModel WfgModel LtSpec LtSysModel
  LtTreeProofs RangeBufProofs LtProofs LtEscalate WfgProofs LtSysProofs LtSysSteps.
Open Scope N_scope.

(** The tree answers to [z], which asks for [g], that a lock of [y] is in the
    way. *)
Definition told kcmp overhead (s : sys) (z : txnid) (g : rng) (y : txnid) : Prop :=
  exists cs l, acquire_lock kcmp overhead (s_lt s) z g = Some (NotGranted cs, l) /\ In y cs.

(** [y] waits for [z]: both wait for a lock, and a lock of [z] is in the way of
    [y]'s request.  [p] says who waits for which range. *)
Definition waits_for kcmp overhead (s : sys) (p : txnid -> option rng) (y z : txnid) : Prop :=
  p z <> None /\ exists g, p y = Some g /\ told kcmp overhead s y g z.

Section User.

Variable kcmp : bytes -> bytes -> comparison.
Hypothesis OK : cmp_ok kcmp.
Variable overhead : N.
Variable max : N.

Notation valid := (valid kcmp).
Notation apart := (apart kcmp).
Notation within := (within kcmp).
Notation pin := (pin kcmp).
Notation inv := (inv kcmp overhead).
Notation step := (step kcmp overhead max).
Notation reach := (reach kcmp overhead max).
Notation blocks := (blocks kcmp).
Notation waits := (waits kcmp).
Notation told := (told kcmp overhead) (only parsing).

Lemma conflict_iff g g' : valid g -> valid g' -> conflict kcmp g g' <-> ~ apart g g'.
Proof.
  intros V V'. unfold conflict, meet, in_range. split.
  - intros (p & (H1 & H2) & H3 & H4). rewrite (ep_le_iff kcmp) in *.
    apply (pin_not_apart kcmp OK g g' p); split; auto.
  - intros H. destruct (not_apart_pin kcmp OK g g' V V' H) as (p & (H1 & H2) & H3 & H4).
    exists p. rewrite !(ep_le_iff kcmp). auto.
Qed.

Lemma answer s gs h x g : inv s gs h -> x <> 0 -> good_range kcmp g ->
  exists an l, acquire_lock kcmp overhead (s_lt s) x g = Some (an, l) /\
    match an with
    | Granted => forall y, ~ blocks (locks (s_lt s) gs) x g y
    | NotGranted cs => cs <> [] /\ forall y, In y cs <-> blocks (locks (s_lt s) gs) x g y
    end.
Proof.
  intros (I & _) Hx Hg. apply good_range_ok in Hg. destruct Hg as [G V].
  destruct (acquire_lock_ok kcmp OK overhead (s_lt s) gs _ x g I Hx V G) as (an & l & gs' & E & _ & A & _).
  exists an, l. split; auto. destruct an as [|cs]; cbn in A.
  - destruct A as [_ A]. intros y (Hy & k & Hk & Hn). apply Hn. apply (A k y); auto.
  - destruct A as (_ & Hc & A). auto.
Qed.

Lemma told_iff s gs h z g y : inv s gs h -> z <> 0 -> good_range kcmp g ->
  (told s z g y <-> blocks (locks (s_lt s) gs) z g y).
Proof.
  intros I Hz Hg. destruct (answer s gs h z g I Hz Hg) as (an & l & E & A). unfold Verif.LtUser.told. rewrite E. split.
  - intros (cs & l' & [= -> ->] & Hy). apply A. auto.
  - intros H. destruct an as [|cs]; [destruct (A y H)|]. exists cs, l. split; auto. apply A. auto.
Qed.

Lemma holds_grant_in h x g : holds h x g -> In (Grant x g) h.
Proof. intros (h1 & h2 & -> & _). apply in_or_app. right. left. auto. Qed.

(** What is held is covered by the tree. *)
Lemma holds_blocks s gs h x g z g' : inv s gs h -> holds h x g -> z <> x -> valid g' -> conflict kcmp g' g ->
  blocks (locks (s_lt s) gs) z g' x.
Proof.
  intros (I & C & B) Hh Hz V' Hc. split; auto.
  destruct (c_cover _ _ _ _ C _ _ Hh) as (k & Hk & W). exists k. split; auto. intros Ha.
  destruct (b_grants _ _ _ B _ _ (holds_grant_in _ _ _ Hh)) as (_ & _ & _ & V).
  apply conflict_iff in Hc; auto. apply Hc. apply apart_sym. eapply within_apart; eauto. apply apart_sym. auto.
Qed.

Lemma exclusive s h x g y g' : reach s h -> holds h x g -> holds h y g' -> x <> y -> ~ conflict kcmp g g'.
Proof.
  intros R Hx Hy Hn Hc. destruct (reach_inv kcmp OK overhead max s h R) as (gs & Iv).
  pose proof Iv as (I & C & B).
  destruct (b_grants _ _ _ B _ _ (holds_grant_in _ _ _ Hx)) as (_ & _ & _ & V).
  destruct (b_grants _ _ _ B _ _ (holds_grant_in _ _ _ Hy)) as (_ & _ & _ & V').
  destruct (c_cover _ _ _ _ C _ _ Hx) as (k & Hk & W). destruct (c_cover _ _ _ _ C _ _ Hy) as (k' & Hk' & W').
  apply conflict_iff in Hc; auto. apply Hc.
  assert (A : apart k k') by (eapply locks_apart; eauto).
  apply (within_apart kcmp OK g k); auto. apply apart_sym. apply (within_apart kcmp OK g' k'); auto. apply apart_sym. auto.
Qed.

Lemma check_events big s ok s1 e1 : check_constraints kcmp overhead max big s = Some (ok, s1, e1) ->
  Forall (eq Escalated) e1.
Proof.
  unfold check_constraints. destruct (big && over_big max s).
  - destruct (do_escalate kcmp overhead s) as [s2|]; [|discriminate].
    destruct (negb (over_big max s2) && out_of_locks max s2).
    + destruct (do_escalate kcmp overhead s2); [|discriminate]. intros E. injection E as _ _ <-. cbn. auto.
    + intros E. injection E as _ _ <-. auto.
  - destruct (true && out_of_locks max s).
    + destruct (do_escalate kcmp overhead s); [|discriminate]. intros E. injection E as _ _ <-. cbn. auto.
    + intros E. injection E as _ _ <-. auto.
Qed.

Lemma try_events s x g chk r s' ev : try_acquire kcmp overhead max s x g chk = Some (r, s', ev) ->
  exists e0 a, ev = e0 ++ [a] /\ Forall (eq Escalated) e0.
Proof.
  unfold try_acquire.
  destruct (match chk with None => _ | Some big => _ end) as [[[ok s1] e1]|] eqn:E; [|discriminate].
  assert (F : Forall (eq Escalated) e1).
  { destruct chk; [eapply check_events; eauto|]. injection E as _ _ <-. auto. }
  destruct ok.
  - destruct (acquire_lock kcmp overhead (s_lt s1) x g) as [[a l]|]; [|discriminate].
    destruct a; intros H; injection H as _ _ <-; eauto.
  - intros H; injection H as _ _ <-; eauto.
Qed.

(** The answer to a request. *)
Lemma try_answer s h x g chk : reach s h -> x <> 0 -> good_range kcmp g ->
  exists r s' ev, try_acquire kcmp overhead max s x g chk = Some (r, s', ev) /\
    exists e1, Forall (eq Escalated) e1 /\
    match r with
    | LGranted => ev = e1 ++ [Grant x g] /\ forall y g', y <> x -> holds h y g' -> ~ conflict kcmp g g'
    | LRefused cs => ev = e1 ++ [Refuse x g cs] /\ cs <> [] /\ ~ In x cs /\
        (forall y g', y <> x -> holds h y g' -> conflict kcmp g g' -> In y cs) /\
        (e1 = [] -> ~ In Escalated h ->
         forall y, In y cs -> exists g', not_released h y g' /\ conflict kcmp g g')
    | LOutOfLocks => ev = e1 ++ [OutOfLocks x g]
    end.
Proof.
  intros R Hx Hg. destruct (reach_inv kcmp OK overhead max s h R) as (gs & Iv).
  pose proof (good_range_ok kcmp g Hg) as [G V].
  destruct (try_acquire_ok kcmp OK overhead max s gs h x g chk Iv Hx G V) as
    (r & s' & ev & s1 & e1 & gs1 & E & I1 & U & D & St & Hr).
  exists r, s', ev. split; auto. exists e1.
  assert (He : Forall (eq Escalated) e1).
  { destruct (try_events _ _ _ _ _ _ _ E) as (e0 & a & Ee & He).
    destruct r as [|cs|]; [destruct Hr as (? & _ & _ & Hr)|destruct Hr as (? & _ & _ & Hr)|destruct Hr as (_ & Hr)];
    rewrite Hr in Ee; apply app_inj_tail in Ee; destruct Ee as [-> _]; auto. }
  split; auto.
  assert (Hh : forall y q, holds h y q -> holds (h ++ e1) y q).
  { intros y q (h1 & h2 & -> & Hn). exists h1, (h2 ++ e1). split; [rewrite <- app_assoc; auto|].
    intros Q. apply in_app_or in Q. destruct Q as [Q|Q]; auto. rewrite Forall_forall in He. apply He in Q. discriminate. }
  destruct (answer s1 gs1 _ x g I1 Hx Hg) as (an & l & Ea & A).
  destruct r as [|cs|].
  - destruct Hr as (l' & Ea' & _ & ->). rewrite Ea in Ea'. injection Ea' as -> ->. split; auto.
    intros y g' Hy Hh' Hc. apply (A y). eapply holds_blocks; eauto.
  - destruct Hr as (l' & Ea' & _ & ->). rewrite Ea in Ea'. injection Ea' as -> ->. destruct A as [Hc A].
    split; auto. split; auto. split; [intros Q; apply A in Q; destruct Q; easy|]. split.
    + intros y g' Hy Hh' Hcf. apply A. eapply holds_blocks; eauto.
    + intros -> Hne y Hy. rewrite app_nil_r in *. apply A in Hy. destruct Hy as (Hyx & k & Hk & Hn).
      pose proof I1 as (J & C & B).
      assert (Vk : valid k) by (apply (locks_valid kcmp overhead _ _ _ _ J Hk)).
      destruct (not_apart_pin kcmp OK g k V Vk Hn) as (p & P1 & P2).
      destruct (c_exact _ _ _ _ C Hne k y p Hk P2) as (g' & Hg' & P3). exists g'. split; auto.
      exists p. unfold in_range. rewrite !(ep_le_iff kcmp). split; [exact P1|exact P3].
  - apply Hr.
Qed.

(** ** Locked points *)

Definition point (p : ep) : rng := Rng p p false.

(** The point is locked by [y]: somebody who asks for it is told so. *)
Definition locked (s : sys) (p : ep) (y : txnid) : Prop :=
  exists z, z <> 0 /\ told s z (point p) y.

Lemma le_refl' p : ecmp kcmp p p <> Gt.
Proof. apply (ep_le_iff kcmp). destruct p; cbn; auto. rewrite (cmp_refl _ OK). discriminate. Qed.

Lemma point_good p : good_key p = true -> good_range kcmp (point p).
Proof. intros H. split; auto. split; auto. split; [|cbn; discriminate]. apply (ep_le_iff kcmp). apply le_refl'. Qed.

Lemma point_apart p k : valid k -> ~ apart (point p) k <-> pin p k.
Proof.
  intros V. assert (Vp : valid (point p)) by apply le_refl'. split.
  - intros H. destruct (not_apart_pin kcmp OK _ _ Vp V H) as (q & (H1 & H2) & H3 & H4). cbn in H1, H2.
    split; eapply le_trans; eauto.
  - intros H. apply (pin_not_apart kcmp OK _ _ p); auto. split; apply le_refl'.
Qed.

Lemma locked_iff s gs h p y : inv s gs h -> good_key p = true ->
  (locked s p y <-> exists k, In (k, y) (locks (s_lt s) gs) /\ pin p k).
Proof.
  intros I Hp. unfold locked. split.
  - intros (z & Hz & Ht). apply (told_iff s gs h) in Ht; auto using point_good.
    destruct Ht as (_ & k & Hk & Hn). exists k. split; auto. apply point_apart; auto.
    destruct I as (I & _). apply (locks_valid kcmp overhead _ _ _ _ I Hk).
  - intros (k & Hk & Hn). pose proof I as (I' & C & _).
    exists (y + 1). split; [lia|]. apply (told_iff s gs h); auto using point_good; [lia|].
    split; [lia|]. exists k. split; auto. apply point_apart; auto.
    apply (locks_valid kcmp overhead _ _ _ _ I' Hk).
Qed.

Lemma locked_unique s h p y y' : reach s h -> good_key p = true -> locked s p y -> locked s p y' -> y = y'.
Proof.
  intros R Hp H H'. destruct (reach_inv kcmp OK overhead max s h R) as (gs & I).
  apply (locked_iff s gs h) in H; auto. apply (locked_iff s gs h) in H'; auto.
  destruct H as (k & Hk & P). destruct H' as (k' & Hk' & P').
  destruct (N.eq_dec y y') as [|Hn]; auto. exfalso. destruct I as (I & _).
  apply (pin_not_apart kcmp OK k k' p P P'). eapply locks_apart; eauto.
Qed.

Lemma good_ep_key e : good_ep e -> good_key e = true.
Proof.
  destruct e; cbn; auto. intros [H1 H2]. apply N.ltb_lt in H2. rewrite H2. destruct k; [easy|reflexivity].
Qed.

Lemma locks_good s gs ext k y : lt_inv kcmp overhead s gs ext -> In (k, y) (locks s gs) -> goodg k.
Proof.
  intros I H. unfold locks in H. apply in_app_or in H. destruct H as [H|H].
  - pose proof (li_good _ _ _ _ _ I) as F. rewrite Forall_forall in F. apply (F _ H).
  - apply in_tag in H. destruct H as [_ H]. pose proof (li_bufs _ _ _ _ _ I) as F. rewrite Forall_forall in F. auto.
Qed.

(** Two ranges that meet have an end point of one of them in common. *)
Lemma meet_good g k : goodg g -> goodg k -> valid g -> valid k -> ~ apart g k ->
  exists p, good_key p = true /\ pin p g /\ pin p k.
Proof.
  intros G K V V' H. destruct (not_apart_pin kcmp OK g k V V' H) as (p & (H1 & H2) & H3 & H4).
  destruct (ecmp kcmp (r_l g) (r_l k)) eqn:E.
  - exists (r_l k). split; [apply good_ep_key, K|]. split; split; try congruence; auto; try apply le_refl'.
    eapply le_trans; eauto.
  - exists (r_l k). split; [apply good_ep_key, K|]. split; split; try congruence; auto; try apply le_refl'.
    eapply le_trans; eauto.
  - exists (r_l g). split; [apply good_ep_key, G|]. split; split; auto; try apply le_refl'.
    + apply (gt_lt kcmp OK) in E. cbn in E. congruence.
    + eapply le_trans; eauto.
Qed.

Lemma granted_iff s h x g : reach s h -> x <> 0 -> good_range kcmp g ->
  ((exists l, acquire_lock kcmp overhead (s_lt s) x g = Some (Granted, l)) <->
   (forall p y, good_key p = true -> in_range kcmp p (r_l g) (r_r g) -> locked s p y -> y = x)).
Proof.
  intros R Hx Hg. destruct (reach_inv kcmp OK overhead max s h R) as (gs & I).
  pose proof (good_range_ok kcmp g Hg) as [G V]. pose proof I as (J & _).
  destruct (answer s gs h x g I Hx Hg) as (an & l & E & A). split.
  - intros (l' & E') p y Hp [P1 P2] Hl. rewrite (ep_le_iff kcmp) in *. rewrite E in E'. injection E' as -> ->.
    destruct (N.eq_dec y x) as [|Hn]; auto. exfalso. apply (A y). split; auto.
    apply (locked_iff s gs h) in Hl; auto. destruct Hl as (k & Hk & P). exists k. split; auto.
    apply (pin_not_apart kcmp OK g k p); auto. split; auto.
  - intros H. destruct an as [|cs]; [eauto|]. exfalso. destruct A as [Hc A].
    destruct cs as [|c cs]; [easy|]. destruct (proj1 (A c) ltac:(left; auto)) as (Hn & k & Hk & Ha).
    destruct (meet_good g k) as (p & Hp & P1 & P2); auto.
    { eapply locks_good; eauto. } { apply (locks_valid kcmp overhead _ _ _ _ J Hk). }
    apply Hn. apply (H p c Hp).
    + unfold in_range. rewrite !(ep_le_iff kcmp). exact P1.
    + apply (locked_iff s gs h); auto. eauto.
Qed.

(** ** Keeping, releasing *)

Lemma held_locked s h x g z g' : reach s h -> holds h x g -> z <> x -> z <> 0 -> good_range kcmp g' ->
  conflict kcmp g' g -> told s z g' x.
Proof.
  intros R Hh Hn Hz Hg Hc. destruct (reach_inv kcmp OK overhead max s h R) as (gs & I).
  apply (told_iff s gs h); auto. eapply holds_blocks; eauto. apply good_range_ok. auto.
Qed.

Lemma released_nothing s h x z g : reach s h -> In (RelDone x) h -> z <> 0 -> good_range kcmp g -> ~ told s z g x.
Proof.
  intros R Hd Hz Hg Ht. destruct (reach_inv kcmp OK overhead max s h R) as (gs & I).
  apply (told_iff s gs h) in Ht; auto. destruct Ht as (_ & k & Hk & _). destruct I as (_ & C & B).
  destruct (c_own _ _ _ _ C _ _ Hk) as (r & Hr & _). apply (b_done _ _ _ B) in Hd. unfold rem in Hr. rewrite Hd in Hr. auto.
Qed.

Definition release_op (x : txnid) (o : op) : Prop := o = Rel x \/ o = RelNext x \/ o = RelFin x.

Lemma release_others s h x o s' ev z g y : reach s h -> release_op x o -> legal kcmp s o ->
  step s o = Some (s', ev) -> y <> x -> z <> 0 -> good_range kcmp g -> (told s' z g y <-> told s z g y).
Proof.
  intros R Ho Lg E Hy Hz Hg. destruct (reach_inv kcmp OK overhead max s h R) as (gs & I).
  assert (K : exists gs' h', inv s' gs' h' /\
    forall k y, y <> x -> In (k, y) (locks (s_lt s') gs') <-> In (k, y) (locks (s_lt s) gs)).
  { destruct Ho as [->|[->| ->]].
    - destruct (rel_inv kcmp overhead max s gs h x I Lg) as (s2 & ev2 & gs' & E2 & I' & _ & HL).
      rewrite E in E2. injection E2 as <- <-. eauto.
    - destruct Lg as (q & l & b & Hr). destruct (relnext_inv kcmp OK overhead s gs h x q l b I Hr) as (t & Et & I' & HL).
      cbn [LtSysModel.step] in E. rewrite Hr, Et in E. injection E as <- <-. eauto.
    - destruct Lg as (b & Hr). destruct (relfin_inv kcmp overhead max s gs h x b I Hr) as (s2 & ev2 & E2 & I' & _ & HL).
      rewrite E in E2. injection E2 as <- <-. exists gs, (h ++ ev). split; auto. intros k w _. rewrite HL. tauto. }
  destruct K as (gs' & h' & I' & HL). rewrite (told_iff s' gs' h'), (told_iff s gs h) by auto.
  unfold WfgProofs.blocks. split; intros (Hn & k & Hk & Ha); split; auto; exists k; split; auto; apply HL; auto.
Qed.

(** ** Escalation *)

Lemma escalation s h s' ev : reach s h -> step s Escalate = Some (s', ev) ->
  (forall z g y, z <> 0 -> good_range kcmp g -> told s z g y -> told s' z g y) /\
  (forall p y, good_key p = true -> locked s' p y ->
   exists p1 p2, good_key p1 = true /\ good_key p2 = true /\ ep_le kcmp p1 p /\ ep_le kcmp p p2 /\
     locked s p1 y /\ locked s p2 y /\
     forall q y', good_key q = true -> in_range kcmp q p1 p2 -> locked s q y' -> y' = y).
Proof.
  intros R E. destruct (reach_inv kcmp OK overhead max s h R) as (gs & I).
  destruct (escalate_inv kcmp OK overhead s gs h I) as (s2 & E2 & I' & _ & _ & _ & _ & _ & _ & L1 & Rg & Sp & D1 & _ & _).
  cbn [LtSysModel.step] in E. rewrite E2 in E. injection E as <- <-.
  pose proof I as (J & _). pose proof I' as (J' & _).
  assert (K : forall k y, In (k, y) (locks (s_lt s) gs) -> exists k', In (k', y) (locks (s_lt s2) []) /\ within k k').
  { intros k y Hk. destruct (rg_keep _ _ _ Rg _ _ Hk) as (k1 & Hk1 & W1).
    destruct (sp_keep _ _ _ Sp _ _ Hk1) as (k2 & Hk2 & W2). exists k2. split; auto. eapply within_trans; eauto. }
  split.
  - intros z g y Hz Hg Ht. apply (told_iff s gs h) in Ht; auto. eapply (told_iff s2 [] _); eauto.
    destruct Ht as (Hn & k & Hk & Ha). destruct (K _ _ Hk) as (k' & Hk' & W). split; auto. exists k'. split; auto.
    intros Q. apply Ha. apply apart_sym. apply apart_sym in Q. eapply within_apart; eauto.
  - intros p y Hp Hl. apply (locked_iff s2 [] _ p y I') in Hl; auto. destruct Hl as (k & Hk & P).
    destruct (sp_span _ _ _ Sp _ _ Hk) as (g1 & g2 & H1 & H2 & E1 & E2' & W1 & W2).
    pose proof (locks_good _ _ _ _ _ J' Hk) as (Gl & Gr & _).
    assert (V1 : valid g1) by exact (dsorted_valid kcmp L1 (g1, y) D1 H1).
    assert (V2 : valid g2) by exact (dsorted_valid kcmp L1 (g2, y) D1 H2).
    exists (r_l k), (r_r k). split; [apply good_ep_key, Gl|]. split; [apply good_ep_key, Gr|].
    destruct P as [P1 P2]. split; [apply (ep_le_iff kcmp); auto|]. split; [apply (ep_le_iff kcmp); auto|].
    split; [|split].
    + apply (locked_iff s gs h); auto using good_ep_key. 
      destruct (rg_exact _ _ _ Rg (r_l k) _ _ H1) as (k0 & Hk0 & P0); [|eauto].
      rewrite E1. split; [apply le_refl'|exact V1].
    + apply (locked_iff s gs h); auto using good_ep_key.
      destruct (rg_exact _ _ _ Rg (r_r k) _ _ H2) as (k0 & Hk0 & P0); [|eauto].
      rewrite E2'. split; [exact V2|apply le_refl'].
    + intros q y' Hq [Q1 Q2] Hl. rewrite (ep_le_iff kcmp) in *. apply (locked_iff s gs h) in Hl; auto.
      destruct Hl as (k0 & Hk0 & P0). destruct (K _ _ Hk0) as (k' & Hk' & W).
      destruct (N.eq_dec y' y) as [|Hn]; auto. exfalso.
      apply (pin_not_apart kcmp OK k k' q); [split; auto| |].
      * eapply pin_within; eauto.
      * eapply locks_apart; eauto.
Qed.

End User.
