(** Deadlock detection in reachable states. *)
From Coq Require Import Relations.
From Verif Require Import Base Bytes LtTreeModel RangeBufModel LtModel WfgModel LtSpec LtSysModel
  LtTreeProofs RangeBufProofs LtProofs LtEscalate WfgProofs LtSysProofs LtSysSteps LtUser.
Open Scope N_scope.

(** Who waits for which range. *)
Definition waiting (s : sys) : txnid -> option rng := fun y => find_req y (s_pend s).

Section Deadlock.

Variable kcmp : bytes -> bytes -> comparison.
Hypothesis OK : cmp_ok kcmp.
Variable overhead : N.
Variable max : N.

Notation valid := (valid kcmp).
Notation apart := (apart kcmp).
Notation within := (within kcmp).
Notation inv := (inv kcmp overhead).
Notation step := (step kcmp overhead max).
Notation reach := (reach kcmp overhead max).
Notation blocks := (blocks kcmp).
Notation waits := (waits kcmp).
Notation waits_for := (waits_for kcmp overhead).

Lemma range_good g : goodg g -> valid g -> good_range kcmp g.
Proof.
  intros (G1 & G2 & G3) V. split; [apply good_ep_key; auto|]. split; [apply good_ep_key; auto|].
  split; auto. apply (ep_le_iff kcmp). exact V.
Qed.

Lemma waits_for_iff s gs h p q : inv s gs h -> (forall y, p y = find_req y q) ->
  (forall y g, find_req y q = Some g -> In y (s_live s) /\ goodg g /\ valid g) ->
  forall y z, waits_for s p y z <-> waits (locks (s_lt s) gs) q y z.
Proof.
  intros I Hp Hq y z. unfold LtUser.waits_for, WfgProofs.waits. rewrite Hp. split.
  - intros (Hz & g & Hy & Ht). split; auto. exists g. rewrite Hp in Hy. split; auto.
    destruct (Hq _ _ Hy) as (Hl & G & V).
    apply (told_iff kcmp OK overhead s gs h) in Ht; auto using range_good.
    destruct I as (_ & _ & B). apply (b_live _ _ _ B _ Hl).
  - intros (Hz & g & Hy & Ht). split; auto. exists g. rewrite Hp. split; auto.
    destruct (Hq _ _ Hy) as (Hl & G & V).
    apply (told_iff kcmp OK overhead s gs h); auto using range_good.
    destruct I as (_ & _ & B). apply (b_live _ _ _ B _ Hl).
Qed.

Lemma pend_props s gs h y g : inv s gs h -> find_req y (s_pend s) = Some g ->
  In y (s_live s) /\ goodg g /\ valid g.
Proof. intros (_ & _ & B) H. apply (b_pend _ _ _ B). apply find_req_in. auto. Qed.

Lemma ct_iff {A} (R R' : A -> A -> Prop) : (forall a b, R a b -> R' a b) -> forall a b, clos_trans A R a b -> clos_trans A R' a b.
Proof. intros H a b C. induction C; [apply t_step; auto|eapply t_trans; eauto]. Qed.

(** The blockers that a request was told about are still in its way as long as
    they live. *)
Definition conf_ok (s : sys) (gs : list rng) : Prop :=
  forall x g cs c, s_req s x = RBlocked g cs -> In c cs ->
    c <= s_last s /\ (In c (s_live s) -> blocks (locks (s_lt s) gs) x g c).

Lemma conf_step s gs h s' gs' : conf_ok s gs -> inv s' gs' h -> moves kcmp s gs s' gs' -> conf_ok s' gs'.
Proof.
  intros Cf (I & C & B) [M1 M2 M3 M4] x g cs c Hq Hc. destruct (M2 _ _ _ Hq) as [Ho|Hn].
  - destruct (Cf _ _ _ _ Ho Hc) as [Hle Hb]. split; [lia|]. intros Hl. destruct (M4 _ Hl) as [Hl'|Hlt]; [|lia].
    destruct (Hb Hl') as (Hne & k & Hk & Ha). split; auto. destruct (M1 _ _ Hk Hl) as (k' & Hk' & W).
    exists k'. split; auto. intros Q. apply Ha. apply apart_sym. apply apart_sym in Q. eapply within_apart; eauto.
  - pose proof (proj1 (Hn c) Hc) as Hb. split; auto. destruct Hb as (_ & k & Hk & _).
    apply (c_ids _ _ _ _ C _ _ Hk).
Qed.

Lemma reach_conf s h : reach s h -> exists gs, inv s gs h /\ conf_ok s gs.
Proof.
  induction 1 as [|s h o s' ev R [gs [I Cf]] Lg E].
  - exists []. split; [apply init_inv|]. intros x g cs c H. discriminate.
  - destruct (step_ok kcmp OK overhead max s gs h o I Lg) as [[E' _]|(s2 & ev2 & gs' & E' & I' & M & _)];
    rewrite E in E'; [discriminate|]. injection E' as <- <-. exists gs'. split; auto. eapply conf_step; eauto.
Qed.

(** The waiting requests together with the one of [x]. *)
Definition with_req (s : sys) (x : txnid) (g : rng) : txnid -> option rng :=
  fun y => if y =? x then Some g else waiting s y.

Lemma enqueue_cases s h x g cs s' ev : reach s h -> s_req s x = RBlocked g cs ->
  step s (Enqueue x) = Some (s', ev) ->
  (ev = [Deadlock x g] <-> exists c, In c cs /\ waiting s c <> None /\
     clos_trans _ (waits_for s (with_req s x g)) c x) /\
  (ev <> [Deadlock x g] -> ev = [] /\ waiting s' x = Some g) /\
  (ev = [Deadlock x g] -> clos_trans _ (waits_for s (with_req s x g)) x x /\ waiting s' x = None).
Proof.
  intros R Hq E. destruct (reach_conf s h R) as (gs & I & Cf).
  destruct (step_ok kcmp OK overhead max s gs h (Enqueue x) I) as [[E' _]|(s2 & ev2 & gs' & E' & I' & M & Ev)].
  { cbn. eauto. } { rewrite E in E'. discriminate. }
  rewrite E in E'. injection E' as <- <-. destruct Ev as (g0 & cs0 & Hq0 & Hn & HL & Hd).
  rewrite Hq in Hq0. injection Hq0 as <- <-. cbv zeta in Hd. pose proof I as (_ & _ & B).
  destruct (b_blocked _ _ _ B _ _ _ Hq) as (Hxl & G & V & Hc & Hxc).
  destruct (insert_req_ok x g (s_pend s) (b_psorted _ _ _ B) Hn) as (p & Ep & Sp & Hin & Hf).
  assert (HW : forall y z, waits_for s (with_req s x g) y z <-> waits (locks (s_lt s) gs) p y z).
  { apply (waits_for_iff s gs h); auto; [intros y; symmetry; apply Hf|].
    intros y q Hy. rewrite Hf in Hy. destruct (y =? x) eqn:Ey.
    - apply N.eqb_eq in Ey. subst y. injection Hy as <-. auto.
    - eapply pend_props; eauto. }
  assert (HD : (exists c p, insert_req x g (s_pend s) = Some p /\ In c cs /\ find_req c p <> None /\
                 clos_trans _ (waits (locks (s_lt s) gs) p) c x) <->
               exists c, In c cs /\ waiting s c <> None /\ clos_trans _ (waits_for s (with_req s x g)) c x).
  { assert (Hw : forall c, In c cs -> find_req c p <> None <-> waiting s c <> None).
    { intros c Hcs. rewrite Hf. destruct (c =? x) eqn:Ec; [|tauto]. apply N.eqb_eq in Ec. subst c. easy. }
    split.
    - intros (c & p' & Ep' & H1 & H2 & H3). rewrite Ep in Ep'. injection Ep' as <-. exists c. split; auto.
      split; [apply Hw; auto|]. eapply ct_iff; [|exact H3]. intros a b. apply HW.
    - intros (c & H1 & H2 & H3). exists c, p. split; auto. split; auto. split; [apply Hw; auto|].
      eapply ct_iff; [|exact H3]. intros a b. apply HW. }
  rewrite HD in Hd. destruct Hd as [(-> & Dd & Hp)|(-> & Dd & Hp)].
  - split; [split; auto|]. split; [easy|]. intros _. split.
    + destruct Dd as (c & H1 & H2 & H3). eapply t_trans; [|exact H3]. apply t_step. apply HW.
      split; [rewrite Hf; destruct (c =? x); easy|]. exists g. split; [rewrite Hf, N.eqb_refl; auto|].
      apply (Cf _ _ _ _ Hq H1). unfold waiting in H2. destruct (find_req c (s_pend s)) as [q|] eqn:Ec; [|easy].
      eapply pend_props; eauto.
    + unfold waiting. rewrite Hp. auto.
  - split; [split; [discriminate|tauto]|]. split; [|discriminate]. intros _. split; auto.
    rewrite Ep in Hp. injection Hp as Hp. unfold waiting. rewrite <- Hp, Hf, N.eqb_refl. auto.
Qed.

(** ** Requests whose two halves are not interrupted *)

Definition refusal (x : txnid) (ev : list event) : Prop := exists g cs, In (Refuse x g cs) ev.

(** Histories in which a refused request is at once put into the pending set, and
    locks are never escalated. *)
Inductive calm : sys -> list event -> Prop :=
| calm_init : calm sys_init []
| calm_step s h o s' ev : calm s h -> legal kcmp s o -> step s o = Some (s', ev) ->
    ~ In Escalated ev -> (forall x, o <> Enqueue x) ->
    (forall x g chk, o = Start x g chk -> ~ refusal x ev) -> calm s' (h ++ ev)
| calm_refused s h x g chk s1 ev1 s2 ev2 : calm s h -> legal kcmp s (Start x g chk) ->
    step s (Start x g chk) = Some (s1, ev1) -> refusal x ev1 -> ~ In Escalated ev1 ->
    step s1 (Enqueue x) = Some (s2, ev2) -> calm s2 (h ++ ev1 ++ ev2).

Lemma ct_split {A} (R R' : A -> A -> Prop) x : (forall a b, R' a b -> a <> x -> b <> x -> R a b) ->
  (forall a : A, a = x \/ a <> x) -> forall a b, clos_trans A R' a b ->
  clos_trans A R a b \/ a = x \/ b = x \/ (clos_trans A R' a x /\ clos_trans A R' x b).
Proof.
  intros H Eq a b C. induction C as [a b C|a b c C1 IH1 C2 IH2].
  - destruct (Eq a) as [->|Ha]; auto. destruct (Eq b) as [->|Hb]; auto. left. apply t_step. auto.
  - destruct IH1 as [IH1|[->|[->|[P Q]]]]; auto.
    + destruct IH2 as [IH2|[->|[->|[P Q]]]]; auto.
      * left. eapply t_trans; eauto.
      * right. right. right. split; auto. eapply t_trans; eauto.
    + right. right. right. split; auto. eapply t_trans; eauto.
Qed.

Lemma rt_ct {A} (R : A -> A -> Prop) a b : clos_refl_trans A R a b -> a = b \/ clos_trans A R a b.
Proof.
  induction 1 as [a b H|a|a b c _ IH1 _ IH2]; [right; apply t_step; auto|auto|].
  destruct IH1 as [->|IH1]; auto. destruct IH2 as [->|IH2]; auto. right. eapply t_trans; eauto.
Qed.

Lemma ct_head {A} (R : A -> A -> Prop) a b : clos_trans A R a b -> exists c, R a c /\ clos_refl_trans A R c b.
Proof.
  induction 1 as [a b H|a b c H1 (d & IH1 & IH1') H2 (e & IH2 & IH2')].
  - exists b. split; auto. apply rt_refl.
  - exists d. split; auto. eapply rt_trans; [exact IH1'|]. eapply rt_trans; [apply rt_step; exact IH2|exact IH2'].
Qed.

(** A refused request: the conflicts are those of the new state. *)
Lemma start_refused s gs h x g chk s1 ev1 : inv s gs h -> legal kcmp s (Start x g chk) ->
  step s (Start x g chk) = Some (s1, ev1) -> refusal x ev1 -> ~ In Escalated ev1 ->
  exists gs1 cs, inv s1 gs1 (h ++ ev1) /\ s_req s1 x = RBlocked g cs /\
    (forall c, In c cs <-> blocks (locks (s_lt s1) gs1) x g c) /\
    (forall y z, waits (locks (s_lt s1) gs1) (s_pend s1) y z -> waits (locks (s_lt s) gs) (s_pend s) y z).
Proof.
  intros I Lg E (g0 & cs0 & Hr) Ne.
  destruct (step_ok kcmp OK overhead max s gs h _ I Lg) as [[E' _]|(s2 & ev2 & gs1 & E' & I1 & M & Ev)];
  rewrite E in E'; [discriminate|]. injection E' as <- <-.
  destruct Ev as [Ev|Ev]; [easy|]. exists gs1.
  destruct Lg as (Hl & (Hq & Hp) & Hg).
  assert (Hb : exists cs, s_req s1 x = RBlocked g cs).
  { cbn [LtSysModel.step] in E. destruct (try_acquire kcmp overhead max s x g chk) as [[[r t] e]|] eqn:Et; [|discriminate].
    destruct r as [|cs|]; injection E as <- <-.
    - exfalso. unfold try_acquire in Et. revert Et.
      destruct (match chk with None => _ | Some big => _ end) as [[[ok s2] e1]|] eqn:Ec; [|discriminate].
      assert (F : Forall (eq Escalated) e1).
      { destruct chk; [eapply check_events; eauto|]. injection Ec as _ _ <-. auto. }
      destruct ok; [|discriminate].
      destruct (acquire_lock kcmp overhead (s_lt s2) x g) as [[a l]|]; [|discriminate].
      destruct a; [|discriminate]. intros H; injection H as _ <-. apply in_app_or in Hr.
      destruct Hr as [Hr|[Hr|[]]]; [|discriminate]. rewrite Forall_forall in F. apply F in Hr. discriminate.
    - exists cs. cbn. apply upd_same.
    - exfalso. unfold try_acquire in Et. revert Et.
      destruct (match chk with None => _ | Some big => _ end) as [[[ok s2] e1]|] eqn:Ec; [|discriminate].
      assert (F : Forall (eq Escalated) e1).
      { destruct chk; [eapply check_events; eauto|]. injection Ec as _ _ <-. auto. }
      destruct ok; [destruct (acquire_lock kcmp overhead (s_lt s2) x g) as [[a l]|]; [destruct a|]; discriminate|].
      intros H; injection H as _ <-. apply in_app_or in Hr.
      destruct Hr as [Hr|[Hr|[]]]; [|discriminate]. rewrite Forall_forall in F. apply F in Hr. discriminate. }
  destruct Hb as (cs & Hb). exists cs. split; auto. split; auto. split; auto.
  destruct (mv_req _ _ _ _ _ M _ _ _ Hb) as [Q|Q]; [congruence|exact Q].
Qed.

Lemma calm_ok s h : calm s h -> exists gs, inv s gs h /\
  forall y, ~ clos_trans _ (waits (locks (s_lt s) gs) (s_pend s)) y y.
Proof.
  induction 1 as [|s h o s' ev C (gs & I & IH) Lg E Ne No Ns|s h x g chk s1 ev1 s2 ev2 C (gs & I & IH) Lg E1 Rf Ne E2].
  - exists []. split; [apply init_inv|]. intros y H. apply ct_head in H.
    destruct H as (c & (_ & g & H & _) & _). discriminate.
  - destruct (step_ok kcmp OK overhead max s gs h o I Lg) as [[E' _]|(s2 & ev2 & gs' & E' & I' & M & Ev)];
    rewrite E in E'; [discriminate|]. injection E' as <- <-. exists gs'. split; auto.
    intros y Hy. apply (IH y). eapply ct_iff; [|exact Hy].
    destruct o; cbn [evolves] in Ev; try (destruct Ev as [Ev|Ev]; [easy|exact Ev]).
    exfalso. eapply No; eauto.
  - destruct (start_refused s gs h x g chk s1 ev1 I Lg E1 Rf Ne) as (gs1 & cs & I1 & Hq & Hcs & Hw).
    destruct (step_ok kcmp OK overhead max s1 gs1 (h ++ ev1) (Enqueue x) I1) as [[E' _]|(s3 & ev3 & gs' & E' & I' & M & Ev)].
    { cbn. eauto. } { rewrite E2 in E'. discriminate. }
    rewrite E2 in E'. injection E' as <- <-. exists gs'. rewrite app_assoc. split; auto.
    destruct Ev as (g0 & cs0 & Hq0 & Hn & HL & Hd). rewrite Hq in Hq0. injection Hq0 as <- <-. cbv zeta in Hd.
    rewrite HL. destruct Hd as [(-> & _ & Hp)|(-> & Dd & Hp)].
    + rewrite Hp. intros y Hy. apply (IH y). eapply ct_iff; [|exact Hy]. exact Hw.
    + pose proof I1 as (_ & _ & B).
      destruct (insert_req_ok x g (s_pend s1) (b_psorted _ _ _ B) Hn) as (p & Ep & Sp & Hin & Hf).
      rewrite Ep in Hp. injection Hp as Hp. rewrite <- Hp. set (L := locks (s_lt s1) gs1) in *.
      assert (Hx : ~ clos_trans _ (waits L p) x x).
      { intros Hy. apply ct_head in Hy. destruct Hy as (c & Hxc & Hy). apply Dd.
        destruct Hxc as (Hc & g1 & Hg1 & Hb). rewrite Hf, N.eqb_refl in Hg1. injection Hg1 as <-.
        exists c, p. split; auto. split; [apply Hcs; auto|]. split; auto.
        apply rt_ct in Hy. destruct Hy as [->|Hy]; auto. destruct Hb; easy. }
      intros y Hy. pose proof Hy as Hy0. apply (ct_split (waits L (s_pend s1)) _ x) in Hy.
      * destruct Hy as [Hy|[->|[->|[P Q]]]]; auto.
        -- apply (IH y). eapply ct_iff; [|exact Hy]. exact Hw.
        -- apply Hx. eapply t_trans; eauto.
      * intros a b (Hb & g1 & Hg1 & Hbl) Ha Hbx. rewrite Hf in Hb, Hg1.
        apply N.eqb_neq in Ha, Hbx. rewrite Ha in Hg1. rewrite Hbx in Hb. split; auto. exists g1. auto.
      * intros a. destruct (N.eq_dec a x); auto.
Qed.

Lemma calm_reach s h : calm s h -> reach s h.
Proof.
  induction 1 as [|s h o s' ev C IH Lg E Ne No Ns|s h x g chk s1 ev1 s2 ev2 C IH Lg E1 Rf Ne E2].
  - constructor.
  - econstructor; eauto.
  - destruct (reach_inv kcmp OK overhead max s h IH) as (gs & I).
    destruct (start_refused s gs h x g chk s1 ev1 I Lg E1 Rf Ne) as (gs1 & cs & I1 & Hq & _).
    rewrite app_assoc. econstructor; [econstructor; eauto| |exact E2]. cbn. eauto.
Qed.

Lemma calm_no_cycle s h : calm s h -> forall y, ~ clos_trans _ (waits_for s (waiting s)) y y.
Proof.
  intros C y Hy. destruct (calm_ok s h C) as (gs & I & N). apply (N y). eapply ct_iff; [|exact Hy].
  intros a b. apply (waits_for_iff s gs h (waiting s) (s_pend s)); auto. intros z q. eapply pend_props; eauto.
Qed.

End Deadlock.
