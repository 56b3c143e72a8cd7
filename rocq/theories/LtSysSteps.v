(** The row lock system: every legal step succeeds and keeps the invariant. *)
From Coq Require Import Sorting.Sorted Sorting.Permutation Relations.
From Verif Require Import Base Bytes LtTreeModel RangeBufModel LtModel WfgModel LtSpec LtSysModel
  LtTreeProofs RangeBufProofs LtProofs LtEscalate WfgProofs LtSysProofs.
Open Scope N_scope.

Section Steps.

Variable kcmp : bytes -> bytes -> comparison.
Hypothesis OK : cmp_ok kcmp.
Variable overhead : N.
Variable max : N.

Notation valid := (valid kcmp).
Notation apart := (apart kcmp).
Notation within := (within kcmp).
Notation pin := (pin kcmp).
Notation inv := (inv kcmp overhead).
Notation step := (step kcmp overhead max).
Notation try_acquire := (try_acquire kcmp overhead max).
Notation waits := (waits kcmp).
Notation blocks := (blocks kcmp).

(** ** The waits-for relation over time *)

Lemma waits_mono L p L' p' :
  (forall e, In e L' -> valid (fst e)) -> (forall y g, In (y, g) p -> valid g) ->
  (forall y g, find_req y p' = Some g -> find_req y p = Some g) ->
  (forall k z pt, In (k, z) L' -> find_req z p' <> None -> pin pt k -> exists k0, In (k0, z) L /\ pin pt k0) ->
  forall y z, waits L' p' y z -> waits L p y z.
Proof.
  intros V' Vp Hp HL y z (Hz & g & Hy & Hn & k & Hk & Ha). split.
  - destruct (find_req z p') as [gz|] eqn:E; [|easy]. apply Hp in E. congruence.
  - exists g. assert (Hy' := Hp _ _ Hy). split; auto. split; auto.
    assert (Vg : valid g) by (eapply Vp; apply find_req_in; eauto).
    destruct (not_apart_pin kcmp OK g k Vg (V' _ Hk) Ha) as (pt & P1 & P2).
    destruct (HL k z pt Hk Hz P2) as (k0 & Hk0 & P0). exists k0. split; auto.
    eapply pin_not_apart; eauto.
Qed.

Lemma waits_regroup L L' p : (forall e, In e L' -> valid (fst e)) -> (forall y g, In (y, g) p -> valid g) ->
  regroup kcmp L L' -> forall y z, waits L' p y z -> waits L p y z.
Proof.
  intros V Vp R. eapply waits_mono; eauto. intros k z pt Hk _ Hp. apply (rg_exact _ _ _ R pt k z Hk Hp).
Qed.

Lemma blocks_regroup L L' x g y : (forall e, In e L -> valid (fst e)) -> (forall e, In e L' -> valid (fst e)) -> valid g ->
  regroup kcmp L L' -> (blocks L x g y <-> blocks L' x g y).
Proof.
  intros V V' Vg R. unfold WfgProofs.blocks. split; intros (Hn & k & Hk & Ha); split; auto.
  - destruct (rg_keep _ _ _ R _ _ Hk) as (k' & Hk' & W). exists k'. split; auto.
    intros Q. apply Ha. apply apart_sym. apply apart_sym in Q. eapply within_apart; eauto.
  - destruct (not_apart_pin kcmp OK g k Vg (V' _ Hk) Ha) as (pt & P1 & P2).
    destruct (rg_exact _ _ _ R pt _ _ Hk P2) as (k0 & Hk0 & P0). exists k0. split; auto. eapply pin_not_apart; eauto.
Qed.

(** Locks of live transactions stay. *)
Definition stays (L : list rlock) (live : list txnid) (L' : list rlock) : Prop :=
  forall k y, In (k, y) L -> In y live -> exists k', In (k', y) L' /\ within k k'.

Lemma stays_refl L v : stays L v L.
Proof. intros k y H _. exists k. split; auto. apply within_refl; auto. Qed.
Lemma stays_trans L v L1 L2 : stays L v L1 -> stays L1 v L2 -> stays L v L2.
Proof.
  intros H1 H2 k y H Hv. destruct (H1 _ _ H Hv) as (k1 & I1 & W1). destruct (H2 _ _ I1 Hv) as (k2 & I2 & W2).
  exists k2. split; auto. eapply within_trans; eauto.
Qed.

(** ** The check of the lock memory *)

Definition same_users (s s' : sys) : Prop :=
  s_live s' = s_live s /\ s_req s' = s_req s /\ s_rel s' = s_rel s /\ s_pend s' = s_pend s /\ s_last s' = s_last s.

Lemma check_ok s gs h big : inv s gs h ->
  exists ok s1 e1 gs1, check_constraints kcmp overhead max big s = Some (ok, s1, e1) /\
    inv s1 gs1 (h ++ e1) /\ same_users s s1 /\ ((e1 = [] /\ s1 = s /\ gs1 = gs) \/ In Escalated e1) /\
    stays (locks (s_lt s) gs) (s_live s) (locks (s_lt s1) gs1).
Proof.
  intros I. unfold check_constraints.
  assert (Hst : forall s gs s', (exists L1, regroup kcmp (locks (s_lt s) gs) L1 /\ spans kcmp L1 (locks (s_lt s') []) /\ dsorted kcmp L1 /\
      (length (locks (s_lt s') []) <= length L1)%nat /\
      (lt_sto (s_lt s) = TXNID_NONE -> L1 = locks (s_lt s) gs)) -> forall v,
      stays (locks (s_lt s) gs) v (locks (s_lt s') [])).
  { clear s gs h I. intros s gs s' (L1 & R & Sp & _) v k y Hk _.
    destruct (rg_keep _ _ _ R _ _ Hk) as (k1 & Hk1 & W1). destruct (sp_keep _ _ _ Sp _ _ Hk1) as (k2 & Hk2 & W2).
    exists k2. split; auto. eapply within_trans; eauto. }
  assert (H1 : exists r1 s1 e1 gs1,
    (if big && over_big max s then do s' <- do_escalate kcmp overhead s; Some (negb (over_big max s'), s', [Escalated])
     else Some (true, s, [])) = Some (r1, s1, e1) /\
    inv s1 gs1 (h ++ e1) /\ same_users s s1 /\ ((e1 = [] /\ s1 = s /\ gs1 = gs) \/ In Escalated e1) /\
    stays (locks (s_lt s) gs) (s_live s) (locks (s_lt s1) gs1)).
  { destruct (big && over_big max s).
    - destruct (escalate_inv kcmp OK overhead s gs h I) as (s' & -> & I' & _ & U1 & U2 & U3 & U4 & U5 & HL).
      exists (negb (over_big max s')), s', [Escalated], []. split; auto. split; auto. split; [unfold same_users; auto|].
      split; [right; left; auto|]. apply Hst; auto.
    - exists true, s, [], gs. rewrite app_nil_r. split; auto. split; auto. split; [unfold same_users; auto 6|].
      split; auto using stays_refl. }
  destruct H1 as (r1 & s1 & e1 & gs1 & -> & I1 & U1 & D1 & St1).
  destruct (r1 && out_of_locks max s1).
  - destruct (escalate_inv kcmp OK overhead s1 gs1 _ I1) as (s2 & -> & I2 & _ & V1 & V2 & V3 & V4 & V5 & HL).
    exists (negb (out_of_locks max s2)), s2, (e1 ++ [Escalated]), []. rewrite app_assoc. split; auto. split; auto.
    split; [unfold same_users in *; intuition congruence|].
    split; [right; apply in_or_app; right; left; auto|].
    eapply stays_trans; eauto.
  - exists r1, s1, e1, gs1. auto 6.
Qed.

Lemma try_acquire_ok s gs h x g chk : inv s gs h -> x <> 0 -> goodg g -> valid g ->
  exists r s' ev s1 e1 gs1, try_acquire s x g chk = Some (r, s', ev) /\
    inv s1 gs1 (h ++ e1) /\ same_users s s1 /\ ((e1 = [] /\ s1 = s /\ gs1 = gs) \/ In Escalated e1) /\
    stays (locks (s_lt s) gs) (s_live s) (locks (s_lt s1) gs1) /\
    match r with
    | LGranted => exists l, acquire_lock kcmp overhead (s_lt s1) x g = Some (Granted, l) /\
                            s' = set_lt s1 l /\ ev = e1 ++ [Grant x g]
    | LRefused cs => exists l, acquire_lock kcmp overhead (s_lt s1) x g = Some (NotGranted cs, l) /\
                               s' = set_lt s1 l /\ ev = e1 ++ [Refuse x g cs]
    | LOutOfLocks => s' = s1 /\ ev = e1 ++ [OutOfLocks x g]
    end.
Proof.
  intros I Hx G V. unfold LtSysModel.try_acquire.
  assert (H1 : exists ok s1 e1 gs1, (match chk with None => Some (true, s, []) | Some big => check_constraints kcmp overhead max big s end)
     = Some (ok, s1, e1) /\ inv s1 gs1 (h ++ e1) /\ same_users s s1 /\ ((e1 = [] /\ s1 = s /\ gs1 = gs) \/ In Escalated e1) /\
     stays (locks (s_lt s) gs) (s_live s) (locks (s_lt s1) gs1)).
  { destruct chk as [big|]; [apply check_ok; auto|]. exists true, s, [], gs. rewrite app_nil_r.
    split; auto. split; auto. split; [unfold same_users; auto 6|]. split; auto using stays_refl. }
  destruct H1 as (ok & s1 & e1 & gs1 & -> & I1 & U1 & D1 & St1). destruct ok.
  - destruct I1 as (I1 & C1 & B1).
    destruct (acquire_lock_ok kcmp OK overhead (s_lt s1) gs1 _ x g I1 Hx V G) as (an & l & gs2 & E & _).
    rewrite E. destruct an as [|cs].
    + exists LGranted, (set_lt s1 l), (e1 ++ [Grant x g]), s1, e1, gs1. split; auto. split; [split; auto|]. eauto 9.
    + exists (LRefused cs), (set_lt s1 l), (e1 ++ [Refuse x g cs]), s1, e1, gs1. split; auto. split; [split; auto|]. eauto 9.
  - exists LOutOfLocks, s1, (e1 ++ [OutOfLocks x g]), s1, e1, gs1. auto 9.
Qed.

Lemma good_range_ok g : good_range kcmp g -> goodg g /\ valid g.
Proof.
  intros (H1 & H2 & H3 & H4). apply (ep_le_iff kcmp) in H3. split; [|exact H3].
  assert (K : forall e, good_key e = true -> good_ep e).
  { intros [|k|]; cbn; auto. intros H. apply andb_prop in H. destruct H as [Ha Hb].
    split; [destruct k; easy|]. apply N.ltb_lt. auto. }
  split; auto.
Qed.

(** ** Every legal step *)

(** A pending request is retried and there is no memory for its lock. *)
Definition retry_fails (s : sys) (o : op) : Prop :=
  exists x chk g s' ev, o = Retry x chk /\ find_req x (s_pend s) = Some g /\
    try_acquire s x g chk = Some (LOutOfLocks, s', ev).

(** How a step changes the waits-for relation. *)
Definition evolves (s : sys) (gs : list rng) (o : op) (s' : sys) (gs' : list rng) (ev : list event) : Prop :=
  match o with
  | Enqueue x =>
    exists g cs, s_req s x = RBlocked g cs /\ find_req x (s_pend s) = None /\
      locks (s_lt s') gs' = locks (s_lt s) gs /\
      let dead := exists c p, insert_req x g (s_pend s) = Some p /\ In c cs /\ find_req c p <> None /\
                    clos_trans _ (waits (locks (s_lt s) gs) p) c x in
      ((ev = [Deadlock x g] /\ dead /\ s_pend s' = s_pend s) \/
       (ev = [] /\ ~ dead /\ insert_req x g (s_pend s) = Some (s_pend s')))
  | _ => In Escalated ev \/
         forall y z, waits (locks (s_lt s') gs') (s_pend s') y z -> waits (locks (s_lt s) gs) (s_pend s) y z
  end.

(** What else a step may change. *)
Record moves (s : sys) (gs : list rng) (s' : sys) (gs' : list rng) : Prop := {
  mv_stays : stays (locks (s_lt s) gs) (s_live s') (locks (s_lt s') gs');
  mv_req : forall y g cs, s_req s' y = RBlocked g cs -> s_req s y = RBlocked g cs \/
    forall c, In c cs <-> blocks (locks (s_lt s') gs') y g c;
  mv_last : s_last s <= s_last s';
  mv_live : forall y, In y (s_live s') -> In y (s_live s) \/ s_last s < y }.

Ltac mv := constructor; cbn [s_lt s_live s_req s_last s_pend set_lt set_req set_pend set_rel];
  [first [apply stays_refl|auto]|auto|lia|auto].

Lemma inv_pend_valid s gs h y g : inv s gs h -> In (y, g) (s_pend s) -> valid g.
Proof. intros (_ & _ & B) H. apply (b_pend _ _ _ B _ _ H). Qed.

Lemma inv_locks_valid s gs h e : inv s gs h -> In e (locks (s_lt s) gs) -> valid (fst e).
Proof. intros (I & _ & _) H. eapply locks_valid; eauto. Qed.

Lemma remove_find x p p' : psorted p -> remove_req x p = Some p' -> find_req x p <> None /\
  psorted p' /\ (forall y, find_req y p' = if y =? x then None else find_req y p).
Proof.
  intros S E. assert (Hx : find_req x p <> None).
  { clear S. revert p' E. induction p as [|[y h] p IH]; cbn; intros p' E; [discriminate|].
    destruct (x =? y); [easy|]. destruct (remove_req x p) eqn:Er; [|discriminate]. eauto. }
  destruct (remove_req_ok x p S Hx) as (p2 & E2 & S2 & F2). rewrite E in E2. injection E2 as <-. auto.
Qed.

Lemma grants_waits L x g L' p p' : grants kcmp L x g L' ->
  (forall e, In e L' -> valid (fst e)) -> (forall y q, In (y, q) p -> valid q) ->
  (forall y, find_req y p' = if y =? x then None else find_req y p) ->
  forall y z, waits L' p' y z -> waits L p y z.
Proof.
  intros Gr V Vp Hp. eapply waits_mono; eauto.
  - intros y q H. rewrite Hp in H. destruct (y =? x); [discriminate|auto].
  - intros k z pt Hk Hz P. destruct (gr_exact _ _ _ _ _ Gr pt k z Hk P) as [H|[-> _]]; auto.
    exfalso. apply Hz. rewrite Hp, N.eqb_refl. auto.
Qed.

Lemma live_pos s h x : book kcmp s h -> In x (s_live s) -> x <> 0.
Proof. intros B H. apply (b_live _ _ _ B x H). Qed.

Lemma rel_same s x s' ev : step s (Rel x) = Some (s', ev) ->
  s_live s' = s_live s /\ s_req s' = s_req s /\ s_last s' = s_last s.
Proof.
  cbn [LtSysModel.step]. destruct (map_find x (s_maps s)).
  - destruct (sto_try_release (s_lt s) x) as [[rel l]|]; [|discriminate].
    destruct (if rel then _ else _); [|discriminate]. intros E. injection E as <- _. auto.
  - intros E. injection E as <- _. auto.
Qed.

Lemma relfin_same s x s' ev : step s (RelFin x) = Some (s', ev) ->
  s_live s' = s_live s /\ s_req s' = s_req s /\ s_last s' = s_last s.
Proof.
  cbn [LtSysModel.step]. destruct (s_rel s x) as [|[|]|]; try discriminate.
  destruct (map_find x (s_maps s)); [|discriminate].
  destruct (mem_released _ _); [|discriminate]. intros E. injection E as <- _. auto.
Qed.

Lemma step_ok s gs h o : inv s gs h -> legal kcmp s o ->
  (step s o = None /\ retry_fails s o) \/
  exists s' ev gs', step s o = Some (s', ev) /\ inv s' gs' (h ++ ev) /\ moves s gs s' gs' /\
    evolves s gs o s' gs' ev.
Proof.
  intros I Lg. destruct o as [|x g chk|x|x chk|x|x|x|x|x|x|]; cbn [legal] in Lg.
  - (* Begin *) right. cbn [LtSysModel.step]. eexists _, [], gs. split; [reflexivity|]. rewrite app_nil_r.
    split; [apply begin_inv; auto|]. split; [|right; auto].
    constructor; cbn [s_lt s_live s_req s_last]; [apply stays_refl|auto|lia|].
    intros y [<-|Hy]; [right; lia|auto].
  - (* Start *) right. destruct Lg as (Hl & (Hq & Hp) & Hg). apply good_range_ok in Hg. destruct Hg as [G V].
    assert (Hx : x <> 0) by (destruct I as (_ & _ & B); eapply live_pos; eauto).
    destruct (try_acquire_ok s gs h x g chk I Hx G V) as (r & s' & ev & s1 & e1 & gs1 & E & I1 & U & D & St & Hr).
    destruct U as (U1 & U2 & U3 & U4 & U5). cbn [LtSysModel.step]. rewrite E.
    destruct r as [|cs|].
    + destruct Hr as (l & Ea & -> & ->).
      assert (Sp : psorted (s_pend s1)) by (destruct I1 as (_ & _ & B); apply B).
      assert (Hf : forall y, find_req y (s_pend s1) = if y =? x then None else find_req y (s_pend s1)).
      { intros y. destruct (y =? x) eqn:Ey; auto. apply N.eqb_eq in Ey. subst y. rewrite U4. auto. }
      destruct (grant_inv kcmp OK overhead s1 gs1 _ x g l (s_pend s1) I1) as (gs' & I2 & Gr & _); auto; try congruence.
      eexists _, _, gs'. split; [reflexivity|]. rewrite app_assoc. split; [exact I2|].
      split.
      { constructor; cbn [s_lt s_live s_req s_last s_pend set_lt set_req set_pend set_rel]; [|
          intros y q c Hy; left; unfold upd in Hy; destruct (y =? x); [discriminate|congruence]|lia|rewrite U1; auto].
        rewrite U1. eapply stays_trans; [exact St|]. intros k y Hk _. apply (gr_keep _ _ _ _ _ Gr _ _ Hk). }
      destruct D as [(-> & -> & ->)|D]; [|left; apply in_or_app; auto]. right.
      eapply grants_waits; eauto.
      * intros e He. apply (inv_locks_valid _ _ _ _ I2 He).
      * intros y q. apply (inv_pend_valid _ _ _ _ _ I).
    + destruct Hr as (l & Ea & -> & ->).
      destruct (refuse_inv kcmp OK overhead s1 gs1 _ x g l cs I1 Hx G V Ea) as (gs' & I2 & Hc & R & Hb).
      assert (I3 : inv (set_req (set_lt s1 l) x (RBlocked g cs)) gs' ((h ++ e1) ++ [Refuse x g cs])).
      { apply set_req_inv; auto; cbn [set_lt s_req s_lt s_live s_pend].
        - intros q. rewrite U2. congruence.
        - discriminate.
        - left. destruct I1 as (I1 & _ & _).
          destruct (acquire_lock_ok kcmp OK overhead (s_lt s1) gs1 _ x g I1 Hx V G) as (an & l' & gs2 & E' & _ & _ & Hs).
          rewrite Ea in E'. injection E' as <- <-. apply Hs. discriminate.
        - rewrite U1, U4. split; auto. split; auto. split; auto. split; auto. split; auto.
          intros Hi. apply Hb in Hi. destruct Hi as [Hi _]. apply Hi. reflexivity. }
      eexists _, _, gs'. split; [reflexivity|]. rewrite app_assoc. split; [exact I3|].
      split.
      { constructor; cbn [s_lt s_live s_req s_last s_pend set_lt set_req set_pend set_rel]; [| |lia|rewrite U1; auto].
        - rewrite U1. eapply stays_trans; [exact St|]. intros k y Hk _. apply (rg_keep _ _ _ R _ _ Hk).
        - intros y q c Hy. unfold upd in Hy. destruct (y =? x) eqn:Ey; [|left; congruence].
          apply N.eqb_eq in Ey. subst y. injection Hy as <- <-. right. intros c. rewrite Hb.
          apply blocks_regroup; auto.
          + intros e He. apply (inv_locks_valid _ _ _ _ I1 He).
          + intros e He. apply (inv_locks_valid _ _ _ _ I3 He). }
      destruct D as [(-> & -> & ->)|D]; [|left; apply in_or_app; auto]. right.
      cbn [set_req set_lt s_lt s_pend]. eapply waits_regroup; eauto.
      * intros e He. apply (inv_locks_valid _ _ _ _ I3 He).
      * intros y q. apply (inv_pend_valid _ _ _ _ _ I).
    + destruct Hr as (-> & ->). eexists _, _, gs1. split; [reflexivity|]. rewrite app_assoc.
      split; [apply inv_quiet; [exact Logic.I|auto]|]. split; [|
      destruct D as [(-> & -> & ->)|D]; [right; auto|left; apply in_or_app; auto]].
      constructor; [rewrite U1; exact St|rewrite U2; auto|lia|rewrite U1; auto].
  - (* Enqueue *) right. destruct Lg as (g & cs & Hq). cbn [LtSysModel.step]. rewrite Hq.
    pose proof I as (Il & C & B).
    destruct (b_blocked _ _ _ B _ _ _ Hq) as (Hl & G & V & Hc & Hxc).
    assert (Hn : find_req x (s_pend s) = None).
    { destruct (find_req x (s_pend s)) eqn:E; auto. rewrite (b_one _ _ _ B x) in Hq; [discriminate|congruence]. }
    destruct cs as [|c0 cs0]; [easy|]. remember (c0 :: cs0) as cs eqn:Ecs.
    assert (is_nil cs = false) as -> by (subst cs; reflexivity). cbn [negb].
    destruct (insert_req_ok x g (s_pend s) (b_psorted _ _ _ B) Hn) as (p & Ep & Sp & Hin & Hf). rewrite Ep.
    assert (Vp : Forall (fun e => valid (snd e)) p).
    { rewrite Forall_forall. intros [y q] Hi. apply Hin in Hi. destruct Hi as [[= -> ->]|Hi]; auto.
      apply (b_pend _ _ _ B _ _ Hi). }
    destruct (deadlock_exists_ok kcmp OK overhead gs (memsum (s_maps s)) p (s_lt s) x cs Vp Il Hxc)
      as (b & l & Ed & Il' & Ls & Hb). rewrite Ed.
    set (s1 := set_lt (set_req s x RNone) l).
    assert (I1 : inv s1 gs h).
    { apply lsame_inv; auto. apply set_req_inv; auto. - intros q. congruence. - discriminate. }
    assert (HL : locks l gs = locks (s_lt s) gs) by (destruct Ls; unfold locks; congruence).
    (* the dead relation over all locks *)
    assert (HW : forall y z, waits (elems (lt_tree (s_lt s))) p y z <-> waits (locks (s_lt s) gs) p y z).
    { intros y z. destruct (locks_cases kcmp overhead _ _ _ Il) as [(_ & _ & ->)|(Hs & Et & EL & _)]; [tauto|].
      rewrite Et, EL. cbn [elems]. split.
      - intros (_ & q & _ & _ & k & [] & _).
      - intros (Hz & q & _ & _ & k & Hk & _). exfalso. apply in_tag in Hk. destruct Hk as [-> _].
        destruct (b_sto _ _ _ B Hs) as (_ & Q & Q'). rewrite Hf, Q in Hz.
        destruct (lt_sto (s_lt s) =? x) eqn:Ex; [|easy]. apply N.eqb_eq in Ex. rewrite Ex in Q'. eapply Q'; eauto. }
    assert (HD : b = true <-> exists c p', insert_req x g (s_pend s) = Some p' /\ In c cs /\ find_req c p' <> None /\
                    clos_trans _ (waits (locks (s_lt s) gs) p') c x).
    { rewrite Hb. split.
      - intros (c & H1 & H2 & H3). exists c, p. split; auto. split; auto. split; auto.
        clear - H3 HW. induction H3; [apply t_step; apply HW; auto|eapply t_trans; eauto].
      - intros (c & p' & Ep' & H1 & H2 & H3). rewrite Ep in Ep'. injection Ep' as <-. exists c. split; auto. split; auto.
        clear - H3 HW. induction H3; [apply t_step; apply HW; auto|eapply t_trans; eauto]. }
    assert (HM : forall p, moves s gs (set_pend s1 p) gs).
    { intros p'. constructor; cbn; [rewrite HL; apply stays_refl|
        intros y q c Hy; left; unfold upd in Hy; destruct (y =? x); [discriminate|auto]|lia|auto]. }
    destruct b.
    + destruct (remove_req_ok x p Sp) as (p' & Er & Sp' & Hf').
      { rewrite Hf, N.eqb_refl. discriminate. }
      rewrite Er.
      assert (p' = s_pend s) as ->.
      { clear - Ep Er. revert p p' Ep Er. generalize (s_pend s) as q.
        induction q as [|[y h] q IH]; cbn; intros p p' Ep Er.
        - injection Ep as <-. cbn in Er. rewrite N.eqb_refl in Er. congruence.
        - destruct (x <? y); [injection Ep as <-; cbn in Er; rewrite N.eqb_refl in Er; congruence|].
          destruct (x =? y) eqn:Exy; [discriminate|]. destruct (insert_req x g q) as [r|] eqn:Ei; [|discriminate].
          injection Ep as <-. cbn in Er. rewrite Exy in Er. destruct (remove_req x r) as [r'|] eqn:Err; [|discriminate].
          injection Er as <-. f_equal. eapply IH; eauto. }
      eexists _, _, gs. split; [reflexivity|]. split; [|split].
      * apply inv_quiet; [exact Logic.I|]. apply less_pend_inv; auto.
      * apply HM.
      * cbn [evolves]. exists g, cs. split; auto. split; auto. split; [exact HL|]. left.
        split; auto. split; auto. apply HD. auto.
    + eexists _, [], gs. split; [reflexivity|]. rewrite app_nil_r. split; [|split; [apply HM|]].
      * destruct I1 as (J1 & J2 & J3). split; [exact J1|]. split.
        -- eapply core_same with (s := s1); auto. intros; reflexivity.
        -- assert (Hq1 : s_req s1 x = RNone) by (apply upd_same).
           destruct J3. constructor; cbn [set_pend s_lt s_maps s_live s_last s_req s_rel s_pend] in *; auto.
           ++ intros y q Hi. apply Hin in Hi. destruct Hi as [[= -> ->]|Hi]; auto.
           ++ intros y Hy. rewrite Hf in Hy. destruct (y =? x) eqn:Ey; [apply N.eqb_eq in Ey; subst y; auto|auto].
           ++ intros Hs. destruct (b_sto Hs) as (Q1 & Q2 & Q3). split; auto. split; auto.
              rewrite Hf. destruct (lt_sto (s_lt s1) =? x) eqn:Ex; auto. exfalso. apply N.eqb_eq in Ex.
              assert (Hss : lt_sto (s_lt s1) = lt_sto (s_lt s)) by (destruct Ls; cbn; auto).
              rewrite Hss in *. destruct (LtSysProofs.b_sto _ _ _ B Hs) as (_ & _ & Q). rewrite Ex in Q. eapply Q; eauto.
      * cbn [evolves]. exists g, cs. split; auto. split; auto. split; [exact HL|]. right.
        split; auto. split; auto. intros Q. apply HD in Q. discriminate.
  - (* Retry *)
    pose proof I as (Il & C & B). cbn [LtSysModel.step].
    destruct (find_req x (s_pend s)) as [g|] eqn:Ef; [|easy].
    destruct (b_pend _ _ _ B x g (find_req_in _ _ _ Ef)) as (Hl & G & V).
    assert (Hx : x <> 0) by (eapply live_pos; eauto).
    assert (Hq : s_req s x = RNone) by (apply (b_one _ _ _ B); congruence).
    destruct (try_acquire_ok s gs h x g chk I Hx G V) as (r & s' & ev & s1 & e1 & gs1 & E & I1 & U & D & St & Hr).
    destruct U as (U1 & U2 & U3 & U4 & U5). rewrite E.
    destruct r as [|cs|].
    + right. destruct Hr as (l & Ea & -> & ->). cbn [set_lt s_pend].
      destruct (remove_req_ok x (s_pend s1)) as (p' & Er & Sp & Hf).
      { destruct I1 as (_ & _ & B1). apply B1. } { rewrite U4. congruence. }
      rewrite Er.
      destruct (grant_inv kcmp OK overhead s1 gs1 _ x g l p' I1) as (gs' & I2 & Gr & _); auto; try congruence.
      eexists _, _, gs'. split; [reflexivity|]. rewrite app_assoc. split; [exact I2|].
      split.
      { constructor; cbn [s_lt s_live s_req s_last s_pend set_lt set_req set_pend set_rel]; [|
          intros y q c Hy; left; unfold upd in Hy; destruct (y =? x); [discriminate|congruence]|lia|rewrite U1; auto].
        rewrite U1. eapply stays_trans; [exact St|]. intros k y Hk _. apply (gr_keep _ _ _ _ _ Gr _ _ Hk). }
      destruct D as [(-> & -> & ->)|D]; [|left; apply in_or_app; auto]. right.
      cbn [set_pend set_req s_lt s_pend].
      eapply grants_waits; eauto.
      * intros e He. apply (inv_locks_valid _ _ _ _ I2 He).
      * intros y q. apply (inv_pend_valid _ _ _ _ _ I).
    + right. destruct Hr as (l & Ea & -> & ->).
      destruct (refuse_inv kcmp OK overhead s1 gs1 _ x g l cs I1 Hx G V Ea) as (gs' & I2 & Hc & R & Hb).
      assert (is_nil cs = false) as -> by (destruct cs; easy). cbn [negb].
      eexists _, _, gs'. split; [reflexivity|]. rewrite app_assoc. split; [exact I2|].
      split.
      { constructor; cbn [s_lt s_live s_req s_last s_pend set_lt]; [|rewrite U2; auto|lia|rewrite U1; auto].
        rewrite U1. eapply stays_trans; [exact St|]. intros k y Hk _. apply (rg_keep _ _ _ R _ _ Hk). }
      destruct D as [(-> & -> & ->)|D]; [|left; apply in_or_app; auto]. right.
      cbn [set_lt s_lt s_pend]. eapply waits_regroup; eauto.
      * intros e He. apply (inv_locks_valid _ _ _ _ I2 He).
      * intros y q. apply (inv_pend_valid _ _ _ _ _ I).
    + left. split; auto. exists x, chk, g, s', ev. auto.
  - (* GiveUp *) right. pose proof I as (Il & C & B). cbn [LtSysModel.step].
    destruct (find_req x (s_pend s)) as [g|] eqn:Ef; [|easy].
    destruct (remove_req_ok x (s_pend s) (b_psorted _ _ _ B)) as (p & Er & Sp & Hf); [congruence|].
    rewrite Er. eexists _, _, gs. split; [reflexivity|]. split; [|split; [mv|]].
    + apply inv_quiet; [exact Logic.I|]. apply less_pend_inv; auto.
      * intros e. eapply remove_req_in; eauto.
      * intros y. rewrite Hf. destruct (y =? x); [easy|auto].
    + right. cbn [set_pend s_lt s_pend]. eapply waits_mono; eauto.
      * intros e He. apply (inv_locks_valid _ _ _ _ I He).
      * intros y q. apply (inv_pend_valid _ _ _ _ _ I).
      * intros y q H. rewrite Hf in H. destruct (y =? x); [discriminate|auto].
  - (* Note *) right. destruct Lg as (g & Hq). cbn [LtSysModel.step]. rewrite Hq.
    destruct (note_inv kcmp overhead s gs h x g I Hq) as (ms & m & -> & I').
    eexists _, [], gs. split; [reflexivity|]. rewrite app_nil_r. split; [exact I'|].
    split; [|right; auto].
    constructor; cbn [s_lt s_live s_req s_last]; [apply stays_refl| |lia|auto].
    intros y q c Hy. left. unfold upd in Hy. destruct (y =? x); [discriminate|auto].
  - (* End *) right. destruct Lg as (Hl & Hq & Hp). cbn [LtSysModel.step].
    eexists _, [], gs. split; [reflexivity|]. rewrite app_nil_r. split; [apply end_inv; auto|].
    split; [|right; auto].
    constructor; cbn [s_lt s_live s_req s_last]; [apply stays_refl|auto|lia|].
    intros y Hy. apply filter_In in Hy. tauto.
  - (* Rel *) right. destruct (rel_inv kcmp overhead max s gs h x I Lg) as (s' & ev & gs' & E & I' & Ep & HL).
    exists s', ev, gs'. split; auto. split; auto. pose proof Lg as (_ & _ & Hl & _).
    destruct (rel_same s x s' ev E) as (U1 & U2 & U3).
    split.
    { constructor; [|rewrite U2; auto|lia|rewrite U1; auto]. rewrite U1. intros k y Hk Hy. exists k.
      split; [|apply within_refl; auto]. apply HL; auto. intros ->. easy. }
    right. rewrite Ep.
    assert (Hx : find_req x (s_pend s) = None).
    { destruct (find_req x (s_pend s)) as [g|] eqn:Ef; auto. exfalso. apply find_req_in in Ef.
      destruct I as (_ & _ & B). destruct (b_pend _ _ _ B _ _ Ef). easy. }
    eapply waits_mono; eauto.
    + intros e He. apply (inv_locks_valid _ _ _ _ I' He).
    + intros y q. apply (inv_pend_valid _ _ _ _ _ I).
    + intros k z pt Hk Hz P. exists k. split; auto. apply HL; auto. intros ->. easy.
  - (* RelNext *) right. destruct Lg as (g & l & b & Hr). cbn [LtSysModel.step]. rewrite Hr.
    destruct (relnext_inv kcmp OK overhead s gs h x g l b I Hr) as (t & -> & I' & HL).
    eexists _, [], gs. split; [reflexivity|]. rewrite app_nil_r. split; [exact I'|].
    split.
    { constructor; cbn [set_rel s_lt s_live s_req s_last]; [|auto|lia|auto]. intros k y Hk Hy. exists k.
      split; [|apply within_refl; auto]. apply HL; auto. intros ->.
      destruct I as (_ & _ & B). destruct (b_rel _ _ _ B x) as (_ & ? & _); [congruence|easy]. }
    right. cbn [set_rel s_lt s_pend].
    assert (Hx : find_req x (s_pend s) = None).
    { destruct (find_req x (s_pend s)) as [q|] eqn:Ef; auto. exfalso. apply find_req_in in Ef.
      destruct I as (_ & _ & B). destruct (b_pend _ _ _ B _ _ Ef).
      destruct (b_rel _ _ _ B x) as (_ & ? & _); [congruence|easy]. }
    eapply waits_mono; eauto.
    + intros e He. apply (inv_locks_valid _ _ _ _ I' He).
    + intros y q. apply (inv_pend_valid _ _ _ _ _ I).
    + intros k z pt Hk Hz P. exists k. split; auto. apply HL; auto. intros ->. easy.
  - (* RelFin *) right. destruct Lg as (b & Hr).
    destruct (relfin_inv kcmp overhead max s gs h x b I Hr) as (s' & ev & E & I' & Ep & HL).
    exists s', ev, gs. split; auto. split; auto.
    destruct (relfin_same s x s' ev E) as (U1 & U2 & U3).
    split; [|right; rewrite Ep, HL; auto].
    constructor; [rewrite HL; apply stays_refl|rewrite U2; auto|lia|rewrite U1; auto].
  - (* Escalate *) right. cbn [LtSysModel.step].
    destruct (escalate_inv kcmp OK overhead s gs h I) as (s' & -> & I' & _ & U1 & U2 & _ & _ & U5 & L1 & R & Sp & _).
    eexists _, _, []. split; [reflexivity|]. split; [exact I'|]. split; [|left; left; auto].
    constructor; [|rewrite U2; auto|lia|rewrite U1; auto]. intros k y Hk _.
    destruct (rg_keep _ _ _ R _ _ Hk) as (k1 & Hk1 & W1). destruct (sp_keep _ _ _ Sp _ _ Hk1) as (k2 & Hk2 & W2).
    exists k2. split; auto. eapply within_trans; eauto.
Qed.

Lemma init_inv : inv sys_init [] [].
Proof.
  split; [|split].
  - constructor; cbn; auto using rep_empty; try easy. apply dsorted_nil.
  - constructor; cbn; try easy.
    + intros x g (h1 & h2 & E & _). destruct h1; discriminate.
    + intros x r _ (b & rs & H & _). discriminate.
  - constructor; cbn; try easy; try (constructor; fail).
Qed.

Lemma reach_inv s h : reach kcmp overhead max s h -> exists gs, inv s gs h.
Proof.
  induction 1 as [|s h o s' ev R [gs I] Lg E].
  - exists []. apply init_inv.
  - destruct (step_ok s gs h o I Lg) as [[E' _]|(s2 & ev2 & gs' & E' & I' & _ & _)]; rewrite E in E'; [discriminate|].
    injection E' as <- <-. eauto.
Qed.

End Steps.
