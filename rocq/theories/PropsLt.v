(** C10-C14, C39, C40: row locks of a dictionary.

    All theorems are about every reachable state of LtSysModel.v: any number of
    transactions, any interleaving of their steps, any key comparison function
    that is a total preorder, any limit on the lock memory. *)
From Coq Require Import Permutation Relations.
From Verif Require Import Base Bytes LtTreeModel RangeBufModel LtModel WfgModel LtSpec LtSysModel
  LtTreeProofs RangeBufProofs LtProofs LtEscalate WfgProofs LtSysProofs LtSysSteps LtUser LtDeadlock KeyCmp.
Open Scope N_scope.

(** ** Concrete runs *)

(** A boolean version of [legal] for the built-in comparison. *)
Definition ep_leb (a b : ep) : bool :=
  match a, b with
  | NegInf, _ => true
  | _, PosInf => true
  | Fin x, Fin y => match key_cmp x y with Gt => false | _ => true end
  | _, _ => false
  end.
Definition ep_eqb (a b : ep) : bool := ep_leb a b && ep_leb b a.
Definition good_rangeb (g : rng) : bool :=
  good_key (r_l g) && good_key (r_r g) && ep_leb (r_l g) (r_r g) && (negb (r_same g) || ep_eqb (r_l g) (r_r g)).
Definition no_requestb (s : sys) (x : txnid) : bool :=
  match s_req s x with RNone => negb (is_some (find_req x (s_pend s))) | _ => false end.
Definition legalb (s : sys) (o : op) : bool :=
  match o with
  | Begin | Escalate => true
  | Start x g _ => is_live x (s_live s) && no_requestb s x && good_rangeb g
  | Enqueue x => match s_req s x with RBlocked _ _ => true | _ => false end
  | Retry x _ | GiveUp x => is_some (find_req x (s_pend s))
  | Note x => match s_req s x with RGranted _ => true | _ => false end
  | End x => is_live x (s_live s) && no_requestb s x
  | Rel x => (x <=? s_last s) && negb (x =? 0) && negb (is_live x (s_live s)) &&
             match s_rel s x with Idle => true | _ => false end
  | RelNext x => match s_rel s x with Releasing (_ :: _) _ => true | _ => false end
  | RelFin x => match s_rel s x with Releasing [] _ => true | _ => false end
  end.

Lemma ep_leb_ok a b : ep_leb a b = true -> ep_le key_cmp a b.
Proof. destruct a, b; cbn; try discriminate; auto. destruct (key_cmp k k0); congruence. Qed.
Lemma ep_eqb_ok a b : ep_eqb a b = true -> a = b.
Proof.
  unfold ep_eqb. intros H. apply andb_prop in H. destruct H as [H1 H2].
  destruct a, b; cbn in *; try discriminate; auto. rewrite (key_cmp_sym k k0) in H2.
  destruct (key_cmp k k0) eqn:E; try discriminate. apply key_cmp_eq in E. congruence.
Qed.
Lemma good_rangeb_ok g : good_rangeb g = true -> good_range key_cmp g.
Proof.
  unfold good_rangeb. intros H. apply andb_prop in H. destruct H as [H H4]. apply andb_prop in H. destruct H as [H H3].
  apply andb_prop in H. destruct H as [H1 H2]. split; auto. split; auto. split; [apply ep_leb_ok; auto|].
  intros E. rewrite E in H4. apply ep_eqb_ok. auto.
Qed.
Lemma no_requestb_ok s x : no_requestb s x = true -> no_request s x.
Proof.
  unfold no_requestb, no_request. destruct (s_req s x); try discriminate.
  destruct (find_req x (s_pend s)); [discriminate|auto].
Qed.
Lemma legalb_ok s o : legalb s o = true -> legal key_cmp s o.
Proof.
  destruct o; cbn [legalb legal]; intros H; auto.
  - apply andb_prop in H. destruct H as [H H3]. apply andb_prop in H. destruct H as [H1 H2].
    split; [apply is_live_iff; auto|]. split; [apply no_requestb_ok; auto|apply good_rangeb_ok; auto].
  - destruct (s_req s x); try discriminate. eauto.
  - destruct (find_req x (s_pend s)); [discriminate|discriminate].
  - destruct (find_req x (s_pend s)); [discriminate|discriminate].
  - destruct (s_req s x); try discriminate. eauto.
  - apply andb_prop in H. destruct H as [H1 H2].
    split; [apply is_live_iff; auto|apply no_requestb_ok; auto].
  - apply andb_prop in H. destruct H as [H H4]. apply andb_prop in H. destruct H as [H H3].
    apply andb_prop in H. destruct H as [H1 H2].
    split; [apply N.leb_le; auto|]. split; [apply N.eqb_neq; apply negb_true_iff; auto|].
    split; [|destruct (s_rel s x); try discriminate; auto].
    intros Q. apply is_live_iff in Q. rewrite Q in H3. discriminate.
  - destruct (s_rel s x) as [|[|]|]; try discriminate. eauto.
  - destruct (s_rel s x) as [|[|]|]; try discriminate. eauto.
Qed.

(** The history of a legal run. *)
Fixpoint legal_run (overhead max : N) (s : sys) (h : list event) (os : list op) : option (sys * list event) :=
  match os with
  | [] => Some (s, h)
  | o :: os' =>
    guard legalb s o;
    do (s1, e) <- step key_cmp overhead max s o; legal_run overhead max s1 (h ++ e) os'
  end.

Lemma legal_run_reach overhead max os : forall s h s' h', reach key_cmp overhead max s h ->
  legal_run overhead max s h os = Some (s', h') -> reach key_cmp overhead max s' h'.
Proof.
  induction os as [|o os IH]; cbn [legal_run]; intros s h s' h' R E.
  - injection E as <- <-. auto.
  - destruct (legalb s o) eqn:El; [|discriminate]. apply legalb_ok in El.
    destruct (step key_cmp overhead max s o) as [[s1 e]|] eqn:Es; [|discriminate].
    eapply IH; [|exact E]. econstructor; eauto.
Qed.

Definition k (n : N) : ep := Fin [n].
Definition pt (n : N) : rng := Rng (k n) (k n) true.
Definition rg (a b : N) : rng := Rng (k a) (k b) false.

(** Runs end in a reachable state with the given history. *)
Definition state_of (overhead max : N) (os : list op) : sys :=
  match legal_run overhead max sys_init [] os with Some (s, _) => s | None => sys_init end.
Definition history_of (overhead max : N) (os : list op) : list event :=
  match legal_run overhead max sys_init [] os with Some (_, h) => h | None => [] end.
Lemma state_reach overhead max os : is_some (legal_run overhead max sys_init [] os) = true ->
  reach key_cmp overhead max (state_of overhead max os) (history_of overhead max os).
Proof.
  unfold state_of, history_of. destruct (legal_run overhead max sys_init [] os) as [[s h]|] eqn:E; [|discriminate].
  intros _. eapply legal_run_reach; [constructor|exact E].
Qed.

(** T1 has [1,5] and 9; T2 has 20 and waits for 3; T3 has 40. *)
Definition run1 : list op :=
  [Begin; Begin; Begin; Start 1 (rg 1 5) (Some false); Note 1; Start 1 (pt 9) (Some true); Note 1;
   Start 2 (pt 20) (Some false); Note 2; Start 2 (pt 3) (Some false); Enqueue 2; Start 3 (pt 40) None; Note 3].

Section Claims.

Variable kcmp : bytes -> bytes -> comparison.
Hypothesis OK : cmp_ok kcmp.
Variable overhead : N.
Variable max : N.
Notation reach := (reach kcmp overhead max).
Notation step := (step kcmp overhead max).
Notation told := (told kcmp overhead).
Notation locked := (locked kcmp overhead).
Notation waits_for := (waits_for kcmp overhead).

(** ** C10 *)

(** Ranges held by different transactions have no key in common. *)
Theorem C10_locks_exclusive : forall s h, reach s h ->
  forall x g y g', holds h x g -> holds h y g' -> x <> y -> ~ conflict kcmp g g'.
Proof. intros s h R x g y g' Hx Hy Hn. eapply exclusive; eauto. Qed.

(** A request is answered; it is granted only if no other transaction holds a
    range that overlaps it, and refused if one does; the refusal names all
    transactions in the way.  Unless locks have been escalated, every one named
    was granted an overlapping range that it has not released. *)
Theorem C10_request_answered : forall s h, reach s h ->
  forall x g chk, legal kcmp s (Start x g chk) ->
  exists s' e1 a, step s (Start x g chk) = Some (s', e1 ++ [a]) /\ Forall (eq Escalated) e1 /\
    ((a = Grant x g /\ forall y g', y <> x -> holds h y g' -> ~ conflict kcmp g g') \/
     (exists cs, a = Refuse x g cs /\ cs <> [] /\ ~ In x cs /\
        (forall y g', y <> x -> holds h y g' -> conflict kcmp g g' -> In y cs) /\
        (e1 = [] -> ~ In Escalated h ->
           forall y, In y cs -> exists g', not_released h y g' /\ conflict kcmp g g')) \/
     a = OutOfLocks x g).
Proof.
  intros s h R x g chk (Hl & Hq & Hg). destruct (reach_inv kcmp OK overhead max s h R) as (gs & _ & _ & B).
  destruct (b_live _ _ _ B _ Hl) as (_ & Hx & _).
  destruct (try_answer kcmp OK overhead max s h x g chk R Hx Hg) as (r & s' & ev & E & e1 & He & Hr).
  cbn [LtSysModel.step]. rewrite E. destruct r as [|cs|].
  - destruct Hr as [-> Hr]. eexists _, e1, _. split; [reflexivity|]. auto.
  - destruct Hr as [-> Hr]. eexists _, e1, _. split; [reflexivity|]. split; auto. right. left. eauto.
  - rewrite Hr. eexists _, e1, _. split; [reflexivity|]. auto.
Qed.

(** While nobody is in the middle of releasing and without escalation, the answer
    is exact. *)
Theorem C10_granted_exactly : forall s h, reach s h -> ~ In Escalated h ->
  (forall y g, not_released h y g -> holds h y g) ->
  forall x g, legal kcmp s (Start x g None) ->
  exists s' a, step s (Start x g None) = Some (s', [a]) /\
    (a = Grant x g <-> forall y g', y <> x -> holds h y g' -> ~ conflict kcmp g g').
Proof.
  intros s h R Ne Hrel x g Lg.
  destruct (C10_request_answered s h R x g None Lg) as (s' & e1 & a & E & He & Ha).
  assert (K : e1 = [] /\ forall x g, a <> OutOfLocks x g).
  { cbn [LtSysModel.step] in E. unfold try_acquire in E.
    destruct (acquire_lock kcmp overhead (s_lt s) x g) as [[an l]|]; [|discriminate].
    destruct an; injection E as _ E;
    (match type of E with ?b :: _ = _ => change [b] with ([] ++ [b]) in E end);
    apply app_inj_tail in E; destruct E as [<- <-]; split; auto; discriminate. }
  destruct K as [-> Hno].
  exists s', a. split; auto. split.
  - intros ->. destruct Ha as [[_ Ha]|[(cs & Ha & _)|Ha]]; auto; discriminate.
  - intros Hn. destruct Ha as [[-> _]|[(cs & -> & Hc & Hx & _ & Hex)|Ha]]; auto.
    + exfalso. destruct cs as [|c cs]; [easy|]. destruct (Hex eq_refl Ne c) as (g' & Hg' & Hcf); [left; auto|].
      apply (Hn c g'); auto. intros ->. apply Hx. left; auto.
    + destruct (Hno _ _ Ha).
Qed.

(** With escalated locks too: a request is granted exactly when no point of it is
    locked by another transaction, where a point is locked by whoever the tree
    names to those who ask for it; no point is locked by two. *)
Theorem C10_granted_iff_no_point_locked : forall s h, reach s h ->
  forall x g, x <> 0 -> good_range kcmp g ->
  ((exists l, acquire_lock kcmp overhead (s_lt s) x g = Some (Granted, l)) <->
   (forall p y, good_key p = true -> in_range kcmp p (r_l g) (r_r g) -> locked s p y -> y = x)).
Proof. intros s h R x g. apply granted_iff with (max := max) (h := h); auto. Qed.

Theorem C10_point_locked_once : forall s h, reach s h ->
  forall p y y', good_key p = true -> locked s p y -> locked s p y' -> y = y'.
Proof. intros s h R p y y'. apply locked_unique with (max := max) (h := h); auto. Qed.

(** A retried request is granted or stays refused by the same rule. *)
Theorem C10_retry_answered : forall s h, reach s h ->
  forall x chk s' ev, legal kcmp s (Retry x chk) -> step s (Retry x chk) = Some (s', ev) ->
  exists g e1 a, waiting s x = Some g /\ ev = e1 ++ [a] /\ Forall (eq Escalated) e1 /\
    ((a = Grant x g /\ waiting s' x = None /\ forall y g', y <> x -> holds h y g' -> ~ conflict kcmp g g') \/
     (exists cs, a = Refuse x g cs /\ waiting s' x = Some g /\ cs <> [] /\ ~ In x cs /\
        (forall y g', y <> x -> holds h y g' -> conflict kcmp g g' -> In y cs))).
Proof.
  intros s h R x chk s' ev Lg E. destruct (reach_inv kcmp OK overhead max s h R) as (gs & I).
  cbn in Lg. cbn [LtSysModel.step] in E. unfold waiting. destruct (find_req x (s_pend s)) as [g|] eqn:Ef; [|easy].
  pose proof I as (_ & _ & B).
  destruct (b_pend _ _ _ B x g (find_req_in _ _ _ Ef)) as (Hl & G & V).
  destruct (b_live _ _ _ B _ Hl) as (_ & Hx & _).
  destruct (try_answer kcmp OK overhead max s h x g chk R Hx) as (r & s2 & ev2 & E2 & e1 & He & Hr);
    [apply range_good; auto|].
  destruct (try_acquire_ok kcmp OK overhead max s gs h x g chk I Hx G V) as
    (r2 & s3 & ev3 & s1 & e2 & gs1 & E3 & I1 & U & D & St & Hr2).
  rewrite E2 in E3. injection E3 as <- <- <-. destruct U as (_ & _ & _ & Up & _).
  assert (Sp : psorted (s_pend s1)) by (destruct I1 as (_ & _ & B1); apply B1).
  rewrite E2 in E. exists g, e1. destruct r as [|cs|].
  - destruct Hr2 as (l & _ & -> & _). cbn [set_lt s_pend] in E. rewrite Up in Sp. rewrite Up in E.
    destruct (remove_req_ok x (s_pend s) Sp) as (p & Ep & _ & Hf); [congruence|]. rewrite Ep in E.
    injection E as <- <-. destruct Hr as [-> Hr]. exists (Grant x g). split; auto. split; auto. split; auto. left.
    split; auto. split; auto. cbn. rewrite Hf, N.eqb_refl. auto.
  - destruct Hr2 as (l & _ & -> & _). destruct Hr as (-> & Hc & Hr1 & Hr2 & _).
    destruct cs as [|c cs]; [easy|]. cbn [is_nil negb] in E. injection E as <- <-.
    eexists. split; auto. split; [reflexivity|]. split; auto. right. exists (c :: cs). split; auto.
    split; [cbn; rewrite Up; auto|]. auto.
  - discriminate.
Qed.

(** ** C11 *)

(** A range once granted stays locked until its owner starts to release: whoever
    asks for an overlapping range is told the owner. *)
Theorem C11_granted_stays_locked : forall s h, reach s h ->
  forall x g, holds h x g ->
  forall z g', z <> x -> z <> 0 -> good_range kcmp g' -> conflict kcmp g' g -> told s z g' x.
Proof. intros s h R x g Hh z g' Hz Hz0 Hg Hc. eapply held_locked; eauto. Qed.

(** When the release is done the owner is in nobody's way. *)
Theorem C11_released_holds_nothing : forall s h, reach s h ->
  forall x, In (RelDone x) h -> forall z g, z <> 0 -> good_range kcmp g -> ~ told s z g x.
Proof. intros s h R x Hd z g Hz Hg. eapply released_nothing; eauto. Qed.

(** The steps of a release succeed and change nothing for the other owners. *)
Theorem C11_release_leaves_others : forall s h, reach s h ->
  forall x o, release_op x o -> legal kcmp s o ->
  exists s' ev, step s o = Some (s', ev) /\
    forall z g y, y <> x -> z <> 0 -> good_range kcmp g -> (told s' z g y <-> told s z g y).
Proof.
  intros s h R x o Ho Lg. destruct (reach_inv kcmp OK overhead max s h R) as (gs & I).
  destruct (step_ok kcmp OK overhead max s gs h o I Lg) as [[_ (x' & chk & g & s' & ev & -> & _)]|(s' & ev & _ & E & _)].
  - destruct Ho as [H|[H|H]]; discriminate.
  - exists s', ev. split; auto. intros z g y Hy Hz Hg. eapply release_others; eauto.
Qed.

(** ** C12 *)

(** Escalation succeeds; what was locked by a transaction stays locked by it; and
    a point that is locked afterwards lies between two points locked before by
    the same transaction, with nothing of another transaction between them. *)
Theorem C12_escalation : forall s h, reach s h ->
  exists s', step s Escalate = Some (s', [Escalated]) /\
  (forall z g y, z <> 0 -> good_range kcmp g -> told s z g y -> told s' z g y) /\
  (forall p y, good_key p = true -> locked s' p y ->
   exists p1 p2, good_key p1 = true /\ good_key p2 = true /\ ep_le kcmp p1 p /\ ep_le kcmp p p2 /\
     locked s p1 y /\ locked s p2 y /\
     forall q y', good_key q = true -> in_range kcmp q p1 p2 -> locked s q y' -> y' = y).
Proof.
  intros s h R. destruct (reach_inv kcmp OK overhead max s h R) as (gs & I).
  destruct (escalate_inv kcmp OK overhead s gs h I) as (s' & E & _).
  assert (E' : step s Escalate = Some (s', [Escalated])) by (cbn [LtSysModel.step]; rewrite E; reflexivity).
  exists s'. split; auto. eapply escalation; eauto.
Qed.

(** No two transactions lock a common point after escalation. *)
Theorem C12_escalation_exclusive : forall s h, reach s h ->
  forall s' ev, step s Escalate = Some (s', ev) ->
  forall p y y', good_key p = true -> locked s' p y -> locked s' p y' -> y = y'.
Proof.
  intros s h R s' ev E p y y'. apply locked_unique with (max := max) (h := h ++ ev); auto.
  econstructor; eauto. exact Logic.I.
Qed.

(** ** C13 *)

(** When a refused request is put among the waiting ones, it is reported as a
    deadlock exactly when one of the transactions it was told about waits,
    directly or through others, for the requester; and then there is a cycle
    through the requester. *)
Theorem C13_deadlock_reported : forall s h, reach s h ->
  forall x g cs, s_req s x = RBlocked g cs ->
  exists s' ev, step s (Enqueue x) = Some (s', ev) /\
    (ev = [Deadlock x g] <-> exists c, In c cs /\ waiting s c <> None /\
       clos_trans _ (waits_for s (with_req s x g)) c x) /\
    (ev <> [Deadlock x g] -> ev = [] /\ waiting s' x = Some g) /\
    (ev = [Deadlock x g] -> clos_trans _ (waits_for s (with_req s x g)) x x /\ waiting s' x = None).
Proof.
  intros s h R x g cs Hq. destruct (reach_inv kcmp OK overhead max s h R) as (gs & I).
  destruct (step_ok kcmp OK overhead max s gs h (Enqueue x) I) as [[_ (x' & chk & g' & s' & ev & Q & _)]|(s' & ev & _ & E & _)].
  { cbn. eauto. } { discriminate. }
  exists s', ev. split; auto. eapply enqueue_cases; eauto.
Qed.

(** If the two halves of a request are not interrupted and no locks are escalated,
    no cycle of waiting transactions ever exists: none is missed.
    (partial: see the refutations below for what happens otherwise.) *)
Theorem C13_no_cycle_partial : forall s h, calm kcmp overhead max s h ->
  forall y, ~ clos_trans _ (waits_for s (waiting s)) y y.
Proof. intros s h C. eapply calm_no_cycle; eauto. Qed.

(** ** C39 *)

(** Every legal step of a reachable state succeeds, except a retry that runs out
    of lock memory. *)
Theorem C39_never_stuck_partial : forall s h, reach s h ->
  forall o, legal kcmp s o -> retry_ok kcmp overhead max s o -> step s o <> None.
Proof.
  intros s h R o Lg Ro. destruct (reach_inv kcmp OK overhead max s h R) as (gs & I).
  destruct (step_ok kcmp OK overhead max s gs h o I Lg) as [[_ (x' & chk & g' & s' & ev & -> & Hf & E)]|(s' & ev & _ & E & _)].
  - exfalso. cbn in Ro. eapply Ro; eauto.
  - rewrite E. discriminate.
Qed.

(** ** C40 *)

(** Once every transaction that has begun has released its locks, no lock memory
    is accounted for and every request is granted. *)
Theorem C40_memory_returns_to_zero : forall s h, reach s h ->
  (forall x, 0 < x -> x <= s_last s -> In (RelDone x) h) ->
  lt_mem (s_lt s) = 0 /\
  forall x g, x <> 0 -> good_range kcmp g -> exists l, acquire_lock kcmp overhead (s_lt s) x g = Some (Granted, l).
Proof.
  intros s h R Hd. destruct (reach_inv kcmp OK overhead max s h R) as (gs & I). pose proof I as (J & C & B).
  assert (HL : locks (s_lt s) gs = []).
  { destruct (locks (s_lt s) gs) as [|[q y] L] eqn:E; auto. exfalso.
    assert (Hk : In (q, y) (locks (s_lt s) gs)) by (rewrite E; left; auto). rewrite <- E in C.
    destruct (c_ids _ _ _ _ C _ _ Hk) as [H1 H2]. destruct (c_own _ _ _ _ C _ _ Hk) as (r & Hr & _).
    assert (Hrel : s_rel s y = Released) by (apply (b_done _ _ _ B); apply Hd; [lia|auto]).
    unfold rem in Hr. rewrite Hrel in Hr. auto. }
  assert (Hm : s_maps s = []).
  { destruct (s_maps s) as [|[y b] m] eqn:E; auto. exfalso.
    destruct (b_bufs _ _ _ B y b) as (_ & H1 & H2); [rewrite E; left; auto|].
    assert (Hrel : s_rel s y = Released) by (apply (b_done _ _ _ B); apply Hd; [lia|auto]).
    pose proof (b_released _ _ _ B _ Hrel) as Q. rewrite E in Q. cbn in Q. rewrite N.eqb_refl in Q. discriminate. }
  unfold locks in HL. apply app_eq_nil in HL. destruct HL as [He Ht].
  assert (Hgs : gs = []).
  { destruct gs as [|q gs]; auto. destruct (N.eq_dec (lt_sto (s_lt s)) TXNID_NONE) as [Q|Q].
    - apply (li_none _ _ _ _ _ J Q). - discriminate. }
  split.
  - rewrite (li_mem _ _ _ _ _ J), He, Hm. cbn. subst gs.
    assert (rb_is_empty (lt_buf (s_lt s)) = true) as Eb by (eapply rep_nil_iff; [apply J|auto]).
    unfold rb_is_empty in Eb. apply N.eqb_eq in Eb. rewrite Eb. reflexivity.
  - intros x g Hx Hg. destruct (answer kcmp OK overhead s gs h x g I Hx Hg) as (an & l & E & A).
    destruct an as [|cs]; [eauto|]. destruct A as [Hc A]. destruct cs as [|c cs]; [easy|]. exfalso.
    destruct (proj1 (A c)) as (_ & q & Hq & _); [left; auto|]. unfold locks in Hq. rewrite He, Ht in Hq. destruct Hq.
Qed.

End Claims.

Print Assumptions C10_locks_exclusive.
Print Assumptions C10_request_answered.
Print Assumptions C10_granted_exactly.
Print Assumptions C10_granted_iff_no_point_locked.
Print Assumptions C10_point_locked_once.
Print Assumptions C10_retry_answered.
Print Assumptions C11_granted_stays_locked.
Print Assumptions C11_released_holds_nothing.
Print Assumptions C11_release_leaves_others.
Print Assumptions C12_escalation.
Print Assumptions C12_escalation_exclusive.
Print Assumptions C13_deadlock_reported.
Print Assumptions C13_no_cycle_partial.
Print Assumptions C39_never_stuck_partial.
Print Assumptions C40_memory_returns_to_zero.

(** ** Cases *)

Definition S1 := state_of 96 1000000 run1.
Definition H1 := history_of 96 1000000 run1.
Lemma reach1 : reach key_cmp 96 1000000 S1 H1.
Proof. apply state_reach. vm_compute. reflexivity. Qed.

(** T1 holds [1,5], T2 holds 20 and T3 holds 40; the hypotheses of C10 and C11 are
    met, and T2's request for 3 conflicts with [1,5]. *)
Example C10_C11_case : reach key_cmp 96 1000000 S1 H1 /\ ~ In Escalated H1 /\
  holds H1 1 (rg 1 5) /\ holds H1 2 (pt 20) /\ (forall y g, not_released H1 y g -> holds H1 y g) /\
  conflict key_cmp (pt 3) (rg 1 5) /\ legal key_cmp S1 (Start 3 (rg 4 30) None) /\
  waiting S1 2 = Some (pt 3).
Proof.
  split; [exact reach1|].
  assert (NR : forall e, In e H1 -> match e with RelStart _ | RelDone _ | Escalated => False | _ => True end).
  { intros e He. vm_compute in He. repeat (destruct He as [<-|He]; [exact Logic.I|]). destruct He. }
  split; [intros Q; apply (NR _ Q)|].
  assert (Hd : forall y g, In (Grant y g) H1 -> holds H1 y g).
  { intros y g Hi. apply in_split in Hi. destruct Hi as (l1 & l2 & E). exists l1, l2. split; auto.
    intros Q. assert (Q' : In (RelStart y) H1) by (rewrite E; apply in_or_app; right; right; auto). apply (NR _ Q'). }
  split; [apply Hd; vm_compute; auto|]. split; [apply Hd; vm_compute; auto|].
  split; [intros y g (l1 & l2 & E & _); apply Hd; rewrite E; apply in_or_app; right; left; auto|].
  split; [exists (k 3); unfold in_range; cbn; split; split; discriminate|].
  split; [apply legalb_ok; vm_compute; reflexivity|]. vm_compute. reflexivity.
Qed.

(** The same run, continued: T1 ends and releases. *)
Definition run2 : list op := run1 ++ [End 1; Rel 1; RelNext 1; RelNext 1; RelFin 1].
Example C11_release_case : reach key_cmp 96 1000000 (state_of 96 1000000 run2) (history_of 96 1000000 run2) /\
  In (RelDone 1) (history_of 96 1000000 run2) /\ legal key_cmp (state_of 96 1000000 (run1 ++ [End 1])) (Rel 1).
Proof.
  split; [apply state_reach; vm_compute; reflexivity|]. split; [vm_compute; tauto|].
  apply legalb_ok. vm_compute. reflexivity.
Qed.

(** T1 locks 1 and 5, which escalation joins; 3 becomes locked by T1. *)
Definition run3 : list op :=
  [Begin; Begin; Start 1 (pt 1) None; Note 1; Start 2 (pt 9) None; Note 2; Start 1 (pt 5) None; Note 1].
Example C12_case : reach key_cmp 96 1000000 (state_of 96 1000000 run3) (history_of 96 1000000 run3) /\
  exists s', step key_cmp 96 1000000 (state_of 96 1000000 run3) Escalate = Some (s', [Escalated]) /\
    told key_cmp 96 s' 2 (pt 3) 1 /\ ~ told key_cmp 96 (state_of 96 1000000 run3) 2 (pt 3) 1.
Proof.
  split; [apply state_reach; vm_compute; reflexivity|].
  exists (state_of 96 1000000 (run3 ++ [Escalate])).
  split; [vm_compute; reflexivity|]. split.
  - exists [1]. eexists. split; [vm_compute; reflexivity|left; reflexivity].
  - intros (cs & l & E & _). vm_compute in E. discriminate.
Qed.

(** T1 has 1, T2 has 2, T3 has 3; T1 waits for 2, T2 waits for 3, T3 asks for 1. *)
Definition run4 : list op :=
  [Begin; Begin; Begin; Start 1 (pt 1) None; Note 1; Start 2 (pt 2) None; Note 2; Start 3 (pt 3) None; Note 3;
   Start 1 (pt 2) None; Enqueue 1; Start 2 (pt 3) None; Enqueue 2; Start 3 (pt 1) None].
Example C13_case : reach key_cmp 96 1000000 (state_of 96 1000000 run4) (history_of 96 1000000 run4) /\
  s_req (state_of 96 1000000 run4) 3 = RBlocked (pt 1) [1] /\
  exists s', step key_cmp 96 1000000 (state_of 96 1000000 run4) (Enqueue 3) = Some (s', [Deadlock 3 (pt 1)]).
Proof.
  split; [apply state_reach; vm_compute; reflexivity|]. split; [vm_compute; reflexivity|].
  eexists. vm_compute. reflexivity.
Qed.

(** A boolean check that a run is calm; true marks a refused request that is
    queued at once. *)
Fixpoint calm_run (s : sys) (h : list event) (os : list (op * bool)) : option (sys * list event) :=
  match os with
  | [] => Some (s, h)
  | (o, false) :: os' =>
    guard legalb s o;
    do (s1, e) <- step key_cmp 96 1000000 s o;
    guard negb (existsb (fun e => match e with Escalated | Refuse _ _ _ => true | _ => false end) e);
    guard (match o with Enqueue _ => false | _ => true end);
    calm_run s1 (h ++ e) os'
  | (o, true) :: os' =>
    do (x, g, chk) <- (match o with Start x g chk => Some (x, g, chk) | _ => None end);
    guard legalb s (Start x g chk);
    do (s1, e) <- step key_cmp 96 1000000 s (Start x g chk);
    guard negb (existsb (fun e => match e with Escalated => true | _ => false end) e);
    guard existsb (fun e => match e with Refuse z _ _ => z =? x | _ => false end) e;
    do (s2, e2) <- step key_cmp 96 1000000 s1 (Enqueue x);
    calm_run s2 (h ++ e ++ e2) os'
  end.
Lemma calm_run_ok os : forall s h s' h', calm key_cmp 96 1000000 s h -> calm_run s h os = Some (s', h') ->
  calm key_cmp 96 1000000 s' h'.
Proof.
  induction os as [|[o [|]] os IH]; intros s h s' h' C E; cbn [calm_run] in E; try discriminate.
  - injection E as <- <-. auto.
  - destruct o; try discriminate.
    destruct (legalb s (Start x g chk)) eqn:El; [|discriminate].
    destruct (step key_cmp 96 1000000 s (Start x g chk)) as [[s1 e]|] eqn:Es; [|discriminate].
    destruct (existsb (fun e => match e with Escalated => true | _ => false end) e) eqn:Ex; [discriminate|]. cbn [negb] in E.
    destruct (existsb _ e) eqn:Er in E; [|discriminate].
    destruct (step key_cmp 96 1000000 s1 (Enqueue x)) as [[s2 e2]|] eqn:Es2; [|discriminate].
    eapply IH; [|exact E]. eapply calm_refused; eauto using legalb_ok.
    + apply existsb_exists in Er. destruct Er as (a & Ha & Hb). destruct a; try discriminate.
      apply N.eqb_eq in Hb. subst. exists g0, conflicts. auto.
    + intros Q. assert (existsb (fun e => match e with Escalated => true | _ => false end) e = true).
      { apply existsb_exists. eexists. split; eauto. } congruence.
  - destruct (legalb s o) eqn:El; [|discriminate]. destruct (step key_cmp 96 1000000 s o) as [[s1 e]|] eqn:Es; [|discriminate].
    destruct (existsb _ e) eqn:Ex; [discriminate|]. cbn [negb] in E.
    assert (No : forall x, o <> Enqueue x) by (intros x ->; discriminate).
    assert (E' : calm_run s1 (h ++ e) os = Some (s', h')) by (destruct o; auto; discriminate).
    assert (Nx : forall a, In a e -> match a with Escalated | Refuse _ _ _ => False | _ => True end).
    { intros a Ha. assert (existsb (fun e => match e with Escalated | Refuse _ _ _ => true | _ => false end) e = true -> False) by congruence.
      destruct a; auto; apply H; apply existsb_exists; eexists; split; eauto; reflexivity. }
    eapply IH; [|exact E']. eapply calm_step; eauto using legalb_ok.
    + intros Q. apply (Nx _ Q).
    + intros x g chk _ (g' & cs & Q). apply (Nx _ Q).
Qed.

(** A calm run with two waiting transactions and one deadlock. *)
Definition run5 : list (op * bool) :=
  map (fun o => (o, false)) [Begin; Begin; Begin; Start 1 (pt 1) None; Note 1; Start 2 (pt 2) None; Note 2;
    Start 3 (pt 3) None; Note 3] ++
  map (fun o => (o, true)) [Start 1 (pt 2) None; Start 2 (pt 3) None; Start 3 (pt 1) None].
Example C13_calm_case : exists s h, calm key_cmp 96 1000000 s h /\ In (Deadlock 3 (pt 1)) h /\
  waiting s 1 = Some (pt 2) /\ waiting s 2 = Some (pt 3).
Proof.
  set (r := match calm_run sys_init [] run5 with Some r => r | None => (sys_init, []) end).
  exists (fst r), (snd r). split.
  - apply (calm_run_ok run5 sys_init []); [constructor|]. unfold r. vm_compute. reflexivity.
  - split; [vm_compute; tauto|]. split; vm_compute; reflexivity.
Qed.

(** ** What fails *)

(** C13, completeness: if the transaction that a request was told about releases
    its locks before the request is among the waiting ones, a cycle can arise that
    no check sees.  T2 is refused 1, which T1 holds; T1 ends and releases; T3
    locks 1 and asks for 2, which T2 holds; both wait for each other, no deadlock
    is reported, and retrying does not help. *)
Definition run_race : list op :=
  [Begin; Begin; Begin; Start 1 (pt 1) None; Note 1; Start 2 (pt 2) None; Note 2; Start 2 (pt 1) None;
   End 1; Rel 1; RelNext 1; RelFin 1; Start 3 (pt 1) None; Note 3; Start 3 (pt 2) None; Enqueue 3; Enqueue 2;
   Retry 2 None; Retry 3 None].

Lemma two_cycle overhead s a b : waits_for key_cmp overhead s (waiting s) a b ->
  waits_for key_cmp overhead s (waiting s) b a -> clos_trans _ (waits_for key_cmp overhead s (waiting s)) a a.
Proof. intros H H'. eapply t_trans; apply t_step; eauto. Qed.

Ltac waits_now g := split; [vm_compute; discriminate|]; exists g; split; [vm_compute; reflexivity|];
  eexists _, _; split; [vm_compute; reflexivity|left; reflexivity].

Theorem C13_missed_deadlock_refuted : exists s h, reach key_cmp 96 1000000 s h /\
  ~ In Escalated h /\ (forall x g, ~ In (Deadlock x g) h) /\
  exists y, clos_trans _ (waits_for key_cmp 96 s (waiting s)) y y.
Proof.
  exists (state_of 96 1000000 run_race), (history_of 96 1000000 run_race).
  split; [apply state_reach; vm_compute; reflexivity|].
  split; [intros Q; vm_compute in Q; repeat (destruct Q as [Q|Q]; [discriminate|]); destruct Q|].
  split; [intros x g Q; vm_compute in Q; repeat (destruct Q as [Q|Q]; [discriminate|]); destruct Q|].
  exists 2. eapply two_cycle with (b := 3); [waits_now (pt 1)|waits_now (pt 2)].
Qed.
Print Assumptions C13_missed_deadlock_refuted.

(** C13, completeness: escalation can create a cycle.  T3 waits for 3, which T2
    held between T1's locks 1 and 5; after T2's release, and before T3 is woken,
    escalation joins T1's locks; T1 waits for T3. *)
Definition run_esc : list op :=
  [Begin; Begin; Begin; Start 1 (pt 1) None; Note 1; Start 2 (pt 3) None; Note 2; Start 1 (pt 5) None; Note 1;
   Start 3 (pt 20) None; Note 3; Start 3 (pt 3) None; Enqueue 3; Start 1 (pt 20) None; Enqueue 1;
   End 2; Rel 2; RelNext 2; RelFin 2; Escalate; Retry 1 None; Retry 3 None].
Theorem C13_escalation_deadlock_refuted : exists s h, reach key_cmp 96 1000000 s h /\
  (forall x g, ~ In (Deadlock x g) h) /\
  exists y, clos_trans _ (waits_for key_cmp 96 s (waiting s)) y y.
Proof.
  exists (state_of 96 1000000 run_esc), (history_of 96 1000000 run_esc).
  split; [apply state_reach; vm_compute; reflexivity|].
  split; [intros x g Q; vm_compute in Q; repeat (destruct Q as [Q|Q]; [discriminate|]); destruct Q|].
  exists 1. eapply two_cycle with (b := 3); [waits_now (pt 20)|waits_now (pt 3)].
Qed.
Print Assumptions C13_escalation_deadlock_refuted.

(** C39: a waiting request that is retried when the lock memory is used up stops
    the process. *)
Definition run_mem : list op :=
  [Begin; Begin; Begin; Start 1 (pt 1) (Some false); Note 1; Start 2 (pt 1) (Some false); Enqueue 2;
   Start 3 (pt 3) (Some false); Note 3; Start 1 (pt 7) (Some false); Note 1].
Theorem C39_retry_out_of_memory_refuted : exists s h o, reach key_cmp 96 300 s h /\
  legal key_cmp s o /\ step key_cmp 96 300 s o = None.
Proof.
  exists (state_of 96 300 run_mem), (history_of 96 300 run_mem), (Retry 2 (Some false)).
  split; [apply state_reach; vm_compute; reflexivity|].
  split; [apply legalb_ok; vm_compute; reflexivity|]. vm_compute. reflexivity.
Qed.
Print Assumptions C39_retry_out_of_memory_refuted.
Example C39_case : retry_ok key_cmp 96 1000000 S1 (Retry 2 (Some true)) /\ legal key_cmp S1 (Retry 2 (Some true)).
Proof.
  split; [|apply legalb_ok; vm_compute; reflexivity].
  cbn [retry_ok]. intros g E. vm_compute in E. injection E as <-. intros s' ev E. vm_compute in E. discriminate.
Qed.

(** C40: everybody has released. *)
Definition run6 : list op :=
  [Begin; Begin; Start 1 (pt 1) None; Note 1; Start 2 (pt 9) None; Note 2; Start 1 (pt 5) None; Note 1;
   End 1; Rel 1; RelNext 1; End 2; Rel 2; RelNext 2; RelNext 1; RelFin 1; RelFin 2].
Example C40_case : reach key_cmp 96 1000000 (state_of 96 1000000 run6) (history_of 96 1000000 run6) /\
  (forall x, 0 < x -> x <= s_last (state_of 96 1000000 run6) -> In (RelDone x) (history_of 96 1000000 run6)) /\
  In (Grant 1 (pt 5)) (history_of 96 1000000 run6).
Proof.
  split; [apply state_reach; vm_compute; reflexivity|]. split; [|vm_compute; tauto].
  intros x H0 H1'. change (s_last (state_of 96 1000000 run6)) with 2 in H1'.
  assert (x = 1 \/ x = 2) as [->| ->] by lia; vm_compute; tauto.
Qed.
