(** Proofs about the rollback logs. *)
From Coq Require Import FinFun.
From Verif Require Import Base Bytes LogModel RbModel RbSpec.
Open Scope N_scope.

(** * What the nodes of a log represent *)

(** [ents h es l fp]: the entries [es] of a node (newest first) stand for the undo entries
    [l] (oldest first) and include the nodes [fp].  [chain h x hd b n l fp]: [b] is the last
    of a chain of [n] nodes of transaction [x] whose first is [hd]. *)
Inductive ents (h : rheap) : list rentry -> list rentry -> list N -> Prop :=
| ents_nil : ents h [] [] []
| ents_op cmd vs es l fp : ents h es l fp -> ents h (ROp cmd vs :: es) (l ++ [ROp cmd vs]) fp
| ents_incl x n hd tl es l fp l2 fp2 :
    ents h es l fp -> chain h x hd tl n l2 fp2 -> n <> 0 ->
    ents h (RIncl x n hd tl :: es) (l ++ l2) (fp2 ++ fp)
with chain (h : rheap) : N * N -> N -> N -> N -> list rentry -> list N -> Prop :=
| chain_nil x hd : chain h x hd 0 0 [] []
| chain_cons x hd b n nd l1 fp1 l2 fp2 :
    b <> 0 -> h b = Some nd -> n_xid nd = x -> n_seq nd = n -> (n = 0 -> b = hd) ->
    chain h x hd (n_prev nd) n l1 fp1 -> ents h (n_ents nd) l2 fp2 ->
    chain h x hd b (n + 1) (l1 ++ l2) (b :: fp2 ++ fp1).
Scheme ents_ind2 := Induction for ents Sort Prop
  with chain_ind2 := Induction for chain Sort Prop.
Combined Scheme ents_chain_ind from ents_ind2, chain_ind2.

Definition agree (fp : list N) (h h' : rheap) : Prop := forall b, In b fp -> h' b = h b.
Lemma agree_app a b h h' : agree (a ++ b) h h' <-> agree a h h' /\ agree b h h'.
Proof.
  unfold agree. split.
  - intros H. split; intros x I; apply H; apply in_app_iff; auto.
  - intros [A B] x I. apply in_app_iff in I as [I|I]; auto.
Qed.
Lemma agree_cons a b h h' : agree (a :: b) h h' <-> h' a = h a /\ agree b h h'.
Proof.
  unfold agree. split.
  - intros H. split; [apply H; cbn; auto|]. intros x I; apply H; cbn; auto.
  - intros [A B] x [<-|I]; auto.
Qed.

Lemma frame h :
  (forall es l fp, ents h es l fp -> forall h', agree fp h h' -> ents h' es l fp) /\
  (forall x hd b n l fp, chain h x hd b n l fp -> forall h', agree fp h h' -> chain h' x hd b n l fp).
Proof.
  apply (ents_chain_ind h (fun es l fp _ => forall h', agree fp h h' -> ents h' es l fp)
           (fun x hd b n l fp _ => forall h', agree fp h h' -> chain h' x hd b n l fp)).
  - intros; constructor.
  - intros. constructor; auto.
  - intros. apply agree_app in H1 as [A B]. constructor; auto.
  - intros; constructor.
  - intros x hd b n nd l1 fp1 l2 fp2 B H X S HD C IC E IE h' AG.
    apply agree_cons in AG as [AB AG]. apply agree_app in AG as [A1 A2].
    apply (chain_cons h' x hd b n nd); auto. now rewrite AB.
Qed.
Lemma ents_frame h h' es l fp : ents h es l fp -> agree fp h h' -> ents h' es l fp.
Proof. intros H A. eapply (proj1 (frame h)); eauto. Qed.
Lemma chain_frame h h' x hd b n l fp : chain h x hd b n l fp -> agree fp h h' -> chain h' x hd b n l fp.
Proof. intros H A. eapply (proj2 (frame h)); eauto. Qed.

Lemma in_heap h :
  (forall es l fp, ents h es l fp -> Forall (fun b => h b <> None) fp) /\
  (forall x hd b n l fp, chain h x hd b n l fp -> Forall (fun b => h b <> None) fp).
Proof.
  apply (ents_chain_ind h (fun es l fp _ => Forall (fun b => h b <> None) fp)
           (fun x hd b n l fp _ => Forall (fun b => h b <> None) fp)); intros; auto.
  - apply Forall_app; auto.
  - constructor; [congruence|]. apply Forall_app; auto.
Qed.

Lemma chain_len h x hd b n l fp : chain h x hd b n l fp -> n <= N.of_nat (length fp).
Proof.
  induction 1; cbn; [lia|]. rewrite app_length. lia.
Qed.
Lemma chain_0 h x hd b l fp : chain h x hd b 0 l fp -> b = 0 /\ l = [] /\ fp = [].
Proof. intros C. inversion C; subst; auto. lia. Qed.
Lemma chain_0' h x hd b n l fp : chain h x hd b n l fp -> n = 0 -> b = 0 /\ l = [] /\ fp = [].
Proof. intros C ->. eapply chain_0; eauto. Qed.
Lemma chain_b0 h x hd b n l fp : chain h x hd b n l fp -> (b = 0 <-> n = 0).
Proof. destruct 1; lia. Qed.
Lemma chain_head h x hd b n l fp : chain h x hd b n l fp -> n <> 0 -> In hd fp.
Proof.
  induction 1; [lia|]. intros _. destruct (N.eq_dec n 0) as [Z|NZ].
  - left. auto.
  - right. apply in_app_iff. right. auto.
Qed.
Lemma chain_any_head h x hd hd' b l fp : chain h x hd b 0 l fp -> chain h x hd' b 0 l fp.
Proof. intros C. apply chain_0 in C as (-> & -> & ->). constructor. Qed.

Lemma pigeon (l : list N) (m : N) : NoDup l -> Forall (fun b => b < m) l -> N.of_nat (length l) <= m.
Proof.
  intros ND F.
  assert (L : (length (map N.to_nat l) <= length (seq 0 (N.to_nat m)))%nat).
  { apply NoDup_incl_length.
    - apply FinFun.Injective_map_NoDup; [|exact ND]. intros a b. apply N2Nat.inj.
    - intros x I. apply in_map_iff in I as (b & <- & I). rewrite Forall_forall in F. specialize (F b I).
      apply in_seq. lia. }
  rewrite map_length, seq_length in L. lia.
Qed.

Lemma NoDup_app' {A} (a b : list A) : NoDup (a ++ b) <-> NoDup a /\ NoDup b /\ (forall x, In x a -> ~ In x b).
Proof.
  induction a as [|x a IH]; cbn.
  - split; [intros H; repeat split; auto; constructor|tauto].
  - split.
    + intros H. inversion H as [|? ? N H']; subst. apply IH in H' as (A1 & B & D).
      split; [constructor; auto; intros I; apply N, in_app_iff; auto|]. split; [exact B|].
      intros y [<-|I]; [intros J; apply N, in_app_iff; auto|auto].
    + intros (H & B & D). inversion H as [|? ? N H']; subst. constructor.
      * intros I. apply in_app_iff in I as [I|I]; [auto|]. apply (D x); auto.
      * apply IH. repeat split; auto.
Qed.

(** * Running the loops *)

Definition inb (b : N) (l : list N) : bool := existsb (N.eqb b) l.
Lemma inb_in b l : inb b l = true <-> In b l.
Proof.
  unfold inb. rewrite existsb_exists. split.
  - intros (x & I & E). apply N.eqb_eq in E. now subst.
  - intros I. exists b. split; [exact I|apply N.eqb_refl].
Qed.
Lemma inb_app b l l' : inb b (l ++ l') = inb b l || inb b l'.
Proof. apply existsb_app. Qed.
Lemma inb_false b l : inb b l = false <-> ~ In b l.
Proof. rewrite <- inb_in. destruct (inb b l); split; congruence. Qed.
Definition minus (h : rheap) (fp : list N) : rheap := fun b => if inb b fp then None else h b.
Definition heq (h h' : rheap) : Prop := forall b, h b = h' b.

Lemma pred64_succ n : n < 2 ^ 64 -> pred64 (n + 1) = n.
Proof.
  intros H. unfold pred64. replace (n + 1 + 2 ^ 64 - 1) with (n + 1 * 2 ^ 64) by lia.
  rewrite N.mod_add by discriminate. now apply N.mod_small.
Qed.
Lemma pair_eqb_refl x : pair_eqb x x = true.
Proof. unfold pair_eqb. now rewrite !N.eqb_refl. Qed.

Definition small (fp : list N) : Prop := Forall (fun b => b < 2 ^ 63) fp.

Lemma run h :
  (forall es l fp, ents h es l fp -> NoDup fp -> small fp -> exists f0, forall f, (f0 <= f)%nat ->
     forall h', agree fp h h' -> exists h'', items (apply_incl f) h' es = Done (h'', rev l) /\ heq h'' (minus h' fp)) /\
  (forall x hd b n l fp, chain h x hd b n l fp -> NoDup fp -> small fp -> exists f0, forall f, (f0 <= f)%nat ->
     forall h' found, agree fp h h' -> (n <> 0 -> found = false) ->
     exists h'', incl_loop f h' x hd b n found = Done (h'', rev l) /\ heq h'' (minus h' fp)).
Proof.
  apply (ents_chain_ind h
    (fun es l fp _ => NoDup fp -> small fp -> exists f0, forall f, (f0 <= f)%nat ->
       forall h', agree fp h h' -> exists h'', items (apply_incl f) h' es = Done (h'', rev l) /\ heq h'' (minus h' fp))
    (fun x hd b n l fp _ => NoDup fp -> small fp -> exists f0, forall f, (f0 <= f)%nat ->
       forall h' found, agree fp h h' -> (n <> 0 -> found = false) ->
       exists h'', incl_loop f h' x hd b n found = Done (h'', rev l) /\ heq h'' (minus h' fp))).
  - intros _ _. exists 0%nat. intros f _ h' _. exists h'. split; [reflexivity|]. intros b. reflexivity.
  - intros cmd vs es l fp E IH ND SM. destruct (IH ND SM) as [f0 F]. exists f0. intros f LE h' AG.
    destruct (F f LE h' AG) as (h'' & R & HE). exists h''. cbn [items]. rewrite R. cbn [abind].
    rewrite rev_app_distr. split; [reflexivity|exact HE].
  - intros x n hd tl es l fp l2 fp2 E IE C IC NZ ND SM.
    apply NoDup_app' in ND as (N2 & N1 & DJ). apply Forall_app in SM as [S2 S1].
    destruct (IE N1 S1) as [f1 F1]. destruct (IC N2 S2) as [f2 F2]. exists (Nat.max f1 f2). intros f LE h' AG.
    apply agree_app in AG as [A2 A1].
    destruct (F2 f ltac:(lia) h' false A2 (fun _ => eq_refl)) as (h1 & R1 & HE1).
    assert (A1' : agree fp h h1).
    { intros b I. rewrite HE1. unfold minus. destruct (inb b fp2) eqn:B; [|apply A1; exact I].
      apply inb_in in B. exfalso. eapply DJ; eauto. }
    destruct (F1 f ltac:(lia) h1 A1') as (h2 & R2 & HE2).
    exists h2. cbn [items]. unfold apply_incl at 1.
    destruct (N.eqb_spec tl ROLLBACK_NONE) as [Z|_]; [apply (chain_b0 _ _ _ _ _ _ _ C) in Z; contradiction|].
    rewrite R1. cbn [abind]. rewrite R2. cbn [abind]. rewrite rev_app_distr. split; [reflexivity|].
    intros b. rewrite HE2. unfold minus. rewrite HE1, inb_app. unfold minus.
    destruct (inb b fp), (inb b fp2); reflexivity.
  - intros x hd _ _. exists 1%nat. intros f LE h' found _ _. destruct f; [lia|]. exists h'. split; [reflexivity|].
    intros b. reflexivity.
  - intros x hd b n nd l1 fp1 l2 fp2 B HB X SQ HD C IC E IE ND SM.
    inversion ND as [|? ? NB ND']; subst. apply NoDup_app' in ND' as (N2 & N1 & DJ).
    inversion SM as [|? ? SB SM']; subst. apply Forall_app in SM' as [S2 S1].
    destruct (IC N1 S1) as [f1 F1]. destruct (IE N2 S2) as [f2 F2].
    exists (S (S (Nat.max f1 f2))). intros f LE h' found AG FO. destruct f as [|f]; [lia|].
    apply agree_cons in AG as [AB AG]. apply agree_app in AG as [A2 A1].
    destruct (F2 f ltac:(lia) h' A2) as (h1 & R1 & HE1).
    assert (FF : found = false) by (apply FO; lia). subst found.
    assert (NL : n_seq nd < 2 ^ 64).
    { pose proof (chain_len _ _ _ _ _ _ _ C). pose proof (pigeon fp1 (2 ^ 63) N1 S1). lia. }
    cbn [incl_loop]. destruct (N.eqb_spec b ROLLBACK_NONE) as [Z|_]; [contradiction|].
    rewrite AB, HB. unfold verify. rewrite pred64_succ by exact NL. rewrite pair_eqb_refl, N.eqb_refl. cbn [andb].
    change (fun (h'0 : rheap) (x' : N * N) (n' hd' tl' : N) =>
       if tl' =? ROLLBACK_NONE then Fail else incl_loop f h'0 x' hd' tl' n' false) with (apply_incl f).
    rewrite R1. cbn [abind].
    assert (A1' : agree fp1 h (hdel h1 b)).
    { intros y I. unfold hdel. destruct (N.eqb_spec y b) as [->|NE].
      - exfalso. apply NB, in_app_iff. auto.
      - rewrite HE1. unfold minus. destruct (inb y fp2) eqn:Y; [|apply A1; exact I].
        apply inb_in in Y. exfalso. eapply DJ; eauto. }
    destruct (N.eq_dec (n_seq nd) 0) as [Z|NZ].
    + specialize (HD Z). subst hd. rewrite N.eqb_refl, Z. cbn [andb orb negb N.eqb].
      pose proof (chain_0' _ _ _ _ _ _ _ C Z) as (P0 & -> & ->). rewrite P0. cbn [N.eqb negb ROLLBACK_NONE].
      destruct f as [|f]; [lia|]. cbn [incl_loop N.eqb ROLLBACK_NONE abind].
      exists (hdel h1 b). rewrite !app_nil_r, !app_nil_l. split; [reflexivity|].
      intros y. unfold hdel, minus. cbn [inb existsb]. rewrite HE1. unfold minus, inb.
      destruct (N.eqb_spec y b); [reflexivity|]. cbn [orb]. reflexivity.
    + assert (NH : b <> hd).
      { intros ->. apply NB, in_app_iff. right. eapply chain_head; eauto. }
      destruct (N.eqb_spec b hd) as [|_]; [contradiction|]. cbn [andb orb].
      destruct (F1 f ltac:(lia) (hdel h1 b) false A1' (fun _ => eq_refl)) as (h2 & R2 & HE2).
      rewrite R2. cbn [abind]. exists h2. rewrite rev_app_distr. split; [reflexivity|].
      intros y. rewrite HE2. unfold minus, hdel. cbn [inb existsb]. rewrite existsb_app. fold (inb y fp1) (inb y fp2).
      rewrite HE1. unfold minus.
      destruct (inb y fp1), (N.eqb_spec y b), (inb y fp2); reflexivity.
Qed.

(** What one transaction's roll_info stands for. *)
Definition cur_ok (h : rheap) (t : rtxn) (ns : N) (lc : list rentry) (fpc : list N) : Prop :=
  if has_current t then
    exists nd fp, h (t_cur t) = Some nd /\ n_xid nd = t_xid t /\ n_seq nd = ns /\ n_prev nd = t_tail t /\
      ents h (n_ents nd) lc fp /\ fpc = t_cur t :: fp /\ t_num t = ns + 1
  else lc = [] /\ fpc = [] /\ t_num t = ns.
Definition tx_ok (h : rheap) (t : rtxn) (l : list rentry) (fp : list N) : Prop :=
  exists ns ls fps lc fpc, chain h (t_xid t) (t_head t) (t_tail t) ns ls fps /\
    (ns = 0 -> t_head t = 0) /\ cur_ok h t ns lc fpc /\ l = ls ++ lc /\ fp = fpc ++ fps.

(** The dictionary after a log was processed: its nodes are gone, but for those given to the
    node cache. *)
Definition after (h : rheap) (fp g : list N) : rheap :=
  fun b => if inb b g then Some empty_node else if inb b fp then None else h b.

Lemma run_txn h x hd b n l fp : chain h x hd b n l fp -> NoDup fp -> small fp -> exists f0, forall f, (f0 <= f)%nat ->
  forall h' c cmax t found, agree fp h h' -> (n <> 0 -> found = false) ->
  t_xid t = x -> t_head t = hd -> t_tail t = b -> t_cur t = 0 ->
  (n = 0 -> t_head t = 0) ->
  exists h'' g t', txn_loop f h' c cmax t b n false found = Done (h'', c ++ g, t', rev l) /\
    heq h'' (after h' fp g) /\ incl g fp /\ NoDup g /\
    N.of_nat (length (c ++ g)) <= N.max (N.of_nat (length c)) cmax /\ complete_ok t' = true.
Proof.
  intros C. induction C as [x hd|x hd b n nd l1 fp1 l2 fp2 B HB X SQ HD C IC E].
  - intros _ _. exists 1%nat. intros f LE h' c cmax t found _ _ TX TH TT TC T0. destruct f; [lia|].
    exists h', [], t. rewrite app_nil_r. split; [reflexivity|]. split; [intros b; reflexivity|].
    split; [intros y []|]. split; [constructor|]. split; [lia|].
    unfold complete_ok. rewrite T0, TT, TC by reflexivity. reflexivity.
  - intros ND SM.
    inversion ND as [|? ? NB ND']; subst. apply NoDup_app' in ND' as (N2 & N1 & DJ).
    inversion SM as [|? ? SB SM']; subst. apply Forall_app in SM' as [S2 S1].
    destruct (IC N1 S1) as [f1 F1]. destruct (proj1 (run h) _ _ _ E N2 S2) as [f2 F2].
    exists (S (S (Nat.max f1 f2))). intros f LE h' c cmax t found AG FO TX TH TT TC T0. destruct f as [|f]; [lia|].
    apply agree_cons in AG as [AB AG]. apply agree_app in AG as [A2 A1].
    destruct (F2 f ltac:(lia) h' A2) as (h1 & R1 & HE1).
    assert (FF : found = false) by (apply FO; lia). subst found.
    assert (NL : n_seq nd < 2 ^ 64).
    { pose proof (chain_len _ _ _ _ _ _ _ C). pose proof (pigeon fp1 (2 ^ 63) N1 S1). lia. }
    cbn [txn_loop]. destruct (N.eqb_spec b ROLLBACK_NONE) as [Z|_]; [contradiction|].
    rewrite AB, HB. unfold verify. rewrite pred64_succ by exact NL. rewrite TX, pair_eqb_refl, N.eqb_refl. cbn [andb].
    rewrite R1. cbn [abind]. rewrite TH.
    destruct (N.eq_dec (n_seq nd) 0) as [Z|NZ].
    + specialize (HD Z). rewrite HD, N.eqb_refl, Z. cbn [andb orb negb N.eqb].
      pose proof (chain_0' _ _ _ _ _ _ _ C Z) as (P0 & -> & ->). rewrite P0. cbn [N.eqb negb ROLLBACK_NONE].
      rewrite <- HD. rewrite app_nil_r, app_nil_l.
      unfold give_or_remove. destruct (N.of_nat (length c) <? cmax) eqn:CM; (destruct f as [|f]; [lia|]);
        cbn [txn_loop N.eqb ROLLBACK_NONE abind].
      * apply N.ltb_lt in CM. exists (hset h1 b empty_node), [b]. eexists. rewrite app_nil_r. split; [reflexivity|].
        split; [|split; [|split; [|split]]].
        -- intros y. unfold hset, after. cbn [inb existsb]. rewrite HE1. unfold minus.
           destruct (N.eqb_spec y b); cbn [orb]; reflexivity.
        -- intros y [<-|[]]. left. reflexivity.
        -- repeat constructor. intros [].
        -- rewrite app_length. cbn [length]. lia.
        -- unfold complete_ok. cbn. now rewrite TC.
      * apply N.ltb_ge in CM. exists (hdel h1 b), []. eexists. rewrite !app_nil_r. split; [reflexivity|].
        split; [|split; [|split; [|split]]].
        -- intros y. unfold hdel, after. cbn [inb existsb]. rewrite HE1. unfold minus.
           destruct (N.eqb_spec y b); cbn [orb]; reflexivity.
        -- intros y [].
        -- constructor.
        -- lia.
        -- unfold complete_ok. cbn. now rewrite TC.
    + assert (NH : b <> hd).
      { intros EQ. apply NB, in_app_iff. right. rewrite EQ. eapply chain_head; eauto. }
      destruct (N.eqb_spec b hd) as [|_]; [contradiction|]. cbn [andb orb].
      assert (PN : n_prev nd <> 0) by (intros Z; apply (chain_b0 _ _ _ _ _ _ _ C) in Z; contradiction).
      destruct (N.eqb_spec (n_prev nd) ROLLBACK_NONE) as [|_]; [contradiction|].
      assert (A1' : agree fp1 h (hdel h1 b)).
      { intros y I. unfold hdel. destruct (N.eqb_spec y b) as [->|NE].
        - exfalso. apply NB, in_app_iff. auto.
        - rewrite HE1. unfold minus. destruct (inb y fp2) eqn:Y; [|apply A1; exact I].
          apply inb_in in Y. exfalso. eapply DJ; eauto. }
      destruct (F1 f ltac:(lia) (hdel h1 b) c cmax
                  (mkRT (n_xid nd) (t_parent t) (t_num t) hd (n_prev nd) (t_cur t) (t_nents t)) false A1' (fun _ => eq_refl))
        as (h2 & g & t' & R2 & HE2 & IG & NG & LG & CO); auto.
      { intros Z. contradiction. }
      cbn [t_xid] in *. rewrite R2. cbn [abind]. exists h2, g, t'. rewrite rev_app_distr. split; [reflexivity|].
      split; [|split; [|auto]].
      * intros y. rewrite HE2. unfold after, hdel. cbn [inb existsb]. rewrite existsb_app. fold (inb y fp1) (inb y fp2).
        rewrite HE1. unfold minus.
        destruct (inb y g), (inb y fp1), (N.eqb_spec y b), (inb y fp2); reflexivity.
      * intros y I. right. apply in_app_iff. right. auto.
Qed.

(** The whole log. *)
Lemma run_apply h t l fp : tx_ok h t l fp -> NoDup fp -> small fp -> exists f0, forall f, (f0 <= f)%nat ->
  forall c cmax, exists h'' g t', apply_txn f h c cmax t = Done (h'', c ++ g, t', rev l) /\
    heq h'' (after h fp g) /\ incl g fp /\ NoDup g /\
    N.of_nat (length (c ++ g)) <= N.max (N.of_nat (length c)) cmax /\ complete_ok t' = true.
Proof.
  intros (ns & ls & fps & lc & fpc & C & T0 & CU & -> & ->) ND SM.
  apply NoDup_app' in ND as (NC & NS & DJ). apply Forall_app in SM as [SC SS].
  destruct (run_txn _ _ _ _ _ _ _ C NS SS) as [f1 F1].
  unfold cur_ok in CU. unfold apply_txn. destruct (has_current t) eqn:HC.
  - destruct CU as (nd & fp & HB & X & SQ & PV & E & -> & TN).
    inversion NC as [|? ? NB NC']; subst. inversion SC as [|? ? SB SC']; subst.
    destruct (proj1 (run h) _ _ _ E NC' SC') as [f2 F2].
    exists (S (S (Nat.max f1 f2))). intros f LE c cmax. destruct f as [|f]; [lia|].
    destruct (F2 f ltac:(lia) h (fun _ _ => eq_refl)) as (h1 & R1 & HE1).
    unfold has_current in HC. apply negb_true_iff in HC.
    cbn [txn_loop]. rewrite HC, HB.
    assert (NL : n_seq nd < 2 ^ 64).
    { pose proof (chain_len _ _ _ _ _ _ _ C). pose proof (pigeon fps (2 ^ 63) NS SS). lia. }
    unfold verify. rewrite TN, pred64_succ by exact NL. rewrite X, pair_eqb_refl, N.eqb_refl. cbn [andb].
    rewrite R1. cbn [abind]. apply N.eqb_neq in HC. set (b := t_cur t) in *.
    assert (NH : b <> t_head t).
    { destruct (N.eq_dec (n_seq nd) 0) as [Z|NZ].
      - rewrite (T0 Z). exact HC.
      - intros EQ. apply (DJ b); [left; reflexivity|]. rewrite EQ. eapply chain_head; eauto. }
    destruct (N.eqb_spec b (t_head t)) as [|_]; [contradiction|]. cbn [andb orb]. rewrite PV.
    destruct (N.eq_dec (n_seq nd) 0) as [Z|NZ].
    + pose proof (chain_0' _ _ _ _ _ _ _ C Z) as (P0 & -> & ->). rewrite P0. cbn [N.eqb negb ROLLBACK_NONE].
      rewrite app_nil_r, app_nil_l.
      unfold give_or_remove. destruct (N.of_nat (length c) <? cmax) eqn:CM; (destruct f as [|f]; [lia|]);
        cbn [txn_loop N.eqb ROLLBACK_NONE abind].
      * apply N.ltb_lt in CM. exists (hset h1 b empty_node), [b]. eexists. rewrite app_nil_r. split; [reflexivity|].
        split; [|split; [|split; [|split]]].
        -- intros y. unfold hset, after. cbn [inb existsb]. rewrite HE1. unfold minus.
           destruct (N.eqb_spec y b); cbn [orb]; reflexivity.
        -- intros y [<-|[]]. left. reflexivity.
        -- repeat constructor. intros [].
        -- rewrite app_length. cbn [length]. lia.
        -- unfold complete_ok. cbn. now rewrite (T0 Z).
      * apply N.ltb_ge in CM. exists (hdel h1 b), []. eexists. rewrite !app_nil_r. split; [reflexivity|].
        split; [|split; [|split; [|split]]].
        -- intros y. unfold hdel, after. cbn [inb existsb]. rewrite HE1. unfold minus.
           destruct (N.eqb_spec y b); cbn [orb]; reflexivity.
        -- intros y [].
        -- constructor.
        -- lia.
        -- unfold complete_ok. cbn. now rewrite (T0 Z).
    + assert (PN : t_tail t <> 0) by (intros Z; apply (chain_b0 _ _ _ _ _ _ _ C) in Z; contradiction).
      destruct (N.eqb_spec (t_tail t) ROLLBACK_NONE) as [|_]; [contradiction|].
      assert (A1' : agree fps h (hdel h1 b)).
      { intros y I. unfold hdel. destruct (N.eqb_spec y b) as [->|NE].
        - exfalso. apply (DJ b); [left; reflexivity|exact I].
        - rewrite HE1. unfold minus. destruct (inb y fp) eqn:Y; [|reflexivity].
          apply inb_in in Y. exfalso. apply (DJ y); [right; exact Y|exact I]. }
      destruct (F1 f ltac:(lia) (hdel h1 b) c cmax
                  (mkRT (t_xid t) (t_parent t) (n_seq nd + 1) (t_head t) (t_tail t) 0 (t_nents t)) false A1' (fun _ => eq_refl))
        as (h2 & g & t' & R2 & HE2 & IG & NG & LG & CO); auto.
      cbn [t_xid] in *. unfold ROLLBACK_NONE. rewrite R2. cbn [abind]. exists h2, g, t'. rewrite rev_app_distr. split; [reflexivity|].
      split; [|split; [|auto]].
      * intros y. rewrite HE2. unfold after, hdel. cbn [app inb existsb]. rewrite existsb_app. fold (inb y fps) (inb y fp).
        rewrite HE1. unfold minus.
        destruct (inb y g), (inb y fps), (N.eqb_spec y b), (inb y fp); reflexivity.
      * intros y I. cbn [app]. right. apply in_app_iff. right. auto.
  - destruct CU as (-> & -> & TN). exists (S f1). intros f LE c cmax.
    unfold has_current in HC. apply negb_false_iff, N.eqb_eq in HC.
    assert (ST : has_spilled t = negb (t_tail t =? 0)) by reflexivity.
    rewrite app_nil_r. cbn [app].
    destruct (F1 f ltac:(lia) h c cmax t false (fun _ _ => eq_refl) (fun _ => eq_refl)) as (h2 & g & t' & R2 & HE2 & IG); auto.
    exists h2, g, t'. split; [|split; [exact HE2|exact IG]].
    rewrite <- R2, TN. unfold has_spilled. destruct (N.eqb_spec (t_tail t) ROLLBACK_NONE) as [Z|NZ]; cbn [negb]; [|reflexivity].
    rewrite Z. reflexivity.
Qed.
