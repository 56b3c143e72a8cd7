(** Every allowed operation keeps the invariant of the file and does what the
    specification says. *)
From Verif Require Import Base Bytes MhsModel MhsHoles BlkAllocModel BlkAllocProofs BlkTableModel BlkTableProofs
  LeCodecProofs X1764Spec TransCodecModel TransCodecProofs BlkTableInv BlkTableOpen FtDiskModel FtDiskSpec FtDiskInv.
Open Scope N_scope.

(** * Images *)
Lemma img_disk d d' l t m : (forall i e x, refs t i = Some e -> in_ext x e -> d x = d' x) ->
  img_ok d l t m -> img_ok d' l t m.
Proof.
  intros H K i Hi. specialize (K i Hi). destruct (refs t i) as [e|] eqn:E; auto.
  destruct K as (x & K1 & [K2|(K2 & K3)]); exists x; split; auto. right. split; auto. rewrite <- K3. symmetry.
  apply pread_ext. intros y Hy. eapply H; eauto.
Qed.
Lemma img_refs d l t t' m : (forall i, (2 <= i)%nat -> refs t' i = refs t i) -> img_ok d l t m -> img_ok d l t' m.
Proof. intros H K i Hi. rewrite H by auto. apply K; auto. Qed.
Lemma img_put d l t t' m b (e : ext) x : img_ok d l t m ->
  (forall i, refs t' i = if Nat.eqb i b then Some e else refs t i) ->
  img_ok d (mkO b (fst e) x :: l) t' (upd m b (Some x)).
Proof.
  intros K R i Hi. rewrite R. unfold upd. destruct (Nat.eqb_spec i b) as [->|Hb].
  - exists x. split; auto. left. exists (mkO b (fst e) x). cbn. auto.
  - specialize (K i Hi). destruct (refs t i) as [f|]; auto. destruct K as (y & K1 & [K2|(K2 & K3)]); exists y; split; auto.
    + left. destruct K2 as (o & K2 & K3). exists o. cbn. auto.
    + right. split; auto. intros o [<-|Ho] Eo; [cbn in Eo; congruence|]. apply K2; auto.
Qed.
Lemma img_more d l t m b off x : img_ok d l t m -> (forall e, refs t b = Some e -> off <> fst e) ->
  img_ok d (mkO b off x :: l) t m.
Proof.
  intros K R i Hi. specialize (K i Hi). destruct (refs t i) as [f|] eqn:E; auto.
  destruct K as (y & K1 & [K2|(K2 & K3)]); exists y; split; auto.
  - left. destruct K2 as (o & K2 & K3). exists o. cbn. auto.
  - right. split; auto. intros o [<-|Ho] Eo; [cbn in *; subst; eauto|]. apply K2; auto.
Qed.
Lemma img_cut d l t t' m b : img_ok d l t m ->
  (forall i, refs t' i = if Nat.eqb i b then None else refs t i) -> img_ok d l t' (upd m b None).
Proof.
  intros K R i Hi. rewrite R. unfold upd. destruct (Nat.eqb_spec i b) as [->|Hb]; auto. apply K; auto.
Qed.
(** Without writes under way everything is on disk. *)
Lemma img_done s A d l t m : binv s A -> covers A t -> (forall cur, outs_ok l cur -> covers A cur -> no_out l t ->
  img_ok d l t m -> img_ok d [] t m).
Proof.
  intros I C cur (_ & O) Cc N K i Hi. specialize (K i Hi). destruct (refs t i) as [e|] eqn:E; auto.
  destruct K as (y & K1 & [K2|(K2 & K3)]); exists y; split; auto.
  - exfalso. destruct K2 as (o & K2 & <- & K4 & K5). destruct (O _ K2) as (_ & Ho).
    destruct (owned_off s A (o_blk o) e (o_blk o) (o_off o, len (o_data o)) I) as (_ & Q); auto.
    subst e. apply (N o K2). auto.
  - right. split; auto. intros o [].
Qed.
Lemma no_out_more l t b off x : no_out l t -> (forall e, refs t b = Some e -> off <> fst e) -> no_out (mkO b off x :: l) t.
Proof.
  intros N H o [<-|Ho]; [|apply N; auto]. cbn [o_blk o_off o_data]. intros E. apply (H _ E). reflexivity.
Qed.

Lemma fresh_off s A1 b e (t : trans) : binv s ((b, e) :: A1) -> covers A1 t -> forall f, refs t b = Some f -> fst e <> fst f.
Proof.
  intros I C f Hf E. apply C in Hf. pose proof (ai_disj _ _ _ _ I) as D. cbn [map snd pdisj] in D. destruct D as (D & _).
  rewrite Forall_forall in D. specialize (D f). assert (Hd : disj e f) by (apply D; apply in_map_iff; exists (b, f); auto).
  revert Hd. apply disj_same; auto.
  - eapply (owned_good s); eauto. cbn; auto.
  - eapply (owned_good s _ b f); eauto. cbn; auto.
Qed.

(** * Operations on the table only *)
Section TableOp.
Variables (sm : Prop) (A A' : owned) (f : fts) (a : spec) (s' : btab) (pend' : nat -> bool) (out' : list out)
  (m' : nat -> option bytes) (ip' : option image).
Let s := f_bt f.
Let f' := mkF s' (f_disk f) (f_touch f) (f_slot f) (f_old f) (f_count f) (f_lsn f) (f_user f) (f_ilsn f) (f_iuser f)
  pend' out' (f_phase f).
Let a' := mkS (m', snd (s_cur a)) ip' (s_cp a) (s_lsn a) (s_h a).
Hypothesis I : finv sm A f a.
Hypothesis H1 : bt_inv sm A' s'.
Hypothesis H2 : dirty_inv s'.
Hypothesis H3 : b_skip s' = b_skip s.
Hypothesis H4 : b_cp s' = b_cp s.
Hypothesis H5 : outs_ok out' (b_cur s').
Hypothesis H6 : img_ok (f_disk f) out' (b_cur s') m'.
Hypothesis H7 : match b_ip s with
  | None => b_ip s' = None /\ ip' = s_ip a
  | Some ip => exists t m, b_ip s' = Some t /\ ip' = Some (m, f_iuser f) /\ img_ok (f_disk f) out' t m /\
      (t = ip \/ (f_phase f = PStarted /\ refs t 1 = refs ip 1)) /\
      (late (f_phase f) = true -> no_out out' t) /\
      (forall b, f_phase f = PStarted -> pend' b = true -> (3 <= b < snub t)%nat /\ ent t b = ent (b_cur s') b /\ exists q, ent t b = Some q /\ ~ is_free q) end.
Hypothesis H8 : no_out out' (b_cp s).
Hypothesis H9 : h_dirty s = true -> h_dirty s' = true.
Hypothesis H10 : ch_dirty s = true -> ch_dirty s' = true.

Lemma finv_table : finv sm A' f' a'.
Proof.
  unfold s in *. destruct I.
  assert (HN : b_ip (f_bt f) = None <-> b_ip s' = None).
  { destruct (b_ip (f_bt f)) as [ip|].
    - destruct H7 as (t & m & E & _). rewrite E. split; discriminate.
    - destruct H7 as (E & _). tauto. }
  constructor; unfold f', a'; cbn [f_bt f_disk f_touch f_slot f_old f_count f_lsn f_user f_ilsn f_iuser f_pend f_out f_phase
    s_cur s_ip s_cp s_lsn s_h fst snd]; auto.
  - now rewrite <- HN.
  - rewrite H3. auto.
  - intros Hp. rewrite (proj1 fi_idle Hp) in H7. destruct H7 as (_ & ->). auto.
  - intros ip Hip. destruct (b_ip (f_bt f)) as [ip0|] eqn:E0; [|destruct H7 as (E & _); congruence].
    destruct H7 as (t & m & E & -> & K & _). assert (ip = t) by congruence. subst t. exists m. split; auto. split; auto.
    destruct (fi_ip _ eq_refl) as (_ & _ & _ & Q). auto.
  - intros ip b Hp Hip Hb. destruct (b_ip (f_bt f)) as [ip0|] eqn:E0; [|destruct H7 as (E & _); congruence].
    destruct H7 as (t & m & E & -> & K & _ & _ & P). assert (ip = t) by congruence. subst t. auto.
  - intros ip Hip L. destruct (b_ip (f_bt f)) as [ip0|] eqn:E0; [|destruct H7 as (E & _); congruence].
    destruct H7 as (t & m & E & -> & K & T & N & _). assert (ip = t) by congruence. subst t.
    destruct T as [->|(T & _)]; [|rewrite T in L; discriminate]. destruct (fi_late _ eq_refl L) as (_ & Q). auto.
  - intros ip Hip L. destruct (b_ip (f_bt f)) as [ip0|] eqn:E0; [|destruct H7 as (E & _); congruence].
    destruct H7 as (t & m & E & -> & K & T & N & _). assert (ip = t) by congruence. subst t.
    specialize (fi_early _ eq_refl L). destruct T as [->|(_ & ->)]; auto.
  - intros ip Hip L. destruct (b_ip (f_bt f)) as [ip0|] eqn:E0; [|destruct H7 as (E & _); congruence].
    destruct H7 as (t & m & E & -> & K & T & N & _). assert (ip = t) by congruence. subst t.
    destruct T as [->|(T & _)]; [|rewrite T in L; discriminate]. auto.
  - rewrite H4. split; auto. apply fi_cp.
  - destruct (s_cp a) as [(m & u)|].
    + rewrite H4. destruct fi_cpimg as (Q1 & h & Q2 & Q3 & Q4 & Q5 & Q6 & Q7 & Q8). split; auto. exists h.
      split; auto. split; auto. split; auto. split; auto. unfold dirty_of in *.
      cbn [f_bt f_phase]. split; [|split; auto].
      * intros Hd Hp. rewrite Hp in *. apply Q6; auto. destruct (h_dirty (f_bt f)); auto. rewrite H9 in Hd; auto.
      * intros Hp Hd. apply Q7; auto. destruct (ch_dirty (f_bt f)); auto. rewrite H10 in Hd; auto.
    + destruct fi_cpimg as (Q1 & Q2 & Q3 & Q4). split; auto. split; auto. split; auto.
      unfold dirty_of in *. cbn [f_bt f_phase]. destruct (f_phase f); auto.
  - intros Hp Hd. apply fi_userd; auto. destruct (h_dirty (f_bt f)); auto. rewrite H9 in Hd; auto.
  - intros ip Hip W. destruct (b_ip (f_bt f)) as [ip0|] eqn:E0; [|destruct H7 as (E & _); congruence].
    destruct H7 as (t & m & E & -> & K & T & N & _). assert (ip = t) by congruence. subst t.
    destruct T as [->|(T & _)]; [|rewrite T in W; discriminate].
    destruct (fi_new _ eq_refl W) as (h & Q1 & Q2). exists h. split; auto.
Qed.
End TableOp.

Definition post (sm : Prop) (f f' : fts) (a : spec) (o : op) : Prop :=
  exists A' a', finv sm A' f' a' /\ sstep a o a'.

Lemma covers_cur sm A s : bt_inv sm A s -> covers A (b_cur s).
Proof. intros I. apply (bi_wf _ _ _ I). cbn; auto. Qed.
Lemma covers_cp sm A s : bt_inv sm A s -> covers A (b_cp s).
Proof. intros I. apply (bi_wf _ _ _ I). cbn; auto. Qed.
Lemma in_trs_ip s ip : b_ip s = Some ip -> In ip (trs s).
Proof. intros H. unfold trs. rewrite H. cbn; auto. Qed.

Lemma pend_ck sm A f a b : finv sm A f a -> f_phase f = PStarted -> f_pend f b = true -> ck_ok (f_bt f) b.
Proof.
  intros I Hp Hb. destruct (b_ip (f_bt f)) as [ip|] eqn:E.
  - exists ip. destruct (fi_pend _ _ _ _ I ip b Hp E Hb) as (P1 & P2 & _). repeat split; auto; try lia.
    rewrite (fi_skip _ _ _ _ I) by congruence. now rewrite Hp.
  - apply (fi_idle _ _ _ _ I) in E. congruence.
Qed.

Lemma unpend_true p b i : unpend p b i = true -> i <> b /\ p i = true.
Proof. unfold unpend. destruct (Nat.eqb_spec i b); [discriminate|auto]. Qed.

(** The common part of writing a block: it is given a new extent. *)
Lemma write_ok sm A f a b d ck s' e A1 pend' : finv sm A f a -> (2 <= b)%nat -> idle_blk f b -> snd e = len d ->
  (ck = true -> f_phase f = PStarted) ->
  realloc_post sm (f_bt f) A b ck s' e A1 -> (f_phase f = PStarted -> forall i, pend' i = true -> i <> b /\ f_pend f i = true) ->
  finv sm ((b, e) :: A1)
    (mkF s' (f_disk f) (f_touch f) (f_slot f) (f_old f) (f_count f) (f_lsn f) (f_user f) (f_ilsn f) (f_iuser f)
       pend' (mkO b (fst e) d :: f_out f) (f_phase f))
    (mkS (upd_img (s_cur a) b (Some d)) (upd_ck ck (s_ip a) b (Some d)) (s_cp a) (s_lsn a) (s_h a)).
Proof.
  intros I Hb Hid He Hck P Hpend. destruct P. unfold upd_img.
  assert (Ge : 0 < snd e) by (eapply (owned_good s'); [exact (bi_ba _ _ _ rp_inv)|cbn; auto]).
  pose proof (bi_ba _ _ _ rp_inv) as Ib.
  pose proof (put_refs _ _ _ _ rp_put Ge) as Rc.
  assert (Hput : forall i, i <> b -> ent (b_cur s') i = ent (b_cur (f_bt f)) i) by (intros i Hi; destruct rp_put as (_ & _ & _ & Q); rewrite Q; destruct (Nat.eqb_spec i b); [contradiction|reflexivity]).
  eapply finv_table; eauto.
  - apply rp_dirty. apply I.
  - destruct (fi_out _ _ _ _ I) as (O1 & O2). split.
    + cbn. constructor; auto.
    + intros o [<-|Ho]; cbn [o_blk o_off o_data].
      * split; auto. rewrite Rc, Nat.eqb_refl, <- He. now destruct e.
      * destruct (O2 _ Ho) as (Q1 & Q2). split; auto. rewrite Rc. destruct (Nat.eqb_spec (o_blk o) b) as [E|]; auto.
        exfalso. apply Hid. rewrite <- E. now apply in_map.
  - apply img_put with (t := b_cur (f_bt f)); auto. apply I.
  - destruct (b_ip (f_bt f)) as [ip|] eqn:Eip.
    + destruct (fi_ip _ _ _ _ I _ Eip) as (m & M1 & M2 & M3). destruct ck.
      * destruct rp_put_ip as (ip0 & t & T1 & T2 & T3). assert (ip0 = ip) by congruence. subst ip0.
        pose proof (put_refs _ _ _ _ T3 Ge) as Ri.
        exists t, (upd m b (Some d)). rewrite M1. split; auto. split; [reflexivity|].
        split; [eapply img_put; eauto|]. specialize (Hck eq_refl). split; [|split].
        -- right. split; auto. rewrite Ri. destruct (Nat.eqb_spec 1 b); [lia|auto].
        -- rewrite Hck. discriminate.
        -- intros i _ Hi. apply (Hpend Hck) in Hi. destruct Hi as (Hi & Hi').
           destruct (fi_pend _ _ _ _ I _ _ Hck Eip Hi') as (Q1 & Q2 & Q3). destruct T3 as (T3 & T4 & T5 & T6).
           rewrite Hput, T6 by auto. destruct (Nat.eqb_spec i b); [contradiction|]. split; [unfold snub in *; rewrite T3|]; auto.
      * exists ip, m. rewrite rp_put_ip. split; auto. split; auto.
        specialize (rp_ip _ eq_refl). cbn iota in rp_ip.
        pose proof (fresh_off s' A1 b e ip Ib rp_ip) as Fr.
        split; [apply img_more; auto|]. split; auto. split.
        -- intros L. apply no_out_more; auto. apply (fi_late _ _ _ _ I); auto.
        -- intros i Hp Hi. apply (Hpend Hp) in Hi. destruct Hi as (Hi & Hi').
           destruct (fi_pend _ _ _ _ I _ _ Hp Eip Hi') as (Q1 & Q2 & Q3). rewrite Hput by auto. auto.
    + destruct ck.
      * destruct rp_put_ip as (ip0 & _ & T1 & _). congruence.
      * split; auto.
  - apply no_out_more; [apply (fi_cp _ _ _ _ I)|]. exact (fresh_off s' A1 b e _ Ib rp_cp).
  - rewrite rp_h. destruct ck; auto.
  - rewrite rp_ch. destruct ck; auto.
Qed.

Lemma realloc_eq s b size ck : swf (b_cur s) -> (3 <= b < snub (b_cur s))%nat ->
  realloc s (Z.of_nat b) size ck = realloc_internal s (Z.of_nat b) size ck.
Proof.
  intros W Hb. unfold realloc, freeable. pose proof (sw_snub _ W) as S. pose proof (snub_z _ W) as Z.
  destruct (Z.leb_spec (t_snub (b_cur s)) (t_len (b_cur s))); [|lia].
  unfold RESERVED. destruct (Z.leb_spec 3 (Z.of_nat b)); [|lia]. destruct (Z.ltb_spec (Z.of_nat b) (t_snub (b_cur s))); [|lia]. reflexivity.
Qed.

Theorem step_write sm A f a b d ck : finv sm A f a -> legal sm f (OWrite b d ck) ->
  exists f', step f (OWrite b d ck) = Some f' /\ post sm f f' a (OWrite b d ck).
Proof.
  intros I ((Hb & p & Ep & Np) & Hid & Hd & (L & EL & HL) & Hck). cbn [step]. unfold do_write.
  assert (W : swf (b_cur (f_bt f))) by (apply (bi_wf _ _ _ (fi_bt _ _ _ _ I)); cbn; auto).
  rewrite realloc_eq by auto.
  destruct (realloc_ok sm A (f_bt f) b (Z.of_N (len d)) ck p L (fi_bt _ _ _ _ I)) as (s' & off & A1 & E & P); auto; try lia.
  { rewrite N2Z.id. unfold LIM. lia. }
  { intros C. destruct (Hck C). eapply pend_ck; eauto. }
  rewrite E. rewrite N2Z.id in *. eexists; split; [reflexivity|].
  exists ((b, (off, len d)) :: A1). eexists. split; [|constructor].
  eapply (write_ok sm A f a b d ck s' (off, len d) A1 (unpend (f_pend f) b)); eauto; try lia.
  - intros C. apply Hck; auto.
  - intros _ i. apply unpend_true.
Qed.

Theorem step_desc sm A f a d : finv sm A f a -> legal sm f (ODesc d) ->
  exists f', step f (ODesc d) = Some f' /\ post sm f f' a (ODesc d).
Proof.
  intros I (Hid & Hd & (L & EL & HL)). cbn [step]. unfold do_desc, realloc_desc.
  assert (W : swf (b_cur (f_bt f))) by (apply (bi_wf _ _ _ (fi_bt _ _ _ _ I)); cbn; auto).
  pose proof (swf_len _ W) as Len. destruct (ent_some (b_cur (f_bt f)) 2) as (p & Ep); [lia|].
  change B_DESC with (Z.of_nat 2).
  destruct (realloc_ok sm A (f_bt f) 2 (Z.of_N (len d)) false p L (fi_bt _ _ _ _ I)) as (s' & off & A1 & E & P); auto; try lia.
  { apply (sw_low _ W _ _ Ep). lia. }
  { rewrite N2Z.id. unfold LIM. lia. }
  rewrite E. rewrite N2Z.id in *. eexists; split; [reflexivity|].
  exists ((2%nat, (off, len d)) :: A1). eexists. split; [|apply ss_desc].
  assert (PEND : f_phase f = PStarted -> forall i, f_pend f i = true -> i <> 2%nat /\ f_pend f i = true).
  { intros Hp i Hi. split; auto. destruct (b_ip (f_bt f)) as [ip|] eqn:Eip.
    - destruct (fi_pend _ _ _ _ I ip i Hp Eip Hi). lia.
    - apply (fi_idle _ _ _ _ I) in Eip. congruence. }
  exact (write_ok sm A f a 2 d false s' (off, len d) A1 (f_pend f) I (le_n 2) Hid eq_refl ltac:(discriminate) P PEND).
Qed.

Theorem step_free sm A f a b ck : finv sm A f a -> legal sm f (OFree b ck) ->
  exists f', step f (OFree b ck) = Some f' /\ post sm f f' a (OFree b ck).
Proof.
  intros I ((Hb & p & Ep & Np) & Hid & Hck). cbn [step]. unfold do_free.
  destruct (free_blocknum_ok sm A (f_bt f) b ck p (fi_bt _ _ _ _ I)) as (s' & A1 & E & P); auto.
  { intros C. destruct (Hck C). eapply pend_ck; eauto. }
  rewrite E. eexists; split; [reflexivity|]. exists A1. eexists. split; [|constructor].
  destruct P. pose proof (cut_refs _ _ _ fp_cur) as Rc. destruct fp_cur as (_ & Sc & _ & _ & Ec).
  unfold upd_img, with_pend, with_bt. cbn [f_bt f_disk f_touch f_slot f_old f_count f_lsn f_user f_ilsn f_iuser f_pend f_out f_phase].
  eapply finv_table; eauto.
  - apply fp_dirty. apply I.
  - destruct (fi_out _ _ _ _ I) as (O1 & O2). split; auto. intros o Ho. destruct (O2 _ Ho) as (Q1 & Q2). split; auto.
    rewrite Rc. destruct (Nat.eqb_spec (o_blk o) b) as [Eb|]; auto. exfalso. apply Hid. rewrite <- Eb. now apply in_map.
  - apply img_cut with (t := b_cur (f_bt f)); auto. apply I.
  - destruct (b_ip (f_bt f)) as [ip|] eqn:Eip.
    + destruct (fi_ip _ _ _ _ I _ Eip) as (m & M1 & M2 & M3). destruct ck.
      * destruct fp_ip as (ip0 & t & T1 & T2 & T3). assert (ip0 = ip) by congruence. subst ip0.
        pose proof (cut_refs _ _ _ T3) as Ri. destruct T3 as (_ & T3 & _ & _ & T4).
        exists t, (upd m b None). rewrite M1. split; auto. split; [reflexivity|].
        split; [eapply img_cut; eauto|]. destruct (Hck eq_refl) as (Hph & _). split; [|split].
        -- right. split; auto. rewrite Ri. destruct (Nat.eqb_spec 1 b); [lia|auto].
        -- rewrite Hph. discriminate.
        -- intros i _ Hi. apply unpend_true in Hi. destruct Hi as (Hi & Hi').
           destruct (fi_pend _ _ _ _ I _ _ Hph Eip Hi') as (Q1 & Q2 & Q3).
           rewrite T4, Ec by auto. split; [unfold snub in *; rewrite T3|]; auto.
      * exists ip, m. rewrite fp_ip. split; auto. split; auto. split; auto. split; auto. split.
        -- intros L. apply (fi_late _ _ _ _ I); auto.
        -- intros i Hp Hi. apply unpend_true in Hi. destruct Hi as (Hi & Hi').
           destruct (fi_pend _ _ _ _ I _ _ Hp Eip Hi') as (Q1 & Q2 & Q3). rewrite Ec by auto. auto.
    + destruct ck.
      * destruct fp_ip as (ip0 & _ & T1 & _). congruence.
      * split; auto.
  - apply (fi_cp _ _ _ _ I).
  - rewrite fp_h. destruct ck; auto.
  - rewrite fp_ch. destruct ck; auto.
Qed.

Lemma spec_eta a : mkS (fst (s_cur a), snd (s_cur a)) (s_ip a) (s_cp a) (s_lsn a) (s_h a) = a.
Proof. destruct a as [[? ?] ? ? ? ?]. reflexivity. Qed.

Theorem step_alloc sm A f a : finv sm A f a -> legal sm f OAlloc ->
  exists f', step f OAlloc = Some f' /\ post sm f f' a OAlloc.
Proof.
  intros I Hl. cbn [step legal] in *. unfold do_alloc.
  destruct (alloc_blocknum_inv sm A (f_bt f) (fi_bt _ _ _ _ I) Hl) as
    (s' & n & E & I' & D' & Hn & Fr & En & Eo & R & E1 & E2 & E3 & E4 & E5 & E6).
  rewrite E. eexists; split; [reflexivity|]. exists A. exists a. split; [|constructor].
  unfold with_pend, with_bt. cbn [f_bt f_disk f_touch f_slot f_old f_count f_lsn f_user f_ilsn f_iuser f_pend f_out f_phase].
  rewrite Nat2Z.id. rewrite <- (spec_eta a) at 1. eapply finv_table; eauto.
  - apply D', I.
  - destruct (fi_out _ _ _ _ I) as (O1 & O2). split; auto. intros o Ho. destruct (O2 _ Ho) as (Q1 & Q2). split; auto. now rewrite R.
  - eapply img_refs; [|apply I]. auto.
  - destruct (b_ip (f_bt f)) as [ip|] eqn:Eip.
    + destruct (fi_ip _ _ _ _ I _ Eip) as (m & M1 & M2 & M3).
      exists ip, m. split; auto. split; auto. split; auto. split; auto. split.
      * intros L. apply (fi_late _ _ _ _ I); auto.
      * intros i Hp Hi. apply unpend_true in Hi. destruct Hi as (Hi & Hi').
        destruct (fi_pend _ _ _ _ I _ _ Hp Eip Hi') as (Q1 & Q2 & q & Q3 & Q4). split; auto. split; [|eauto]. rewrite Q3. symmetry. apply Eo; auto. congruence.
    + auto.
  - apply (fi_cp _ _ _ _ I).
Qed.

Lemma finv_ext sm A f a : finv sm A f a -> forall i e t, In t (trs (f_bt f)) -> refs t i = Some e -> In (i, e) A.
Proof. intros I i e t Ht. apply (bi_wf _ _ _ (fi_bt _ _ _ _ I) t Ht). Qed.

(** * Writes to the disk that keep clear of everything of value *)
Section DiskOp.
Variables (sm : Prop) (A : owned) (f : fts) (a : spec) (disk' : N -> N) (touch' : N -> bool) (out' : list out).
Let f' := mkF (f_bt f) disk' touch' (f_slot f) (f_old f) (f_count f) (f_lsn f) (f_user f) (f_ilsn f) (f_iuser f)
  (f_pend f) out' (f_phase f).
Hypothesis I : finv sm A f a.
Hypothesis H1 : outs_ok out' (b_cur (f_bt f)).
Hypothesis H2 : img_ok disk' out' (b_cur (f_bt f)) (fst (s_cur a)).
Hypothesis H3 : forall ip m, b_ip (f_bt f) = Some ip -> img_ok (f_disk f) (f_out f) ip m -> img_ok disk' out' ip m.
Hypothesis H4 : forall ip, b_ip (f_bt f) = Some ip -> no_out (f_out f) ip -> no_out out' ip.
Hypothesis H5 : no_out out' (b_cp (f_bt f)).
Hypothesis H6 : forall i e x, refs (b_cp (f_bt f)) i = Some e -> in_ext x e -> disk' x = f_disk f x /\ touch' x = false.
Hypothesis H7 : forall ip i e x, b_ip (f_bt f) = Some ip -> late (f_phase f) = true -> refs ip i = Some e -> in_ext x e ->
  disk' x = f_disk f x /\ (synced (f_phase f) = true -> touch' x = false).

Lemma finv_disk : finv sm A f' a.
Proof.
  destruct I. constructor; unfold f'; cbn [f_bt f_disk f_touch f_slot f_old f_count f_lsn f_user f_ilsn f_iuser f_pend f_out f_phase]; auto.
  - intros ip Hip. destruct (fi_ip ip Hip) as (m & M1 & M2 & M3). exists m. auto.
  - intros ip Hip L. destruct (fi_late ip Hip L) as (N1 & off & S1 & S2 & S3 & S4). split; auto.
    exists off. split; auto. split; auto. split; auto. rewrite <- S4. apply pread_ext. intros x Hx.
    apply (H7 ip 1%nat _ x Hip L S2). unfold in_ext, ext_end. cbn. auto.
  - intros ip Hip S i e x Hr Hx. apply (H7 ip i e x Hip); auto. destruct (f_phase f); auto; discriminate.
  - split; auto. intros i e x Hr Hx. apply (H6 _ _ _ Hr Hx).
  - destruct (s_cp a) as [(m & u)|]; auto. destruct fi_cpimg as (Q1 & h & Q2 & Q3 & Q4 & Q5 & Q6). split.
    + eapply img_disk; [|exact Q1]. intros i e x Hr Hx. symmetry. apply (H6 _ _ _ Hr Hx).
    + exists h. split; auto. split; auto. split; auto. split; auto. destruct Q5. constructor; auto.
      rewrite <- ho_disk. apply pread_ext. intros x Hx. apply (H6 1%nat _ x ho_ref). unfold in_ext, ext_end. cbn. auto.
  - intros ip Hip W. destruct (fi_new ip Hip W) as (h & Q1 & Q2 & Q3 & Q4 & Q5). exists h. split; auto.
    split; auto. split; auto. split; auto. destruct Q5. constructor; auto.
    rewrite <- ho_disk. apply pread_ext. intros x Hx.
    apply (H7 ip 1%nat (hd_toff h, hd_tsize h) x Hip); auto. destruct (f_phase f); auto; discriminate.
Qed.
End DiskOp.

Lemma take_out_ok l b o r : take_out l b = Some (o, r) -> exists l1 l2, l = l1 ++ o :: l2 /\ r = l1 ++ l2 /\ o_blk o = b.
Proof.
  revert r. induction l as [|x l IH]; intros r; cbn [take_out]; [discriminate|]. destruct (Nat.eqb_spec (o_blk x) b) as [E|E].
  - intros H. injection H as -> ->. exists [], r. auto.
  - destruct (take_out l b) as [[y q]|]; [|discriminate]. intros H. injection H as -> <-.
    destruct (IH _ eq_refl) as (l1 & l2 & -> & -> & Hb). exists (x :: l1), l2. auto.
Qed.

Theorem step_pwrite sm A f a b f' : finv sm A f a -> step f (OPwrite b) = Some f' -> post sm f f' a (OPwrite b).
Proof.
  intros I. cbn [step]. unfold do_pwrite. destruct (take_out (f_out f) b) as [[o l]|] eqn:T; [|discriminate].
  apply take_out_ok in T. destruct T as (l1 & l2 & El & -> & Eb). intros E. injection E as <-.
  exists A, a. split; [|constructor].
  destruct (fi_out _ _ _ _ I) as (O1 & O2). rewrite El in O1, O2.
  destruct (O2 o) as (B1 & B2); [apply in_or_app; cbn; auto|]. rewrite Eb in *.
  set (e := (o_off o, len (o_data o))) in *.
  pose proof (bi_ba _ _ _ (fi_bt _ _ _ _ I)) as Ib.
  assert (He : In (b, e) A) by (eapply finv_ext; eauto; cbn; auto).
  pose proof (owned_good _ _ _ _ Ib He) as (G1 & G2 & G3 & G4).
  assert (Nd : forall x, In x (l1 ++ l2) -> o_blk x <> b).
  { intros x Hx C. rewrite map_app in O1. cbn [map] in O1. apply NoDup_remove_2 in O1. apply O1.
    rewrite <- map_app. rewrite Eb, <- C. now apply in_map. }
  (* bytes of other extents *)
  assert (Off : forall i g x, In (i, g) A -> (i, g) <> (b, e) -> in_ext x g -> ~ (fst e <= x < fst e + roundup 512 (snd e))).
  { intros i g x Hg Hn Hx C. pose proof (owned_good _ _ _ _ Ib Hg) as (K1 & K2 & K3 & K4).
    assert (D : disj e g).
    { destruct (N.le_gt_cases (ext_end e) (fst g)) as [|D1]; [left; auto|].
      destruct (N.le_gt_cases (ext_end g) (fst e)) as [|D2]; [right; auto|].
      exfalso. apply Hn. destruct (owned_uniq _ _ _ _ _ _ Ib Hg He) as (-> & ->); auto. unfold disj. lia. }
    exact (roundup_4096 e g x G3 K3 G1 K1 D C Hx). }
  set (disk' := put_bytes (f_disk f) (o_off o) (pad (o_data o))).
  assert (D1 : pread_e disk' e = o_data o).
  { unfold pread_e, disk'. cbn [e fst snd]. rewrite pread_put.
    - unfold len. rewrite Nat2N.id. apply pad_first.
    - rewrite pad_len. apply roundup_bound. lia. }
  assert (D2 : forall i g x, In (i, g) A -> (i, g) <> (b, e) -> in_ext x g -> disk' x = f_disk f x /\
     in_range (o_off o) (len (pad (o_data o))) x = false).
  { intros i g x Hg Hn Hx. pose proof (Off i g x Hg Hn Hx) as Q. cbn [e fst snd] in Q. rewrite <- pad_len in Q. split.
    - unfold disk'. now apply put_other.
    - destruct (in_range (o_off o) (len (pad (o_data o))) x) eqn:R; auto. apply in_range_iff in R. contradiction. }
  assert (Im : forall t m, In t (trs (f_bt f)) -> img_ok (f_disk f) (f_out f) t m -> img_ok disk' (l1 ++ l2) t m).
  { intros t m Ht K i Hi. specialize (K i Hi). destruct (refs t i) as [g|] eqn:R; auto.
    pose proof (finv_ext _ _ _ _ I _ _ _ Ht R) as Hg.
    destruct K as (d & K1 & K2). exists d. split; auto. rewrite El in K2.
    destruct (Nat.eq_dec i b) as [->|Hib].
    - right. split; [intros x Hx C; exfalso; eapply Nd; eauto|]. destruct K2 as [(x & X1 & X2 & X3 & X4)|(X1 & X2)].
      + assert (x = o). { apply in_app_or in X1. destruct X1 as [X1|[X1|X1]]; auto; exfalso; apply (Nd x); auto; apply in_or_app; auto. }
        subst x. destruct (owned_off _ _ _ _ _ _ Ib Hg He) as (_ & ->); auto. congruence.
      + rewrite <- X2. apply pread_ext. intros y Hy. apply (D2 b g y Hg); [|exact Hy].
        intros C. injection C as ->. apply (X1 o); [apply in_or_app; cbn; auto|auto|reflexivity].
    - destruct K2 as [(x & X1 & X2 & X3 & X4)|(X1 & X2)].
      + left. exists x. split; auto. apply in_app_or in X1. apply in_or_app. destruct X1 as [X1|[X1|X1]]; auto. subst x. congruence.
      + right. split.
        * intros x Hx. apply X1. apply in_app_or in Hx. apply in_or_app. cbn. tauto.
        * rewrite <- X2. apply pread_ext. intros y Hy. apply (D2 i g y Hg); [congruence|exact Hy]. }
  unfold with_out, pwrite. cbn [f_bt f_disk f_touch f_slot f_old f_count f_lsn f_user f_ilsn f_iuser f_pend f_out f_phase].
  apply finv_disk; auto.
  - split.
    + rewrite map_app in *. cbn [map] in O1. eapply NoDup_remove_1; eauto.
    + intros x Hx. apply O2. apply in_app_or in Hx. apply in_or_app. cbn. tauto.
  - apply Im; [cbn; auto|]. apply I.
  - intros ip m Hip. apply Im. now apply in_trs_ip.
  - intros ip Hip N x Hx. apply N. rewrite El. apply in_app_or in Hx. apply in_or_app. cbn. tauto.
  - intros x Hx. apply (fi_cp _ _ _ _ I). rewrite El. apply in_app_or in Hx. apply in_or_app. cbn. tauto.
  - intros i g x Hr Hx. destruct (D2 i g x) as (Q1 & Q2); auto.
    + eapply finv_ext; eauto. cbn; auto.
    + intros C. injection C as -> ->. destruct (fi_cp _ _ _ _ I) as (N & _). apply (N o); [rewrite El; apply in_or_app; cbn; auto|].
      rewrite Eb. exact Hr.
    + split; auto. rewrite Q2. cbn [orb]. eapply (fi_cp _ _ _ _ I); eauto.
  - intros ip i g x Hip L Hr Hx. destruct (D2 i g x) as (Q1 & Q2); auto.
    + eapply finv_ext; eauto. now apply in_trs_ip.
    + intros C. injection C as -> ->. destruct (fi_late _ _ _ _ I ip Hip L) as (N & _). apply (N o); [rewrite El; apply in_or_app; cbn; auto|].
      rewrite Eb. exact Hr.
    + split; auto. intros S. rewrite Q2. cbn [orb]. eapply (fi_sync _ _ _ _ I); eauto.
Qed.

Theorem step_fsync sm A f a f' : finv sm A f a -> step f OFsync = Some f' -> post sm f f' a OFsync.
Proof.
  intros I. cbn [step]. intros E. assert (f' = fsync f) by (destruct (f_phase f); congruence). subst f'. clear E.
  exists A, a. split; [|constructor]. unfold fsync. apply finv_disk; auto.
  - exact (fi_out _ _ _ _ I).
  - exact (fi_cur _ _ _ _ I).
  - apply (fi_cp _ _ _ _ I).
Qed.

Theorem step_user sm A f a u : finv sm A f a ->
  exists f', step f (OUser u) = Some f' /\ post sm f f' a (OUser u).
Proof.
  intros I. cbn [step]. unfold do_user, set_dirty. eexists; split; [reflexivity|]. exists A. eexists. split; [|constructor].
  destruct I. constructor; cbn [f_bt f_disk f_touch f_slot f_old f_count f_lsn f_user f_ilsn f_iuser f_pend f_out f_phase
    b_cur b_ip b_cp b_skip b_ba h_dirty ch_dirty s_cur s_ip s_cp s_lsn s_h fst snd]; auto.
  - destruct fi_bt. constructor; auto.
  - destruct fi_dirty. constructor; cbn [b_cur b_ip b_cp b_skip b_ba h_dirty ch_dirty]; auto; discriminate.
  - destruct (s_cp a) as [(m & v)|].
    + destruct fi_cpimg as (Q1 & h & Q2 & Q3 & Q4 & Q5 & Q6 & Q7 & Q8). split; auto. exists h.
      split; auto. split; auto. split; auto. split; auto. unfold dirty_of in *. cbn [f_bt f_phase h_dirty ch_dirty]. split; [|split; auto].
      intros Hd Hp. rewrite Hp in Hd. discriminate.
    + destruct fi_cpimg as (Q1 & Q2 & Q3 & Q4). split; auto. split; auto. split; auto.
      unfold dirty_of in *. cbn [f_bt f_phase h_dirty ch_dirty]. destruct (f_phase f); auto.
  - discriminate.
Qed.

(** * Checkpoints *)
Ltac fields := cbn [f_bt f_disk f_touch f_slot f_old f_count f_lsn f_user f_ilsn f_iuser f_pend f_out f_phase
    b_cur b_ip b_cp b_skip b_ba h_dirty ch_dirty s_cur s_ip s_cp s_lsn s_h fst snd].

Theorem step_start sm A f a lsn f' : finv sm A f a -> step f (OStart lsn) = Some f' -> post sm f f' a (OStart lsn).
Proof.
  intros I. cbn [step]. unfold do_start. destruct (f_phase f) eqn:Ep; try discriminate.
  pose proof (proj1 (fi_idle _ _ _ _ I) Ep) as Hn.
  destruct (start_ok sm A (f_bt f) (fi_bt _ _ _ _ I) Hn) as
    (s' & ip & E & I' & D' & Eip & Ri & Rc & Ee & Es & Eo & E1 & E2 & E3 & E4 & E5 & E6).
  rewrite E. intros Q. injection Q as <-. exists A. eexists. split; [|constructor].
  destruct I. constructor; fields; auto; try (intros; discriminate).
  - rewrite Eip. split; discriminate.
  - destruct fi_out as (O1 & O2). split; auto. intros o Ho. rewrite Rc. auto.
  - eapply img_refs; [|exact fi_cur]. auto.
  - intros t Ht. assert (t = ip) by congruence. subst t. destruct (s_cur a) as (m & u) eqn:Ea. cbn [fst snd] in *.
    subst u. exists m. split; [reflexivity|]. split; auto. eapply img_refs; [|exact fi_cur]. auto.
  - intros t b _ Ht Hb. assert (t = ip) by congruence. subst t. unfold blocks_in_use in Hb.
    apply andb_true_iff in Hb. destruct Hb as (Hb & Hb3). apply andb_true_iff in Hb. destruct Hb as (Hb1 & Hb2).
    apply Nat.leb_le in Hb1. apply Z.ltb_lt in Hb2.
    assert (Hs : (b < snub ip)%nat) by (rewrite Es; unfold snub; lia).
    split; auto. rewrite Ee by (auto; lia). split; auto. unfold ent. destruct (nth_error (t_arr (b_cur s')) b) as [q|]; [|discriminate].
    exists q. split; auto. unfold is_free. intros C. rewrite C in Hb3. discriminate.
  - intros t Ht _. assert (t = ip) by congruence. subst t. rewrite refs_at, E1. reflexivity.
  - rewrite E2. auto.
  - unfold cp_count, dirty_of in *. fields. rewrite Ep in *. destruct (s_cp a) as [(m & u)|].
    + rewrite E2. destruct fi_cpimg as (Q1 & h & Q2 & Q3 & Q4 & Q5 & Q6 & Q7 & Q8). split; auto. exists h.
      split; auto. split; auto. split; auto. split; auto. split; [discriminate|]. split; [|discriminate].
      intros _ Hd. apply Q6; congruence.
    + destruct fi_cpimg as (Q1 & Q2 & Q3 & Q4). repeat split; auto; try congruence; discriminate.
  - rewrite Ep in *. auto.
  - rewrite Ep in *. auto.
Qed.

(** A well-formed translation can be serialized. *)
Lemma ser_ok_of s A t off : binv s A -> swf t -> covers A t -> (t_snub t < 2 ^ 27 - 1)%Z ->
  ent t 1 = Some (mkP (Z.of_N off) (size_on_disk t)) -> In (1%nat, (off, Z.to_N (size_on_disk t))) A -> ser_ok t off.
Proof.
  intros I W C Sm E1 Hin. pose proof (owned_good _ _ _ _ I Hin) as (G1 & G2 & G3 & G4).
  unfold ext_end, LIM in *. cbn [fst snd] in *. pose proof (sw_snub _ W) as S. pose proof (snub_z _ W) as Sz.
  constructor; auto; try lia.
  - destruct (sw_list _ W) as (l & Hc & _ & Hl). destruct l as [|i l]; cbn [chain] in Hc.
    + rewrite Hc. unfold freelist_null, i64. lia.
    + destruct Hc as (-> & _). assert (Hi : (3 <= i < snub t)%nat) by (apply Hl; cbn; auto). unfold i64. lia.
  - apply Forall_forall. intros p Hp. destruct (In_nth_error _ _ Hp) as (i & Hi).
    rewrite nth_firstn in Hi. fold (snub t) in Hi. destruct (Nat.ltb_spec i (snub t)) as [Hs|]; [|discriminate]. change (ent t i = Some p) in Hi.
    pose proof (sw_pair _ W _ _ Hi) as [F|[F|(F1 & F2)]].
    + pose proof (swf_link _ _ _ W Hi F Hs) as L. unfold is_free, size_is_free in F. unfold pair_i64, i64.
      rewrite F. split; [|lia]. unfold freelist_null in L. lia.
    + subst p. unfold pair_i64, i64, unalloc, diskoff_unused. cbn. lia.
    + assert (Hr : refs t i = Some (Z.to_N (p_off p), Z.to_N (p_size p))).
      { rewrite refs_at, Hi. destruct (Z.ltb_spec 0 (p_size p)); [auto|lia]. }
      apply C in Hr. pose proof (owned_good _ _ _ _ I Hr) as (K1 & K2 & K3 & K4). unfold ext_end, LIM in *. cbn [fst snd] in *.
      unfold pair_i64, i64. lia.
Qed.

Lemma stored_len t off : ser_ok t off -> len (stored t) = roundup 512 (20 + 16 * Z.to_N (t_snub t)).
Proof.
  intros K. unfold stored. rewrite !len_app, (body_len _ _ K), len_le_enc. unfold len at 1. rewrite repeat_length, N2Nat.id.
  pose proof (roundup_bound 512 (20 + 16 * Z.to_N (t_snub t)) ltac:(lia)). lia.
Qed.
Lemma stored_first t off : ser_ok t off -> firstn (N.to_nat (20 + 16 * Z.to_N (t_snub t))) (stored t) =
  body t ++ le_enc 4 (checksum_spec (body t)).
Proof.
  intros K. unfold stored. rewrite app_assoc, firstn_app.
  assert (L : length (body t ++ le_enc 4 (checksum_spec (body t))) = N.to_nat (20 + 16 * Z.to_N (t_snub t))).
  { rewrite app_length, le_enc_length. pose proof (body_len _ _ K) as B. unfold len in B. lia. }
  rewrite <- L, firstn_all, Nat.sub_diag. cbn [firstn]. apply app_nil_r.
Qed.

Theorem step_trans sm A f a f' : finv sm A f a -> legal sm f OTrans -> step f OTrans = Some f' -> post sm f f' a OTrans.
Proof.
  intros I Hl. cbn [step]. unfold do_trans. destruct (f_phase f) eqn:Ep; try discriminate.
  destruct (b_ip (f_bt f)) as [ip|] eqn:Eip.
  2:{ apply (fi_idle _ _ _ _ I) in Eip. congruence. }
  assert (Sk : b_skip (f_bt f) = false) by (rewrite (fi_skip _ _ _ _ I), Ep by congruence; reflexivity).
  assert (R1 : refs ip 1 = None) by (apply (fi_early _ _ _ _ I); auto; now rewrite Ep).
  destruct (ch_dirty (f_bt f)) eqn:Ed.
  - destruct (Hl ip Eip Ed) as (No & Sm & (L & EL & HL)).
    destruct (alloc_trans_ok sm A (f_bt f) ip L (fi_bt _ _ _ _ I) Eip R1 Sk EL) as
      (s' & ip' & off & E & I' & D' & E1 & P & E2 & E3 & E4 & E5 & E6); [unfold LIM; auto|].
    rewrite E, E1. cbv zeta in *. set (e := (off, Z.to_N (size_on_disk ip))) in *.
    assert (Hip' : In ip' (trs s')) by (now apply in_trs_ip).
    destruct (bi_wf _ _ _ I' _ Hip') as (W' & C'). pose proof (bi_ba _ _ _ I') as Ib'.
    assert (Ge : 0 < snd e) by (eapply (owned_good s' _ 1 e); [exact Ib'|cbn; auto]).
    pose proof (put_refs _ _ _ _ P Ge) as Ri. destruct P as (P1 & P2 & P3 & P4).
    assert (Hs : size_on_disk ip' = size_on_disk ip) by (unfold size_on_disk; now rewrite P1).
    assert (Hs' : Z.to_N (size_on_disk ip) = 20 + 16 * Z.to_N (t_snub ip')).
    { unfold size_on_disk. rewrite P1. pose proof (sw_snub _ W') as Q. lia. }
    assert (Hsz : (0 <= size_on_disk ip)%Z) by (unfold size_on_disk; pose proof (sw_snub _ W'); lia).
    assert (K : ser_ok ip' off).
    { eapply (ser_ok_of s' ((1%nat, e) :: A)); eauto; [lia| |].
      - rewrite P4. cbn [Nat.eqb]. unfold new_pair, e. cbn [fst snd]. rewrite Z2N.id, Hs by auto. reflexivity.
      - rewrite Hs. left. reflexivity. }
    rewrite (ser_trans_ok _ _ K). intros Q. injection Q as <-.
    exists ((1%nat, e) :: A). exists a. split; [|constructor].
    pose proof (owned_good s' _ 1 e Ib' ltac:(left; reflexivity)) as (G1 & G2 & G3 & G4).
    assert (Far : forall i g x, In (i, g) A -> in_ext x g -> ~ (off <= x < off + len (stored ip'))).
    { intros i g x Hg Hx. rewrite (stored_len _ _ K), <- Hs'. intros C.
      pose proof (owned_good s' _ i g Ib' ltac:(right; exact Hg)) as (K1 & K2 & K3 & K4).
      pose proof (ai_disj _ _ _ _ Ib') as D. cbn [map snd pdisj] in D. destruct D as (D & _). rewrite Forall_forall in D.
      assert (Dg : disj e g) by (apply D, in_map_iff; exists (i, g); auto).
      exact (roundup_4096 e g x G3 K3 G1 K1 Dg C Hx). }
    set (disk' := put_bytes (f_disk f) off (stored ip')).
    assert (Dk : forall i g x, In (i, g) A -> in_ext x g -> f_disk f x = disk' x).
    { intros i g x Hg Hx. symmetry. apply put_other. eapply Far; eauto. }
    assert (Tk : forall i g x, In (i, g) A -> in_ext x g -> in_range off (len (stored ip')) x = false).
    { intros i g x Hg Hx. destruct (in_range off (len (stored ip')) x) eqn:R; auto. apply in_range_iff in R. exfalso. eapply Far; eauto. }
    pose proof (finv_ext _ _ _ _ I) as Ext. assert (Xip : forall i g, refs ip i = Some g -> In (i, g) A).
    { intros i g. apply Ext. now apply in_trs_ip. }
    assert (Xcu : forall i g, refs (b_cur (f_bt f)) i = Some g -> In (i, g) A).
    { intros i g. apply Ext. cbn; auto. }
    assert (Xcp : forall i g, refs (b_cp (f_bt f)) i = Some g -> In (i, g) A).
    { intros i g. apply Ext. unfold trs; cbn; auto. }
    clear Ext. unfold with_phase, pwrite, with_bt. fields. fold disk'.
    destruct I. constructor; fields; auto; try (intros; discriminate).
    + rewrite E1. split; discriminate.
    + rewrite E4. auto.
    + rewrite E2. auto.
    + rewrite E2. eapply img_disk; [|exact fi_cur]. intros i g x Hr Hx. eapply Dk; eauto.
    + intros t Ht. assert (t = ip') by congruence. subst t. destruct (fi_ip _ Eip) as (m & M1 & M2 & M3). exists m.
      split; auto. split; auto. apply img_refs with (t := ip).
      { intros i Hi. rewrite Ri. destruct (Nat.eqb_spec i 1); [lia|auto]. }
      eapply img_disk; [|exact M2]. intros i g x Hr Hx. eapply Dk; eauto.
    + intros t Ht _. assert (t = ip') by congruence. subst t. split.
      * intros o Ho. rewrite Ri. destruct (Nat.eqb_spec (o_blk o) 1) as [C|_]; [|auto].
        destruct fi_out as (_ & O2). destruct (O2 _ Ho). lia.
      * exists off. split; auto. split; [rewrite Ri; cbn [Nat.eqb]; unfold e; now rewrite Hs'|]. split; [lia|].
        unfold disk'. rewrite pread_put.
        -- eapply stored_first; eauto.
        -- rewrite (stored_len _ _ K). apply roundup_bound. lia.
    + rewrite E3. split; [apply fi_cp|]. intros i g x Hr Hx. rewrite (Tk i g x); [|apply Xcp; auto|auto].
      cbn [orb]. eapply fi_cp; eauto.
    + unfold cp_count, dirty_of in *. fields. rewrite Ep in *. destruct (s_cp a) as [(m & u)|].
      * rewrite E3. destruct fi_cpimg as (Q1 & h & Q2 & Q3 & Q4 & Q5 & Q6 & Q7 & Q8). split.
        { eapply img_disk; [|exact Q1]. intros i g x Hr Hx. eapply Dk; eauto. }
        exists h. split; auto. split; auto. split; auto. split.
        { destruct Q5 as [B1 B2 B3 B4 B5]. constructor; auto. rewrite <- B5. apply pread_ext. intros x Hx. symmetry.
          apply (Dk 1%nat (hd_toff h, hd_tsize h) x); [apply Xcp; auto|exact Hx]. }
        split; [discriminate|]. split; [|discriminate]. intros _ C. congruence.
      * destruct fi_cpimg as (Q1 & Q2 & Q3 & Q4). repeat split; auto; try congruence; discriminate.
    + rewrite E5. intros _. apply fi_userd. congruence.
    + rewrite Ep in fi_h. auto.
    + rewrite Ep in fi_other. auto.
    + rewrite Ep in fi_none. auto.
  - intros Q. injection Q as <-. exists A, a. split; [|constructor].
    destruct (skip_ok sm A (f_bt f) (fi_bt _ _ _ _ I) (fi_dirty _ _ _ _ I) Ed) as (I' & D').
    unfold with_phase, with_bt. fields. destruct I. constructor; fields; unfold skip_ckpt; fields; auto; try (intros; discriminate).
    + rewrite Eip. split; discriminate.
    + rewrite Ep in fi_early. auto.
    + unfold cp_count, dirty_of in *. fields. rewrite Ep in *. destruct (s_cp a) as [(m & u)|].
      * destruct fi_cpimg as (Q1 & h & Q2 & Q3 & Q4 & Q5 & Q6 & Q7 & Q8). split; auto. exists h.
        split; auto. split; auto. split; auto. split; auto. split; [discriminate|]. split; intros _; [intros _|]; (apply Q7; auto; discriminate).
      * destruct fi_cpimg as (Q1 & Q2 & Q3 & Q4). congruence.
    + intros _. apply fi_userd. congruence.
    + rewrite Ep in fi_h. auto.
    + rewrite Ep in fi_other. auto.
    + rewrite Ep in fi_none. auto.
Qed.

Theorem step_sync sm A f a f' : finv sm A f a -> step f OSync = Some f' -> post sm f f' a OSync.
Proof.
  intros I. cbn [step]. unfold do_sync. destruct (f_phase f) eqn:Ep; try discriminate. intros Q. injection Q as <-.
  exists A, a. split; [|constructor]. unfold with_phase, fsync. fields.
  destruct I. rewrite Ep in *. constructor; fields; auto; try (intros; discriminate).
  - split; [discriminate|]. intros C. apply fi_idle in C. discriminate.
  - intros _. apply fi_skip. discriminate.
  - intros ip H _ i e x _ _. reflexivity.
  - split; [apply fi_cp|]. intros i e x _ _. reflexivity.
  - unfold cp_count, dirty_of in *. fields. rewrite Ep in *. destruct (s_cp a) as [(m & u)|].
    + destruct fi_cpimg as (Q1 & h & Q2 & Q3 & Q4 & Q5 & Q6 & Q7 & Q8). split; auto. exists h.
      split; auto. split; auto. split; auto. split; auto. split; [discriminate|]. split; [|discriminate].
      intros _. apply Q7. discriminate.
    + destruct fi_cpimg as (Q1 & Q2 & Q3 & Q4). repeat split; auto. discriminate.
  - intros _. apply fi_userd. discriminate.
Qed.

Lemma slot_succ c : slot_of (c + 1) = negb (slot_of c).
Proof. unfold slot_of. rewrite N.add_1_r, N.odd_succ, <- N.negb_odd. reflexivity. Qed.
Lemma slot_neq c : Bool.eqb (slot_of c) (slot_of (c + 1)) = false.
Proof. rewrite slot_succ. now destruct (slot_of c). Qed.
Lemma slot_self k : Bool.eqb k k = true. Proof. now destruct k. Qed.

Theorem step_hdr sm A f a f' : finv sm A f a -> step f OHdr = Some f' -> post sm f f' a OHdr.
Proof.
  intros I. cbn [step]. unfold do_hdr. destruct (f_phase f) eqn:Ep; try discriminate.
  destruct (b_ip (f_bt f)) as [ip|] eqn:Eip; [|discriminate].
  destruct (fi_late _ _ _ _ I ip Eip) as (No & off & K & R & Sm & Dk); [now rewrite Ep|].
  assert (G : get (t_arr ip) B_TRANS = Some (mkP (Z.of_N off) (size_on_disk ip))) by exact (so_trans _ _ K).
  rewrite G. cbn [p_off p_size]. intros Q. injection Q as <-. exists A. eexists. split; [|constructor].
  pose proof (so_snub _ _ K) as Sn. pose proof (so_off _ _ K) as So.
  assert (U1 : to_u64 (Z.of_N off) = off) by (rewrite u64_small by lia; lia).
  assert (U2 : to_u64 (size_on_disk ip) = 20 + 16 * Z.to_N (t_snub ip)).
  { unfold size_on_disk. rewrite u64_small by lia. lia. }
  rewrite U1, U2. destruct I. rewrite Ep in *. constructor; fields; auto; try (intros; discriminate).
  - rewrite Eip. split; discriminate.
  - intros _. apply fi_skip. discriminate.
  - unfold cp_count, dirty_of in *. fields. rewrite Ep in *. unfold set_slot. rewrite slot_neq. destruct (s_cp a) as [(m & u)|].
    + destruct fi_cpimg as (Q1 & h & Q2 & Q3 & Q4 & Q5 & Q6 & Q7 & Q8). split; auto. exists h.
      split; auto. split; auto. split; auto. split; auto. split; [discriminate|]. split; [|discriminate].
      intros _. apply Q7. discriminate.
    + destruct fi_cpimg as (Q1 & Q2 & Q3 & Q4). repeat split; auto. discriminate.
  - intros _. apply fi_userd. discriminate.
  - intros t Ht _. assert (t = ip) by congruence. subst t. unfold cp_count. fields. unfold set_slot. rewrite slot_self.
    eexists. split; [reflexivity|]. unfold ihdr, cp_count. fields. cbn [hd_count hd_lsn hd_user].
    split; auto. split; auto. split; auto. constructor; cbn [hd_toff hd_tsize]; auto.
Qed.

Theorem step_hdr_sync sm A f a f' : finv sm A f a -> step f OHdrSync = Some f' -> post sm f f' a OHdrSync.
Proof.
  intros I. cbn [step]. unfold do_hdr_sync. destruct (f_phase f) eqn:Ep; try discriminate. intros Q. injection Q as <-.
  exists A. eexists. split; [|constructor]. unfold fsync. fields.
  destruct I. rewrite Ep in *. constructor; fields; auto; try (intros; discriminate).
  - split; [discriminate|]. intros C. apply fi_idle in C. discriminate.
  - intros _. apply fi_skip. discriminate.
  - intros ip H _ i e x _ _. reflexivity.
  - split; [apply fi_cp|]. intros i e x _ _. reflexivity.
  - unfold cp_count, dirty_of in *. fields. rewrite Ep in *. rewrite N.add_sub. destruct (s_cp a) as [(m & u)|].
    + destruct fi_cpimg as (Q1 & h & Q2 & Q3 & Q4 & Q5 & Q6 & Q7 & Q8). split; auto. exists h.
      split; auto. split; auto. split; auto. split; auto. split; [discriminate|]. split; [|discriminate].
      intros _. apply Q7. discriminate.
    + destruct fi_cpimg as (Q1 & Q2 & Q3 & Q4). repeat split; auto. discriminate.
  - intros _. apply fi_userd. discriminate.
  - intros ip Hip _. destruct (fi_new ip Hip) as (h & E & W1 & W2 & W3 & W4); [reflexivity|].
    unfold cp_count in *. fields. rewrite Ep in *. rewrite N.add_sub. exists h. split; auto.
    unfold ihdr, cp_count. fields. rewrite N.add_sub. auto.
  - intros _. lia.
Qed.

Lemma img_nil sm A f a t m : finv sm A f a -> In t (trs (f_bt f)) -> no_out (f_out f) t ->
  img_ok (f_disk f) (f_out f) t m -> img_ok (f_disk f) [] t m.
Proof.
  intros I Ht No K. pose proof (fi_bt _ _ _ _ I) as B.
  exact (img_done (f_bt f) A _ _ t m (bi_ba _ _ _ B) (proj2 (bi_wf _ _ _ B _ Ht)) _ (fi_out _ _ _ _ I) (covers_cur _ _ _ B) No K).
Qed.

Theorem step_end sm A f a junk f' : finv sm A f a -> step f (OEnd junk) = Some f' -> post sm f f' a (OEnd junk).
Proof.
  intros I. cbn [step]. unfold do_end. intros Q.
  assert (Ph : f_phase f = PDone \/ f_phase f = PSkip) by (destruct (f_phase f); try discriminate; auto).
  assert (Q' : (do s <- end_ckpt (f_bt f); do limit <- ba_limit (b_ba s);
    Some (with_phase (cut_off (with_bt f s) limit junk) PIdle)) = Some f') by (destruct Ph as [E|E]; rewrite E in Q; exact Q).
  clear Q. rename Q' into Q.
  destruct (b_ip (f_bt f)) as [ip|] eqn:Eip.
  2:{ apply (fi_idle _ _ _ _ I) in Eip. destruct Ph; congruence. }
  assert (Sk : b_skip (f_bt f) = match f_phase f with PSkip => true | _ => false end).
  { apply (fi_skip _ _ _ _ I). destruct Ph; congruence. }
  destruct (end_ok sm A (f_bt f) ip (fi_bt _ _ _ _ I) Eip) as (_ & H).
  { intros Hs. destruct Ph as [E|E]; rewrite E in Sk; [|congruence].
    destruct (fi_late _ _ _ _ I ip Eip) as (_ & off & _ & R & _); [now rewrite E|]. congruence. }
  destruct (end_ckpt (f_bt f)) as [s'|] eqn:Ee; [|discriminate].
  destruct (H s' eq_refl) as (A' & I' & D' & Inc & E1 & E2 & E3 & E4).
  destruct (limit_ok 8192 4096 ltac:(lia) eq_refl ltac:(lia) ltac:(lia) (b_ba s') (map snd A') (bi_ba _ _ _ I'))
    as (L & EL & _ & HL & _).
  rewrite EL in Q. injection Q as <-.
  destruct (fi_ip _ _ _ _ I ip Eip) as (m & M1 & M2 & M3).
  exists A'. eexists. split; [|constructor].
  unfold with_phase, cut_off, with_bt. fields. rewrite M1.
  set (disk' := fun x => if L <=? x then junk x else f_disk f x).
  assert (Lt : forall i g x, In (i, g) A' -> in_ext x g -> (L <=? x) = false).
  { intros i g x Hg Hx. apply N.leb_gt. assert (ext_end g <= L) by (apply HL, in_map_iff; exists (i, g); auto).
    unfold in_ext in Hx. lia. }
  assert (Dk : forall i g x, In (i, g) A' -> in_ext x g -> f_disk f x = disk' x).
  { intros i g x Hg Hx. unfold disk'. erewrite Lt; eauto. }
  assert (Ecu : forall i g, refs (b_cur (f_bt f)) i = Some g -> In (i, g) A').
  { intros i g Hr. assert (In (b_cur s') (trs s')) as Hc by (cbn; auto).
    destruct (bi_wf _ _ _ I' _ Hc) as (_ & C). apply C. rewrite E1. exact Hr. }
  assert (Ecp : forall i g, refs (b_cp s') i = Some g -> In (i, g) A').
  { intros i g Hr. assert (In (b_cp s') (trs s')) as Hc by (unfold trs; cbn; auto).
    destruct (bi_wf _ _ _ I' _ Hc) as (_ & C). apply C. exact Hr. }
  assert (HD : forall t h, (forall i g, refs t i = Some g -> In (i, g) A') -> hdr_ok (f_disk f) t h -> hdr_ok disk' t h).
  { intros t h Ht [B1 B2 B3 B4 B5]. constructor; auto. rewrite <- B5. apply pread_ext. intros x Hx. symmetry.
    apply (Dk 1%nat (hd_toff h, hd_tsize h) x); [apply Ht; auto|exact Hx]. }
  assert (New : no_out (f_out f) (b_cp s') /\ clean (f_touch f) (b_cp s') /\
    img_ok (f_disk f) [] (b_cp s') m /\
    exists h, f_slot f (slot_of (f_count f)) = Some h /\ hd_count h = f_count f /\ hd_user h = f_iuser f /\
      hdr_ok (f_disk f) (b_cp s') h /\ other_ok (f_count f) (f_slot f (slot_of (f_count f + 1)))).
  { rewrite E3, Sk. destruct Ph as [E|E]; rewrite E.
    - destruct (fi_late _ _ _ _ I ip Eip) as (No & _); [now rewrite E|]. split; auto.
      split; [apply (fi_sync _ _ _ _ I); auto; now rewrite E|]. split; [eapply img_nil; eauto; now apply in_trs_ip|].
      destruct (fi_new _ _ _ _ I ip Eip) as (h & W1 & W2 & W3 & W4 & W5); [now rewrite E|].
      pose proof (fi_cnt _ _ _ _ I E) as Hc. pose proof (fi_cpimg _ _ _ _ I) as Ci. pose proof (fi_none _ _ _ _ I) as Hn.
      unfold cp_count in *. rewrite E in *. replace (f_count f - 1 + 1) with (f_count f) in * by lia.
      assert (Ec : slot_of (f_count f + 1) = slot_of (f_count f - 1)).
      { rewrite slot_succ. replace (f_count f) with (f_count f - 1 + 1) at 1 by lia. rewrite slot_succ. apply negb_involutive. }
      exists h. split; auto. split; auto. split; auto. split; auto.
      rewrite Ec. destruct (s_cp a) as [(m0 & u0)|].
      + destruct Ci as (_ & h0 & Q1 & Q2 & _). rewrite Q1. cbn. left. lia.
      + destruct Ci as (_ & Q2 & _). rewrite Q2. exact Logic.I.
    - pose proof (fi_cp _ _ _ _ I) as (No & Cl). split; auto. split; auto.
      pose proof (fi_cpimg _ _ _ _ I) as Ci. unfold cp_count in Ci. rewrite E in Ci.
      destruct (s_cp a) as [(m0 & u0)|]; [|destruct Ci as (_ & _ & _ & C); congruence].
      destruct Ci as (Q1 & h & Q2 & Q3 & Q4 & Q5 & Q6 & Q7 & Q8). split.
      + destruct (bi_skip _ _ _ (fi_bt _ _ _ _ I) ip Eip) as (Sr & _); [now rewrite Sk, E|].
        eapply img_nil; eauto; [unfold trs; cbn; auto|]. eapply img_refs; [|exact M2]. intros i Hi. symmetry. apply Sr. lia.
      + exists h. rewrite Q8 by auto. split; auto. split; auto. split; auto. split; auto.
        apply (fi_other _ _ _ _ I). now rewrite E. }
  destruct New as (N1 & N2 & N3 & h & N4 & N5 & N6 & N7 & N8).
  pose proof (fi_userd _ _ _ _ I) as Ud.
  destruct I. constructor; fields; auto; try (intros; discriminate); try (intros; congruence).
  - rewrite E2. split; auto.
  - rewrite E1. eapply img_disk; [|exact fi_cur]. intros i g x Hr Hx. eapply Dk; eauto.
  - split; auto. intros i e x Hr Hx. rewrite (Lt i e x); auto. cbn [orb]. eapply N2; eauto.
  - unfold cp_count, dirty_of. fields. split.
    + eapply img_disk; [|exact N3]. intros i g x Hr Hx. eapply Dk; eauto.
    + exists h. split; auto. split; auto. split; auto. split; [apply HD; auto|]. split; [|split; [congruence|discriminate]].
      intros Hd _. apply Ud; [destruct Ph; congruence|congruence].
Qed.

(** * Crash *)
Lemma choose_ok (slot : bool -> option hdr) k h max : slot k = Some h -> hd_lsn h <= max ->
  (forall h', slot (negb k) = Some h' -> hd_lsn h' <= max -> hd_count h' + 1 = hd_count h) ->
  choose (slot true) (slot false) max = Some (Some h).
Proof.
  intros E Ha Ho. unfold choose.
  assert (A1 : acceptable (slot k) max = true) by (rewrite E; now apply N.leb_le).
  destruct (acceptable (slot (negb k)) max) eqn:A2.
  - destruct (slot (negb k)) as [h'|] eqn:E'; [|discriminate]. cbn [acceptable] in A2. apply N.leb_le in A2.
    pose proof (Ho h' eq_refl A2) as Hc. apply N.leb_le in A2. apply N.leb_le in Ha.
    destruct k; cbn [negb] in *; rewrite E, E' in *; cbn [acceptable]; rewrite ?Ha, ?A2; cbn [orb andb negb].
    + destruct (N.ltb_spec (hd_count h') (hd_count h)); [|lia].
      destruct (N.eqb_spec (hd_count h) (hd_count h' + 1)); [reflexivity|lia].
    + destruct (N.ltb_spec (hd_count h) (hd_count h')); [lia|].
      destruct (N.eqb_spec (hd_count h) (hd_count h' + 1)); [reflexivity|lia].
  - destruct k; cbn [negb] in *; rewrite A1, A2; cbn [orb andb negb]; now rewrite E.
Qed.

Lemma arr_all t : length (t_arr t) = snub t -> mkT (t_snub t) (t_head t) (firstn (Z.to_nat (t_snub t)) (t_arr t)) = t.
Proof. unfold snub. intros H. rewrite <- H, firstn_all. destruct t; reflexivity. Qed.

Lemma reopen_ok (sm : Prop) A s t disk slot max h m lsn : binv s A -> swf t -> covers A t -> length (t_arr t) = snub t ->
  (sm -> (t_snub t <= 8192)%Z) -> hdr_ok disk t h -> img_ok disk [] t m ->
  slot (slot_of (hd_count h)) = Some h -> other_ok (hd_count h) (slot (slot_of (hd_count h + 1))) ->
  choose (slot true) (slot false) max = Some (Some h) ->
  exists f' A', reopen disk slot max = Some (Some f') /\
    finv sm A' f' (mkS (m, hd_user h) None (Some (m, hd_user h)) lsn HNone).
Proof.
  intros I W C Hl Hsm [B1 B2 B3 B4 B5] Im Es Eo Ec. unfold reopen. rewrite Ec.
  pose proof (so_off _ _ B2) as Ho.
  destruct (N.eqb_spec (hd_toff h) 0) as [Q|_]; [lia|]. destruct (N.eqb_spec (hd_tsize h) 0) as [Q|_]; [lia|]. cbn [negb].
  pose proof (deser_ser_app t (hd_toff h) [] B2 B3) as D. rewrite app_nil_r, (arr_all _ Hl) in D.
  rewrite B5, B4, D.
  destruct (bt_open_ok sm A s t I W C Hl) as (s' & A' & E & I' & D' & Inc & E1 & E2 & E3 & E4 & E5); [congruence|auto|].
  rewrite E. eexists. exists A'. split; [reflexivity|].
  constructor; fields; auto; try (intros; discriminate); try (intros; congruence).
  - rewrite E1. split; auto.
  - split; [constructor|]. intros o [].
  - eapply img_refs; [|exact Im]. intros i Hi. apply E3. lia.
  - rewrite E2. split; [intros o []|]. intros i e x _ _. reflexivity.
  - rewrite E2. unfold cp_count, dirty_of. fields. split; auto. exists h. split; auto. split; auto. split; auto.
    split; [constructor; auto|]. split; auto. split; [congruence|discriminate].
Qed.

Lemma crash_pread f junk off n : (forall x, off <= x < off + n -> f_touch f x = false) ->
  pread (crash_disk f junk) off n = pread (f_disk f) off n.
Proof. intros H. apply pread_ext. intros x Hx. unfold crash_disk. now rewrite H. Qed.
Lemma crash_hdr f junk t h : clean (f_touch f) t -> hdr_ok (f_disk f) t h -> hdr_ok (crash_disk f junk) t h.
Proof.
  intros C [B1 B2 B3 B4 B5]. constructor; auto. rewrite <- B5. apply crash_pread. intros x Hx. eapply C; [exact B1|exact Hx].
Qed.
Lemma crash_img f junk t m : clean (f_touch f) t -> img_ok (f_disk f) [] t m -> img_ok (crash_disk f junk) [] t m.
Proof.
  intros C. apply img_disk. intros i e x Hr Hx. unfold crash_disk. now rewrite (C i e x).
Qed.

Theorem crash_ok sm A f a junk t max : finv sm A f a -> legal sm f (OCrash junk t max) ->
  (exists f', step f (OCrash junk t max) = Some f' /\ post sm f f' a (OCrash junk t max)) \/
  (s_cp a = None /\ do_crash f junk t max = Some None).
Proof.
  intros I (La & Lg). cbn [step]. unfold do_crash.
  set (c := cp_count f) in *. set (slot := crash_slot f t).
  assert (P1 : slot (slot_of c) = f_slot f (slot_of c)).
  { unfold slot, crash_slot. unfold c, cp_count in *. destruct (f_phase f); auto.
    destruct t; auto; unfold set_slot; now rewrite slot_neq. }
  assert (P2 : (other_ok c (slot (slot_of (c + 1))) /\ ghost c (slot (slot_of (c + 1))) max /\
        (s_cp a = None -> slot (slot_of (c + 1)) = None) /\ s_h a <> HDurable) \/
      (s_h a <> HNone /\ exists ip h, b_ip (f_bt f) = Some ip /\ synced (f_phase f) = true /\ late (f_phase f) = true /\
         slot (slot_of (c + 1)) = Some h /\ ihdr f ip h)).
  { unfold slot, crash_slot. pose proof (fi_other _ _ _ _ I) as Fo. pose proof (fi_none _ _ _ _ I) as Fn.
    pose proof (fi_old _ _ _ _ I) as Fl. pose proof (fi_h _ _ _ _ I) as Fh. pose proof (fi_new _ _ _ _ I) as Fw.
    pose proof (fi_idle _ _ _ _ I) as Fi. fold c in Fw. unfold ihdr in *. fold c.
    assert (Hc : f_phase f <> PDone -> c = f_count f) by (unfold c, cp_count; destruct (f_phase f); congruence).
    destruct (f_phase f) eqn:Ep; try (left; rewrite Hc by discriminate; rewrite Fh; repeat split; auto; discriminate).
    - (* PHdr *)
      destruct (b_ip (f_bt f)) as [ip|] eqn:Eip; [|assert (PHdr = PIdle) by tauto; discriminate].
      rewrite Hc in * by discriminate. destruct t.
      + left. unfold set_slot. rewrite slot_self, Fh. repeat split; auto. discriminate.
      + right. rewrite Fh. split; [discriminate|]. destruct (Fw ip eq_refl eq_refl) as (h & W1 & W2). exists ip, h.
        change (cp_count f) with c in W2. rewrite Hc in W2 by discriminate. auto 10.
      + left. unfold set_slot. rewrite slot_self, Fh. repeat split; auto; discriminate.
    - (* PDone *)
      destruct (b_ip (f_bt f)) as [ip|] eqn:Eip; [|assert (PDone = PIdle) by tauto; discriminate].
      right. rewrite Fh. split; [discriminate|]. destruct (Fw ip eq_refl eq_refl) as (h & W1 & W2). exists ip, h. auto 10. }
  pose proof (fi_cpimg _ _ _ _ I) as Ci. fold c in Ci. pose proof (fi_cp _ _ _ _ I) as (_ & Ccp).
  pose proof (fi_bt _ _ _ _ I) as B.
  (* going back to the last finished checkpoint *)
  assert (Cp : other_ok c (slot (slot_of (c + 1))) ->
      (forall h', slot (slot_of (c + 1)) = Some h' -> hd_lsn h' <= max -> hd_count h' + 1 = c) ->
      (s_cp a = None -> acceptable (slot (slot_of (c + 1))) max = false) ->
      ~ (s_h a = HDurable /\ s_lsn a <= max) ->
      (exists f', (do r <- reopen (crash_disk f junk) slot max; r) = Some f' /\ post sm f f' a (OCrash junk t max)) \/
      (s_cp a = None /\ reopen (crash_disk f junk) slot max = Some None)).
  { intros X1 X2 X3 X4. destruct (s_cp a) as [(m & u)|] eqn:Ecp.
    - left. destruct Ci as (Q1 & h & Q2 & Q3 & Q4 & Q5 & _).
      assert (Hcp : In (b_cp (f_bt f)) (trs (f_bt f))) by (unfold trs; cbn; auto).
      destruct (bi_wf _ _ _ B _ Hcp) as (W & Cv).
      destruct (reopen_ok sm A (f_bt f) (b_cp (f_bt f)) (crash_disk f junk) slot max h m (s_lsn a)) as (f' & A' & E & I'); auto.
      + apply (bi_ba _ _ _ B).
      + apply (bi_len_cp _ _ _ B).
      + intros Hs. apply (bi_sm _ _ _ B Hs _ Hcp).
      + apply crash_hdr; auto.
      + apply crash_img; auto.
      + rewrite Q3. congruence.
      + rewrite Q3. auto.
      + apply choose_ok with (k := slot_of c); auto; [congruence|]. rewrite <- slot_succ, Q3. auto.
      + rewrite E. exists f'. split; auto. exists A'. eexists. split; [exact I'|]. rewrite Q4. apply ss_crash_cp; auto.
    - right. split; auto. destruct Ci as (Q1 & Q2 & _). specialize (X3 eq_refl). unfold reopen.
      replace (choose (slot true) (slot false) max) with (Some (@None hdr)); auto. unfold choose.
      rewrite slot_succ in X3. rewrite <- P1 in Q2. destruct (slot_of c); cbn [negb] in *; rewrite Q2, X3; cbn [acceptable orb negb].
      + cbn. reflexivity.
      + rewrite andb_false_r. reflexivity. }
  destruct P2 as [(X1 & X2 & X3 & X4)|(X1 & ip & h & X2 & X3 & X4 & X5 & X6)].
  - apply Cp; auto.
    + intros h' E Hl. rewrite E in *. cbn in X1. destruct X1 as [X1|X1]; auto. pose proof (X2 h' eq_refl X1). lia.
    + intros E. rewrite X3; auto.
    + tauto.
  - destruct X6 as (W1 & W2 & W3 & W4). fold c in W1. destruct (fi_ip _ _ _ _ I ip X2) as (m & M1 & M2 & M3).
    destruct (N.leb_spec (f_ilsn f) max) as [Hl|Hl].
    + left. assert (Hip : In ip (trs (f_bt f))) by (now apply in_trs_ip). destruct (bi_wf _ _ _ B _ Hip) as (W & Cv).
      assert (Cl : clean (f_touch f) ip) by (apply (fi_sync _ _ _ _ I); auto).
      destruct (fi_late _ _ _ _ I ip X2 X4) as (No & _).
      assert (So : forall h', slot (slot_of c) = Some h' -> hd_count h' = c).
      { intros h' E. rewrite P1 in E. destruct (s_cp a) as [(m0 & u0)|].
        - destruct Ci as (_ & h0 & Q2 & Q3 & _). congruence.
        - destruct Ci as (_ & Q2 & _). congruence. }
      assert (Ec : slot_of (c + 1 + 1) = slot_of c) by (rewrite !slot_succ; apply negb_involutive).
      destruct (reopen_ok sm A (f_bt f) ip (crash_disk f junk) slot max h m (s_lsn a)) as (f' & A' & E & I'); auto.
      * apply (bi_ba _ _ _ B).
      * apply (bi_len_ip _ _ _ B); auto.
      * intros Hs. apply (bi_sm _ _ _ B Hs _ Hip).
      * apply crash_hdr; auto.
      * apply crash_img; auto. eapply img_nil; eauto.
      * congruence.
      * rewrite W1, Ec. destruct (slot (slot_of c)) as [h'|]; [|exact Logic.I]. left. rewrite (So h' eq_refl). reflexivity.
      * apply choose_ok with (k := slot_of (c + 1)); auto; [lia|]. rewrite <- slot_succ, Ec. intros h' E _. rewrite (So h' E). lia.
      * rewrite E. exists f'. split; auto. exists A'. eexists. split; [exact I'|]. rewrite W3. apply ss_crash_ip; auto. congruence.
    + apply Cp; rewrite ?X5.
      * right. auto.
      * intros h' E C. assert (h' = h) by congruence. subst h'. lia.
      * intros _. cbn. apply N.leb_gt. lia.
      * lia.
Qed.
