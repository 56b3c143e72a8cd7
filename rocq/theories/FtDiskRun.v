(** Runs of a dictionary file: every legal run refines the specification. *)
From Coq Require Import List ZArith NArith Lia Permutation.
From Verif Require Import Base Bytes MhsModel MhsProofs MhsHoles BlkAllocModel BlkAllocProofs BlkTableModel BlkTableProofs
  TransCodecModel TransCodecProofs BlkTableInv BlkTableOpen FtDiskModel FtDiskSpec FtDiskInv FtDiskProofs.
Open Scope N_scope.

(** [run sm u l f]: a file created with header [u] is in state [f] after the operations [l],
    each of them legal when it was made.  With [sm] no block number above 8191 was used. *)
Inductive run (sm : Prop) (u : bytes) : list op -> fts -> Prop :=
| run_init f : f_init u = Some f -> run sm u [] f
| run_step l f o f' : run sm u l f -> legal sm f o -> step f o = Some f' -> run sm u (l ++ [o]) f'.

Inductive sruns (u : bytes) : list op -> spec -> Prop :=
| sr_init : sruns u [] (spec_init u)
| sr_step l a o a' : sruns u l a -> sstep a o a' -> sruns u (l ++ [o]) a'.

Definition completed (l : list op) : Prop := exists junk, In (OEnd junk) l.

Lemma init_ok sm u : exists f, f_init u = Some f /\ finv sm [] f (spec_init u).
Proof.
  destruct (bt_create_ok sm) as (s0 & E0 & I0 & D0 & B1 & B2 & B3 & B4 & B5).
  destruct (alloc_blocknum_inv sm [] s0 I0) as (s & n & E & I & D & Hn & Fr & En & Eo & R & E1 & E2 & E3 & E4 & E5 & E6).
  { intros _. right. rewrite B5. lia. }
  unfold f_init. rewrite E0, E. eexists. split; [reflexivity|].
  assert (Rn : forall i, refs (b_cp s) i = None) by (intros i; rewrite E2; apply B3).
  constructor; cbn [spec_init f_bt f_disk f_touch f_slot f_old f_count f_lsn f_user f_ilsn f_iuser f_pend f_out f_phase s_cur s_ip s_cp s_lsn s_h fst snd];
    auto; try (intros; discriminate); try (intros; congruence).
  - rewrite E1. split; auto.
  - split; [constructor|intros o []].
  - intros i Hi. rewrite R, B2. reflexivity.
  - split; [intros o []|]. intros i e x _ _. reflexivity.
  - unfold cp_count, dirty_of. cbn [f_phase f_bt f_count]. repeat split; auto. discriminate.
  - intros _. exact Logic.I.
Qed.

(** The operations whose success depends on the phase only. *)
Definition enabled (f : fts) (o : op) : Prop :=
  match o with
  | OPwrite b => In b (map o_blk (f_out f))
  | OFsync => f_phase f <> PHdr
  | OStart _ => f_phase f = PIdle
  | OTrans => f_phase f = PStarted
  | OSync => f_phase f = PTrans
  | OHdr => f_phase f = PSynced
  | OHdrSync => f_phase f = PHdr
  | OEnd _ => f_phase f = PDone \/ f_phase f = PSkip
  | _ => True
  end.

Theorem step_post sm A f a o f' : finv sm A f a -> legal sm f o -> step f o = Some f' -> post sm f f' a o.
Proof.
  intros I L E. destruct o.
  - destruct (step_alloc sm A f a I L) as (g & G & P). congruence.
  - destruct (step_free sm A f a b ck I L) as (g & G & P). congruence.
  - destruct (step_write sm A f a b d ck I L) as (g & G & P). congruence.
  - destruct (step_desc sm A f a d I L) as (g & G & P). congruence.
  - eapply step_pwrite; eauto.
  - destruct (step_user sm A f a u I) as (g & G & P). congruence.
  - eapply step_fsync; eauto.
  - eapply step_start; eauto.
  - eapply step_trans; eauto.
  - eapply step_sync; eauto.
  - eapply step_hdr; eauto.
  - eapply step_hdr_sync; eauto.
  - eapply step_end; eauto.
  - destruct (crash_ok sm A f a junk t max I L) as [(g & G & P)|(_ & G)]; [congruence|].
    cbn [step] in E. rewrite G in E. discriminate.
Qed.

Theorem run_ok sm u l f : run sm u l f -> exists A a, finv sm A f a /\ sruns u l a /\ (completed l -> s_cp a <> None).
Proof.
  induction 1 as [f H|l f o f' R IH L E].
  - destruct (init_ok sm u) as (g & G & I). assert (g = f) by congruence. subst g.
    exists [], (spec_init u). split; auto. split; [constructor|]. intros (j & []).
  - destruct IH as (A & a & I & S & C). destruct (step_post _ _ _ _ _ _ I L E) as (A' & a' & I' & S').
    exists A', a'. split; auto. split; [econstructor; eauto|].
    intros (j & Hj). apply in_app_or in Hj.
    assert (K : s_cp a <> None -> s_cp a' <> None \/ exists junk, o = OEnd junk).
    { intros Hc. inversion S'; subst; cbn [s_cp]; auto; try (left; congruence). right. eauto. }
    assert (Ce : forall junk, o = OEnd junk -> s_cp a' <> None).
    { intros junk ->. inversion S'; subst. cbn [s_cp]. cbn [step] in E. unfold do_end in E.
      destruct (b_ip (f_bt f)) as [ip|] eqn:Eip.
      - destruct (fi_ip _ _ _ _ I ip Eip) as (m & M & _). congruence.
      - apply (fi_idle _ _ _ _ I) in Eip. rewrite Eip in E. discriminate. }
    destruct Hj as [Hj|[Hj|[]]].
    + destruct K as [K|(junk & ->)]; eauto. apply C. exists j; auto.
    + eauto.
Qed.

(** Reading a block. *)
Lemma read_refs sm A f a i : finv sm A f a ->
  read_block f i = match refs (b_cur (f_bt f)) i with Some e => Some (pread_e (f_disk f) e) | None => None end.
Proof.
  intros I. unfold read_block. rewrite refs_at. unfold ent. destruct (nth_error (t_arr (b_cur (f_bt f))) i) as [p|] eqn:E; auto.
  destruct (Z.ltb_spec 0 (p_size p)) as [Hp|]; auto.
  assert (R : refs (b_cur (f_bt f)) i = Some (Z.to_N (p_off p), Z.to_N (p_size p))).
  { rewrite refs_at. unfold ent. rewrite E. destruct (Z.ltb_spec 0 (p_size p)); [auto|lia]. }
  pose proof (covers_cur _ _ _ (fi_bt _ _ _ _ I) _ _ R) as Hin.
  pose proof (owned_good _ _ _ _ (bi_ba _ _ _ (fi_bt _ _ _ _ I)) Hin) as (G1 & G2 & G3 & G4).
  unfold ext_end, LIM in *. cbn [fst snd] in *. unfold pread_e. cbn [fst snd].
  rewrite !u64_small by lia. reflexivity.
Qed.
Lemma read_ok sm A f a i : finv sm A f a -> (2 <= i)%nat -> idle_blk f i -> read_block f i = fst (s_cur a) i.
Proof.
  intros I Hi Hid. rewrite (read_refs _ _ _ _ _ I). pose proof (fi_cur _ _ _ _ I i Hi) as K.
  destruct (refs (b_cur (f_bt f)) i) as [e|]; [|congruence].
  destruct K as (d & K1 & [K2|(_ & K3)]); [|congruence]. exfalso. destruct K2 as (o & K2 & K3 & _).
  apply Hid. rewrite <- K3. now apply in_map.
Qed.

(** Progress: a legal operation made in the right phase does not fail, except possibly the
    end of a checkpoint, and that not with [sm]. *)
Theorem step_alive sm A f a o : finv sm A f a -> legal sm f o -> enabled f o ->
  match o with OEnd _ => sm | OCrash _ _ _ => s_cp a <> None | _ => True end -> exists f', step f o = Some f'.
Proof.
  intros I L En Hs. destruct o; cbn [enabled] in En.
  - destruct (step_alloc sm A f a I L) as (g & G & P). eauto.
  - destruct (step_free sm A f a b ck I L) as (g & G & P). eauto.
  - destruct (step_write sm A f a b d ck I L) as (g & G & P). eauto.
  - destruct (step_desc sm A f a d I L) as (g & G & P). eauto.
  - cbn [step]. unfold do_pwrite. assert (T : exists x, take_out (f_out f) b = Some x).
    { induction (f_out f) as [|o l IH]; cbn [map] in En; [destruct En|]. cbn [take_out]. destruct (Nat.eqb_spec (o_blk o) b); eauto.
      destruct En as [En|En]; [contradiction|]. destruct (IH En) as ((x & r) & ->). eauto. }
    destruct T as ((x & r) & ->). eauto.
  - destruct (step_user sm A f a u I) as (g & G & P). eauto.
  - cbn [step]. destruct (f_phase f); eauto. congruence.
  - cbn [step]. unfold do_start. rewrite En.
    destruct (start_ok sm A (f_bt f) (fi_bt _ _ _ _ I)) as (s' & ip & E & _); [now apply (fi_idle _ _ _ _ I)|]. rewrite E. eauto.
  - cbn [step]. unfold do_trans. rewrite En. destruct (ch_dirty (f_bt f)) eqn:Ed; [|eauto].
    destruct (b_ip (f_bt f)) as [ip|] eqn:Eip.
    2:{ apply (fi_idle _ _ _ _ I) in Eip. congruence. }
    assert (Sk : b_skip (f_bt f) = false) by (rewrite (fi_skip _ _ _ _ I), En by congruence; reflexivity).
    assert (R1 : refs ip 1 = None) by (apply (fi_early _ _ _ _ I); auto; now rewrite En).
    destruct (L ip Eip Ed) as (No & Sm & (lim & EL & HL)).
    destruct (alloc_trans_ok sm A (f_bt f) ip lim (fi_bt _ _ _ _ I) Eip R1 Sk EL) as
      (s' & ip' & off & E & I' & D' & E1 & P & _); [unfold LIM; auto|].
    rewrite E, E1. cbv zeta in *. set (e := (off, Z.to_N (size_on_disk ip))) in *.
    assert (Hip' : In ip' (trs s')) by (now apply in_trs_ip).
    destruct (bi_wf _ _ _ I' _ Hip') as (W' & C'). pose proof (bi_ba _ _ _ I') as Ib'. destruct P as (P1 & P2 & P3 & P4).
    assert (Hs' : size_on_disk ip' = size_on_disk ip) by (unfold size_on_disk; now rewrite P1).
    assert (Hsz : (0 <= size_on_disk ip)%Z) by (unfold size_on_disk; pose proof (sw_snub _ W'); lia).
    assert (K : ser_ok ip' off).
    { eapply (ser_ok_of s' ((1%nat, e) :: A)); eauto; [lia| |].
      - rewrite P4. cbn [Nat.eqb]. unfold new_pair, e. cbn [fst snd]. rewrite Z2N.id, Hs' by auto. reflexivity.
      - rewrite Hs'. left. reflexivity. }
    rewrite (ser_trans_ok _ _ K). eauto.
  - cbn [step]. unfold do_sync. rewrite En. eauto.
  - cbn [step]. unfold do_hdr. rewrite En. destruct (b_ip (f_bt f)) as [ip|] eqn:Eip.
    + destruct (fi_late _ _ _ _ I ip Eip) as (No & off & K & _); [now rewrite En|].
      assert (G : get (t_arr ip) B_TRANS = Some (mkP (Z.of_N off) (size_on_disk ip))) by exact (so_trans _ _ K).
      rewrite G. eauto.
    + apply (fi_idle _ _ _ _ I) in Eip. congruence.
  - cbn [step]. unfold do_hdr_sync. rewrite En. eauto.
  - cbn [step]. unfold do_end. destruct (b_ip (f_bt f)) as [ip|] eqn:Eip.
    2:{ apply (fi_idle _ _ _ _ I) in Eip. destruct En; congruence. }
    assert (Sk : b_skip (f_bt f) = match f_phase f with PSkip => true | _ => false end).
    { apply (fi_skip _ _ _ _ I). destruct En; congruence. }
    destruct (end_ok sm A (f_bt f) ip (fi_bt _ _ _ _ I) Eip) as (H1 & H2).
    { intros Hk. destruct En as [E|E]; rewrite E in Sk; [|congruence].
      destruct (fi_late _ _ _ _ I ip Eip) as (_ & off & _ & R & _); [now rewrite E|]. congruence. }
    destruct (H1 Hs) as (s' & E). destruct (H2 s' E) as (A' & I' & _).
    destruct (limit_ok 8192 4096 ltac:(lia) eq_refl ltac:(lia) ltac:(lia) (b_ba s') (map snd A') (bi_ba _ _ _ I'))
      as (lim & EL & _).
    destruct En as [Ep|Ep]; rewrite Ep, E, EL; eauto.
  - destruct (crash_ok sm A f a junk t max I L) as [(g & G & P)|(C & _)]; [eauto|contradiction].
Qed.

(** Where a write puts its bytes: never on an extent of the last finished checkpoint, of the
    checkpoint in progress, or of another block. *)
Theorem write_fresh sm A f a b d ck f' : finv sm A f a -> legal sm f (OWrite b d ck) -> step f (OWrite b d ck) = Some f' ->
  exists off, f_out f' = mkO b off d :: f_out f /\
    forall t i e x, (t = b_cp (f_bt f) \/ (t = b_cur (f_bt f) /\ i <> b) \/ (b_ip (f_bt f) = Some t /\ (ck = false \/ i <> b))) ->
      refs t i = Some e -> in_ext x e -> ~ (off <= x < off + roundup 512 (len d)).
Proof.
  intros I ((Hb & p & Ep & Np) & Hid & Hd & (L & EL & HL) & Hck). cbn [step]. unfold do_write.
  assert (W : swf (b_cur (f_bt f))) by (apply (bi_wf _ _ _ (fi_bt _ _ _ _ I)); cbn; auto).
  rewrite realloc_eq by auto.
  destruct (realloc_ok sm A (f_bt f) b (Z.of_N (len d)) ck p L (fi_bt _ _ _ _ I)) as (s' & off & A1 & E & P); auto; try lia.
  { rewrite N2Z.id. unfold LIM. lia. }
  { intros C. destruct (Hck C). eapply pend_ck; eauto. }
  rewrite E. rewrite N2Z.id in *. intros Q. injection Q as <-. exists off.
  unfold with_pend, with_out, with_bt. cbn [f_out]. split; [reflexivity|].
  intros t i e x Ht Hr Hx. destruct P. pose proof (bi_ba _ _ _ rp_inv) as Ib.
  assert (Hin : In (i, e) A1).
  { destruct Ht as [->|[(-> & Hi)|(Hi & Hk)]].
    - apply rp_cp; auto.
    - apply rp_cur; auto.
    - specialize (rp_ip _ Hi). destruct ck; [|apply rp_ip; auto]. destruct Hk as [Hk|Hk]; [discriminate|]. apply rp_ip; auto. }
  pose proof (owned_good s' _ b (off, len d) Ib ltac:(left; reflexivity)) as (G1 & G2 & G3 & G4).
  pose proof (owned_good s' _ i e Ib ltac:(right; exact Hin)) as (K1 & K2 & K3 & K4).
  pose proof (ai_disj _ _ _ _ Ib) as D. cbn [map snd pdisj] in D. destruct D as (D & _). rewrite Forall_forall in D.
  assert (Dg : disj (off, len d) e) by (apply D, in_map_iff; exists (i, e); auto).
  intros C. exact (roundup_4096 (off, len d) e x G3 K3 G1 K1 Dg C Hx).
Qed.
