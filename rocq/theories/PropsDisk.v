(** C17-C19: checkpoints of a dictionary file, crashes, and the block translation. *)
From Coq Require Import List ZArith NArith Lia.
From Verif Require Import Base Bytes X1764Spec MhsModel BlkAllocModel BlkAllocProofs BlkTableModel BlkTableProofs
  TransCodecModel TransCodecProofs BlkTableInv FtDiskModel FtDiskSpec FtDiskInv FtDiskProofs FtDiskRun FtDiskExec.
Open Scope N_scope.

(** ** C17 *)

(** Every run of the file is a run of the specification: what a block reads as is what was
    last written to it, and a crash goes back to the state some checkpoint began with. *)
Theorem C17_checkpoint_crash_refinement : forall sm u l f, run sm u l f ->
  exists a, sruns u l a /\ snd (s_cur a) = f_user f /\
    forall b, (2 <= b)%nat -> ~ In b (map o_blk (f_out f)) -> read_block f b = fst (s_cur a) b.
Proof.
  intros sm u l f R. destruct (run_ok sm u l f R) as (A & a & I & S & _). exists a. split; auto.
  split; [apply (fi_user _ _ _ _ I)|]. intros b Hb Hi. eapply read_ok; eauto.
Qed.
Print Assumptions C17_checkpoint_crash_refinement.

(** Once a checkpoint has completed, a crash at any moment can reopen the file, and what is
    found is the last completed checkpoint, or the one in progress if its header was
    already written. *)
Theorem C17_crash_always_reopens : forall sm u l f junk t max, run sm u l f -> completed l ->
  legal sm f (OCrash junk t max) ->
  exists f' a img, step f (OCrash junk t max) = Some f' /\ sruns u l a /\
    (s_cp a = Some img /\ ~ (s_h a = HDurable /\ s_lsn a <= max) \/ s_ip a = Some img /\ s_h a <> HNone /\ s_lsn a <= max) /\
    f_user f' = snd img /\ forall b, (2 <= b)%nat -> read_block f' b = fst img b.
Proof.
  intros sm u l f junk t max R C L. destruct (run_ok sm u l f R) as (A & a & I & S & Hc).
  destruct (step_alive sm A f a (OCrash junk t max) I L Logic.I (Hc C)) as (f' & E).
  destruct (step_post sm A f a _ f' I L E) as (A' & a' & I' & S').
  assert (O : forall b, ~ In b (map o_blk (f_out f'))).
  { cbn [step] in E. unfold do_crash, reopen in E.
    destruct (choose (crash_slot f t true) (crash_slot f t false) max) as [[h|]|]; try discriminate.
    destruct (negb (hd_toff h =? 0)); [|discriminate]. destruct (negb (hd_tsize h =? 0)); [|discriminate].
    destruct (deser_trans (hd_toff h) (hd_tsize h) (pread (crash_disk f junk) (hd_toff h) (hd_tsize h))) as [[tr|]|]; try discriminate.
    destruct (bt_open tr); [|discriminate]. injection E as <-. intros ? []. }
  exists f', a, (s_cur a'). split; auto. split; auto. split.
  - inversion S'; subst; cbn [s_cur]; auto.
  - split; [symmetry; apply (fi_user _ _ _ _ I')|]. intros b Hb. eapply read_ok; eauto. apply O.
Qed.
Print Assumptions C17_crash_always_reopens.

(** The extent of block [i] in a translation. *)
Definition extent_of (t : trans) (i : nat) (off size : N) : Prop :=
  exists p, nth_error (t_arr t) i = Some p /\ (0 < p_size p)%Z /\ off = Z.to_N (p_off p) /\ size = Z.to_N (p_size p).

(** Where the bytes of a node write go (rounded up to 512): never on an extent of the last
    completed checkpoint, of another block, or - unless the write is the checkpoint's own
    copy of the same block - of the checkpoint in progress. *)
Theorem C17_no_reuse : forall sm u l f b d ck f', run sm u l f -> legal sm f (OWrite b d ck) ->
  step f (OWrite b d ck) = Some f' ->
  exists off, f_out f' = mkO b off d :: f_out f /\
    forall t i o n x,
      (t = b_cp (f_bt f) \/ (t = b_cur (f_bt f) /\ i <> b) \/ (b_ip (f_bt f) = Some t /\ (ck = false \/ i <> b))) ->
      extent_of t i o n -> o <= x < o + n -> ~ (off <= x < off + roundup 512 (len d)).
Proof.
  intros sm u l f b d ck f' R L E. destruct (run_ok sm u l f R) as (A & a & I & _).
  destruct (write_fresh sm A f a b d ck f' I L E) as (off & E1 & E2). exists off. split; auto.
  intros t i o n x Ht (p & P1 & P2 & -> & ->) Hx.
  apply (E2 t i (Z.to_N (p_off p), Z.to_N (p_size p)) x Ht); [|exact Hx].
  rewrite refs_at. unfold ent. rewrite P1. destruct (Z.ltb_spec 0 (p_size p)); [reflexivity|lia].
Qed.
Print Assumptions C17_no_reuse.

(** ** C18 *)

(** With at most 8192 block numbers no legal operation made in its phase fails; in particular
    the end of a checkpoint does not. *)
Theorem C18_no_abort_partial : forall u l f o, run True u l f -> legal True f o -> enabled f o ->
  (forall junk t max, o = OCrash junk t max -> completed l) -> step f o <> None.
Proof.
  intros u l f o R L En Hc. destruct (run_ok True u l f R) as (A & a & I & S & H).
  destruct (step_alive True A f a o I L En) as (f' & E); [|congruence]. destruct o; auto. apply H. eapply Hc; eauto.
Qed.
Print Assumptions C18_no_abort_partial.

(** Without that limit the end of a checkpoint may fail: a run of legal operations, all
    checkpoints completed so far, and the last step of the next one aborts. *)
Theorem C18_end_checkpoint_never_aborts_refuted : exists u l f junk, run False u l f /\ completed l /\
  legal False f (OEnd junk) /\ enabled f (OEnd junk) /\ step f (OEnd junk) = None.
Proof. exact end_aborts. Qed.
Print Assumptions C18_end_checkpoint_never_aborts_refuted.

(** Hypotheses of the theorems above are met: a run with two checkpoints, block 3 rewritten
    between them, and a crash while the second header is being written; either header may
    survive, and both reopen. *)
Definition disk_ops : list op :=
  [OAlloc; OAlloc; OUser [7]; OWrite 3 [1; 2; 3] false; OPwrite 3] ++ ckpt 10 ++ [OEnd nojunk] ++
  [OWrite 3 [4; 5; 6; 7] false; OPwrite 3; OWrite 4 [9] false; OStart 20; OPwrite 4; OUser [8]; OFree 3 false; OTrans; OSync; OHdr].
Definition read_of (f : option fts) (b : nat) : option bytes := match f with Some g => read_block g b | None => None end.
Definition disk_end : option fts := do f0 <- f_init []; run_b f0 disk_ops.
Lemma disk_run : exists f, disk_end = Some f /\ run False [] disk_ops f /\ completed disk_ops.
Proof.
  unfold disk_end. destruct (f_init []) as [f0|] eqn:E0; [|vm_compute in E0; discriminate].
  destruct (run_b f0 disk_ops) as [f|] eqn:E.
  - exists f. split; auto. split; [|exists nojunk; unfold disk_ops; rewrite !in_app_iff; cbn [In]; tauto].
    apply (run_b_ok [] [] f0); auto. now constructor.
  - exfalso. assert (Ei : f_init [] <> None /\ match f_init [] with Some f0 => is_some (run_b f0 disk_ops) | None => true end = true)
      by (split; [vm_compute; discriminate|vm_compute; reflexivity]).
    rewrite E0 in Ei. rewrite E in Ei. destruct Ei. discriminate.
Qed.
Definition crash_of (t : torn) (max : N) : option fts := do f <- disk_end; step f (OCrash nojunk t max).
Definition crash_legal (t : torn) (max : N) : bool := match disk_end with Some f => legal_b f (OCrash nojunk t max) | None => false end.
Example C17_case :
  crash_legal TBad 30 = true /\ read_of (crash_of TBad 30) 3 = Some [1; 2; 3] /\ read_of (crash_of TBad 30) 4 = None /\
  crash_legal TNew 30 = true /\ read_of (crash_of TNew 30) 3 = Some [4; 5; 6; 7] /\ read_of (crash_of TNew 30) 4 = Some [9] /\
  read_of disk_end 3 = None.
Proof. vm_compute. repeat split. Qed.

(** ** C19 *)

(** Writing the translation and reading it back. *)
Theorem C19_round_trip_partial : forall t off, ser_ok t off -> (t_snub t < 2 ^ 27 - 1)%Z ->
  exists bs size, ser_trans t = Some (bs, off, size) /\
    deser_trans off size bs = Some (Some (mkT (t_snub t) (t_head t) (firstn (Z.to_nat (t_snub t)) (t_arr t)))).
Proof. intros t off K H. exists (stored t), (20 + 16 * Z.to_N (t_snub t)). split; [now apply ser_trans_ok|now apply deser_ser]. Qed.
Print Assumptions C19_round_trip_partial.

(** A translation whose checksum does not match is rejected. *)
Theorem C19_bad_checksum_rejected_partial : forall location size buf, bytes_ok buf -> size < 2 ^ 31 -> location <> 0 ->
  4 <= size <= len buf ->
  checksum_spec (firstn (N.to_nat (size - 4)) buf) <> le_val (firstn 4 (skipn (N.to_nat (size - 4)) buf)) ->
  deser_trans location size buf = Some None.
Proof. exact deser_rejects. Qed.
Print Assumptions C19_bad_checksum_rejected_partial.

(** A translation that is written without complaint and rejected when read back. *)
Theorem C19_round_trip_refuted : exists t off bs size, ser_ok t off /\ ser_trans t = Some (bs, off, size) /\
  deser_trans off size bs = Some None.
Proof.
  destruct huge_rejected as (t & off & K & H1 & H). exists t, off, (stored t), (20 + 16 * Z.to_N (t_snub t)).
  auto.
Qed.
Print Assumptions C19_round_trip_refuted.

(** A translation with a block in use, a free one and one without an extent. *)
Definition c19_t : trans := mkT 6 4 [mkP diskoff_unused 0; mkP 4096 116; mkP diskoff_unused 0; mkP 8192 77;
  mkP freelist_null size_is_free; mkP diskoff_unused 0].
Example C19_case : ser_ok c19_t 4096 /\
  match ser_trans c19_t with
  | Some (bs, off, size) => deser_trans off size bs = Some (Some c19_t) /\
      deser_trans off size (firstn 4 bs ++ 7 :: skipn 5 bs) = Some None /\ nth 4 bs 0 = 6
  | None => False
  end.
Proof.
  split.
  - constructor.
    + unfold t_len, c19_t. cbn [t_snub t_arr length]. lia.
    + unfold c19_t. cbn [t_snub]. lia.
    + unfold c19_t, i64. cbn [t_head]. lia.
    + unfold c19_t. cbn [t_snub t_arr]. change (Z.to_nat 6) with 6%nat. cbn [firstn].
      repeat (apply Forall_cons; [split; unfold i64, diskoff_unused, size_is_free, freelist_null; cbn [p_off p_size]; lia|]).
      apply Forall_nil.
    + reflexivity.
    + lia.
    + reflexivity.
  - vm_compute. repeat split.
Qed.
