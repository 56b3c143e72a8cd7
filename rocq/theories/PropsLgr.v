(** C26, C27: durability of commits and log trimming, for every interleaving of any number of
    threads. *)
From Coq Require Import List NArith Sorted.
From Verif Require Import Base Bytes LgrModel LgrSpec LgrInv LgrProofs LgrSteps.
Import ListNotations.
Local Open Scope N_scope.

(** * The opened logger satisfies the invariant *)

Lemma sorted_app_inv (a b : list N) : StronglySorted N.lt (a ++ b) ->
  StronglySorted N.lt a /\ StronglySorted N.lt b /\ (forall x y, In x a -> In y b -> x < y).
Proof.
  induction a as [|x a IH]; cbn; intros H; [repeat split; auto; [constructor|intros ? ? []]|].
  inversion H as [|? ? H1 H2]; subst. destruct (IH H1) as (A & B & C).
  apply Forall_app in H2 as [H2 H3]. repeat split; auto.
  - constructor; auto.
  - intros u v [<-|U] V; [rewrite Forall_forall in H3; auto|auto].
Qed.

Lemma last_max l d : StronglySorted N.lt l -> Forall (fun x => x <= last l d) l.
Proof.
  induction 1 as [|a l H IH F]; [constructor|]. destruct l as [|b l].
  - cbn. repeat constructor. lia.
  - change (last (a :: b :: l) d) with (last (b :: l) d). constructor; [|exact IH].
    inversion F; subst. inversion IH; subst. lia.
Qed.
Lemma last_in (l : list N) d : l <> [] -> In (last l d) l.
Proof.
  induction l as [|a l IH]; [congruence|]. intros _. destruct l as [|b l]; [left; reflexivity|].
  right. change (last (a :: b :: l) d) with (last (b :: l) d). apply IH. discriminate.
Qed.

Lemma scan_ok fl tmp : StronglySorted N.lt (map r_lsn (concat_recs fl)) ->
  Forall (fun r => tmp < r_lsn r) (concat_recs fl) ->
  Forall2 old_ok (map (fun p => mkFile (fst p) (snd p) (length (snd p))) fl) (lfm_scan tmp fl) /\
  Forall (fun r => r_lsn r <= last (map snd (lfm_scan tmp fl)) tmp) (concat_recs fl) /\
  tmp <= last (map snd (lfm_scan tmp fl)) tmp.
Proof.
  revert tmp. induction fl as [|[i rs] fl IH]; intros tmp S B.
  { cbn. repeat split; constructor || lia; constructor. }
  unfold concat_recs in *. cbn [map concat snd] in *. rewrite map_app in S.
  apply sorted_app_inv in S as (S1 & S2 & S3). apply Forall_app in B as [B1 B2].
  cbn [lfm_scan]. set (m := last (map r_lsn rs) tmp) in *.
  assert (M : Forall (fun r => r_lsn r <= m) rs).
  { apply (Forall_map r_lsn (fun x => x <= m)). apply last_max; auto. }
  assert (TM : tmp <= m).
  { subst m. destruct rs as [|r rs]; [cbn; lia|].
    assert (I : In (last (map r_lsn (r :: rs)) tmp) (map r_lsn (r :: rs))) by (apply last_in; discriminate).
    apply in_map_iff in I as (x & E & I). rewrite Forall_forall in B1. specialize (B1 x I). lia. }
  assert (B2' : Forall (fun r => m < r_lsn r) (concat (map snd fl))).
  { subst m. destruct rs as [|r rs]; [exact B2|]. apply Forall_forall. intros x X. apply S3.
    - apply last_in. discriminate.
    - apply in_map. exact X. }
  destruct (IH m S2 B2') as (C1 & C2 & C3). split; [|split].
  - cbn [map fst snd]. constructor; [|exact C1]. split; [reflexivity|]. split; [reflexivity|exact M].
  - assert (L : last (map snd ((i, m) :: lfm_scan m fl)) tmp = last (map snd (lfm_scan m fl)) m).
    { cbn [map snd]. destruct (lfm_scan m fl); [reflexivity|]. cbn [map]. generalize (map snd l) (snd p).
      clear. intros l x. change (last (x :: l) tmp = last (x :: l) m).
      revert x. induction l; intros; [reflexivity|]. change (last (a :: l) tmp = last (a :: l) m). apply IHl. }
    rewrite L. apply Forall_app. split; [|exact C2].
    eapply Forall_impl; [|exact M]. cbn. intros; lia.
  - assert (L : last (map snd ((i, m) :: lfm_scan m fl)) tmp = last (map snd (lfm_scan m fl)) m).
    { cbn [map snd]. destruct (lfm_scan m fl); [reflexivity|]. cbn [map]. generalize (map snd l) (snd p).
      clear. intros l x. change (last (x :: l) tmp = last (x :: l) m).
      revert x. induction l; intros; [reflexivity|]. change (last (a :: l) tmp = last (a :: l) m). apply IHl. }
    rewrite L. lia.
Qed.

Lemma concat_files fl : concat (map f_recs (map (fun p : N * list lrec => mkFile (fst p) (snd p) (length (snd p))) fl)) =
  concat_recs fl.
Proof. unfold concat_recs. induction fl as [|p fl IH]; cbn; [reflexivity|]. now rewrite IH. Qed.
Lemma unsynced_files fl : unsynced (map (fun p : N * list lrec => mkFile (fst p) (snd p) (length (snd p))) fl) = [].
Proof.
  unfold unsynced. induction fl as [|p fl IH]; cbn [map concat]; [reflexivity|].
  cbn [f_sync f_recs]. rewrite skipn_all. exact IH.
Qed.

Lemma open_inv fl nexti lgmax : dir_ok fl nexti -> linv (lgr_open fl nexti lgmax).
Proof.
  intros (S & Z & ND & B). destruct (scan_ok fl 0 S Z) as (F2 & LE & _).
  unfold lgr_open. set (l := last (map snd (lfm_scan 0 fl)) 0) in *. cbv zeta.
  constructor.
  - intros t. cbn. split; discriminate.
  - intros t. cbn. split; discriminate.
  - intros _. cbn. split; [reflexivity|]. intros _. left. reflexivity.
  - constructor; cbn [lock out lsn inb outb written fsynced n_in_file lg_max files nextno lfm
      last_ck ck pcs hist gone open_logfile b_recs b_size b_max]; unfold recs, top, otop, settled;
      cbn [files inb outb b_recs written open_logfile]; auto; try lia; try discriminate; try (constructor; fail).
    + split; [|split].
      * exists (map (fun p => mkFile (fst p) (snd p) (length (snd p))) fl), (mkFile nexti [] 0),
               (lfm_scan 0 fl), (nexti, l). repeat split; auto.
      * rewrite map_app. cbn [map f_index]. apply NoDup_app_iff'. rewrite map_map. cbn [f_index].
        split; [exact ND|]. intros H. apply in_map_iff in H as (p & E & I).
        rewrite Forall_forall in B. specialize (B p I). lia.
      * apply Forall_app. split; [|repeat constructor; cbn; lia]. apply Forall_map. cbn [f_index].
        eapply Forall_impl; [|exact B]. cbn; intros; lia.
    + rewrite concat_snoc, concat_files. cbn. rewrite !app_nil_r. reflexivity.
    + rewrite concat_snoc, concat_files. cbn. rewrite app_nil_r. exact LE.
    + unfold unsynced. rewrite concat_snoc. fold (unsynced (map (fun p : N * list lrec => mkFile (fst p) (snd p) (length (snd p))) fl)).
      rewrite unsynced_files. constructor.
    + unfold n_in_buf. cbn. lia.
    + unfold n_in_buf. cbn. lia.
  - intros t. cbn. repeat split; cbn; discriminate || auto.
Qed.

Lemma run_inv s tr s' : linv s -> lrun s tr s' -> linv s'.
Proof. intros I R. induction R; auto. apply IHR. eapply step_inv; eauto. Qed.
Lemma reached_inv s : reached s -> linv s.
Proof. intros (fl & nx & mx & tr & D & R). eapply run_inv; [|exact R]. apply open_inv. exact D. Qed.
Lemma reached_run s tr s' : reached s -> lrun s tr s' -> reached s'.
Proof.
  intros (fl & nx & mx & tr0 & D & R0) R. exists fl, nx, mx, (tr0 ++ tr). split; [exact D|].
  induction R0; [exact R|]. cbn. econstructor; eauto.
Qed.

(** * Consequences of the invariant *)

Lemma sync_split fl : exists u, Forall2 (fun (a : lfile) (b : list lrec * list lrec) => f_recs a = fst b ++ snd b) fl u /\
  concat (map fst u) = concat (map (fun f => firstn (f_sync f) (f_recs f)) fl) /\ concat (map snd u) = unsynced fl.
Proof.
  exists (map (fun f => (firstn (f_sync f) (f_recs f), skipn (f_sync f) (f_recs f))) fl).
  unfold unsynced. rewrite !map_map. cbn. split; [|auto].
  induction fl; constructor; auto. cbn. now rewrite firstn_skipn.
Qed.
Lemma in_recs s r : In r (recs s) -> In r (stable s) \/ In r (unsynced (files s)).
Proof.
  unfold recs, stable, unsynced. intros H. apply in_concat in H as (l & L & R).
  apply in_map_iff in L as (f & <- & F). rewrite <- (firstn_skipn (f_sync f) (f_recs f)) in R.
  apply in_app_iff in R as [R|R]; [left|right]; apply in_concat; eexists; (split; [apply in_map_iff; eauto|exact R]).
Qed.

Lemma synced_stable s x r : linv s -> x <= fsynced s -> In r (hist s) -> r_lsn r <= x ->
  In r (stable s) \/ In r (gone s).
Proof.
  intros I X H L. pose proof (i_data s I) as D. rewrite <- (d_hist s D) in H. rewrite !in_app_iff in H.
  pose proof (d_fs s D) as FS.
  destruct H as [H|[H|[H|H]]]; [auto| | |].
  - apply in_recs in H as [H|H]; [auto|]. exfalso.
    pose proof (d_set s D) as ST. unfold settled in ST. rewrite Forall_forall in ST. specialize (ST r H). lia.
  - exfalso. pose proof (d_ob s D) as OB. rewrite Forall_forall in OB. specialize (OB r H). lia.
  - exfalso. pose proof (d_ib s D) as IB. rewrite Forall_forall in IB. specialize (IB r H).
    assert (written s <= otop s).
    { unfold otop. destruct (b_recs (outb s)) eqn:E; [lia|]. pose proof (d_ob s D) as OB. rewrite E in OB.
      inversion OB; subst. lia. }
    lia.
Qed.

(** * C26 *)

(** When a call that waits for LSN [l] returns ([toku_log_<type>] with do_fsync, or
    toku_logger_fsync_if_lsn_not_fsynced after a commit record), every record logged with an
    LSN up to [l] is on stable storage, unless it precedes the last completed checkpoint. *)
Theorem C26_sync_commit_is_durable : forall s t l r,
  reached s -> pcs s t = Ret (RSynced l) -> In r (hist s) -> r_lsn r <= l -> last_ck s <= r_lsn r ->
  In r (stable s).
Proof.
  intros s t l r R P H L C. pose proof (reached_inv s R) as I.
  pose proof (i_pcs s I t) as (PM & _). rewrite P in PM. cbn in PM.
  destruct (synced_stable s l r I PM H L) as [X|X]; [exact X|].
  pose proof (d_gone s (i_data s I)) as G. rewrite Forall_forall in G. specialize (G r X). lia.
Qed.
Print Assumptions C26_sync_commit_is_durable.

(** It stays durable whatever happens later. *)
Lemma step_fs_mono s t o s' : linv s -> op_ok o -> lstep s t o = Next s' ->
  fsynced s <= fsynced s' /\ (exists x, hist s' = hist s ++ x).
Proof.
  intros I OK E. pose proof (d_fs s (i_data s I)) as FS. unfold lstep in E.
  destruct (pcs s t); repeat match goal with
    | H : Disabled = Next _ |- _ => discriminate H
    | H : Abort = Next _ |- _ => discriminate H
    | H : Next _ = Next _ |- _ => injection H as <-
    | H : context [match ?x with _ => _ end] |- _ =>
        match type of H with _ = Next _ => destruct x eqn:?; try discriminate H end
    end; cbn; unfold release_output, log_return; try (destruct w); cbn;
    try (destruct (fsynced s <? f) eqn:?); cbn;
    (split; [try lia|try (exists []; now rewrite app_nil_r); try (eexists; reflexivity)]).
  all: try (unfold grab_output in *; destruct (out s); try discriminate;
     match goal with H : Some _ = Some _ |- _ => injection H as <- <- end; cbn; try lia; exists []; now rewrite app_nil_r).
  all: try (unfold swap in *; destruct (n_in_buf (outb s) =? 0); try discriminate;
     match goal with H : Some _ = Some _ |- _ => injection H as <- end; cbn; try lia; exists []; now rewrite app_nil_r).
  all: match goal with H : write_outbuf ?z = Some _, J : linv ?z |- _ => destruct (dinv_write z _ (i_data z J) H) as (_ & _ & _ & _ & _ & _ & _ & _ & F1 & _ & _ & _ & H1 & _) end;
    try lia; exists []; now rewrite app_nil_r.
Qed.

Lemma run_fs_mono s tr s' : linv s -> lrun s tr s' -> fsynced s <= fsynced s' /\ incl (hist s) (hist s').
Proof.
  intros I R. induction R as [|s t o s1 tr s2 OK E R IH]; [split; [lia|apply incl_refl]|].
  destruct (step_fs_mono s t o s1 I OK E) as [A [x B]].
  destruct (IH (step_inv s t o s1 I OK E)) as [C D]. split; [lia|].
  intros r H. apply D. rewrite B, in_app_iff. auto.
Qed.

Theorem C26_durable_for_ever : forall s t l r tr s',
  reached s -> pcs s t = Ret (RSynced l) -> In r (hist s) -> r_lsn r <= l -> lrun s tr s' ->
  last_ck s' <= r_lsn r -> In r (stable s').
Proof.
  intros s t l r tr s' R P H L RN C. pose proof (reached_inv s R) as I.
  pose proof (i_pcs s I t) as (PM & _). rewrite P in PM. cbn in PM.
  destruct (run_fs_mono s tr s' I RN) as [F G]. pose proof (run_inv s tr s' I RN) as I'.
  destruct (synced_stable s' l r I' ltac:(lia) (G r H) L) as [X|X]; [exact X|].
  pose proof (d_gone s' (i_data s' I')) as GO. rewrite Forall_forall in GO. specialize (GO r X). lia.
Qed.
Print Assumptions C26_durable_for_ever.

(** A crash at any moment leaves a gap-free piece of the log, from the first untrimmed record
    on, that contains every record whose durability was ever promised; the next start finds an
    orderly directory. *)
Theorem C26_crash_leaves_a_prefix : forall s disk,
  reached s -> crash s disk ->
  (exists k, concat_recs disk = firstn k (skipn (length (gone s)) (hist s))) /\
  (forall t l r, pcs s t = Ret (RSynced l) -> In r (hist s) -> r_lsn r <= l -> last_ck s <= r_lsn r ->
     In r (concat_recs disk)).
Proof.
  intros s disk R C. pose proof (reached_inv s R) as I. pose proof (i_data s I) as D.
  split.
  - destruct (d_dir s D) as [(fs & cur & ms & mc & FE & ME & F2 & IX & LL) _].
    unfold crash in C. rewrite FE in C. apply Forall2_app_inv_l in C as (d1 & d2 & C1 & C2 & ->).
    inversion C2 as [|? e ? ? (E1 & k & K1 & K2) C3]; subst. inversion C3; subst.
    assert (X : concat (map snd d1) = concat (map f_recs fs)).
    { clear -C1 F2. revert ms F2. induction C1 as [|f e fs d1 (A & k & B & E) C1 IH]; intros ms F2; [reflexivity|].
      inversion F2 as [|? ? ? ? (O1 & O2 & O3) F3]; subst. cbn [map concat]. rewrite (IH _ F3), E.
      rewrite firstn_all2 by lia. reflexivity. }
    exists (length (concat (map f_recs fs)) + Nat.min k (length (f_recs cur)))%nat.
    rewrite <- (d_hist s D), skipn_app, skipn_all, Nat.sub_diag. cbn [app skipn].
    unfold recs. rewrite FE, concat_snoc. unfold concat_recs. rewrite concat_snoc, X, K2.
    rewrite <- !app_assoc. rewrite firstn_app_2. f_equal.
    rewrite firstn_app. replace (Nat.min k (length (f_recs cur)) - length (f_recs cur))%nat with 0%nat by lia.
    cbn [firstn]. rewrite app_nil_r.
    destruct (Nat.le_gt_cases k (length (f_recs cur))); [now rewrite Nat.min_l by lia|].
    rewrite Nat.min_r by lia. rewrite !firstn_all2 by lia. reflexivity.
  - intros t l r P H L CK.
    pose proof (C26_sync_commit_is_durable s t l r R P H L CK) as ST.
    unfold stable in ST. unfold concat_recs. clear -C ST.
    induction C as [|f e fl d (A & k & B & E) C IH]; [exact ST|].
    cbn [map concat] in *. apply in_app_iff in ST. apply in_app_iff. destruct ST as [ST|ST]; [left|auto].
    rewrite E. rewrite <- (firstn_skipn (f_sync f) (firstn k (f_recs f))). apply in_app_iff. left.
    rewrite firstn_firstn. now rewrite Nat.min_l by lia.
Qed.
Print Assumptions C26_crash_leaves_a_prefix.

Lemma sorted_sub (a b c : list N) : StronglySorted N.lt (a ++ b ++ c) -> StronglySorted N.lt b.
Proof. intros H. apply sorted_app_inv in H as (_ & H & _). apply sorted_app_inv in H. tauto. Qed.

(** After the crash the directory can be opened again: every theorem applies to the next run. *)
Theorem C26_reopen : forall s disk,
  reached s -> Forall (fun r => 0 < r_lsn r) (hist s) -> crash s disk -> dir_ok disk (nextno s).
Proof.
  intros s disk R POS C. pose proof (reached_inv s R) as I. pose proof (i_data s I) as D.
  destruct (C26_crash_leaves_a_prefix s disk R C) as [[k K] _].
  assert (S : hist s = firstn (length (gone s)) (hist s) ++
            (firstn k (skipn (length (gone s)) (hist s))) ++ skipn k (skipn (length (gone s)) (hist s))).
  { rewrite (firstn_skipn k), firstn_skipn. reflexivity. }
  assert (IDX : map fst disk = map f_index (files s)).
  { unfold crash in C. clear -C. induction C as [|f e fl d (A & _) C IH]; cbn; [reflexivity|]. now rewrite A, IH. }
  split; [|split; [|split]].
  - rewrite K. pose proof (d_sort s D) as SO. rewrite S, !map_app in SO. eapply sorted_sub; eauto.
  - rewrite K. rewrite S, !Forall_app in POS. tauto.
  - rewrite IDX. apply (d_dir s D).
  - assert (X : Forall (fun x => x < nextno s) (map fst disk)).
    { rewrite IDX. apply Forall_map. apply (d_dir s D). }
    apply Forall_map in X. exact X.
Qed.
Print Assumptions C26_reopen.

(** Explicit flush (DB_ENV->log_flush): durable if at the moment it reads the buffer's LSN
    there is something in the buffer or no other thread is writing the log.  Partial: see the
    counterexample below. *)
Theorem C26_flush_is_durable_partial : forall s t o s1 tr s2 r,
  reached s -> pcs s t = FlRead -> b_recs (inb s) <> [] \/ out s = None ->
  op_ok o -> lstep s t o = Next s1 -> lrun s1 tr s2 -> pcs s2 t = Ret (RSynced (b_max (inb s))) ->
  In r (hist s) -> last_ck s2 <= r_lsn r -> In r (stable s2).
Proof.
  intros s t o s1 tr s2 r R P Q OK E RN P2 H C. pose proof (reached_inv s R) as I.
  pose proof (i_data s I) as D.
  pose proof (step_inv s t o s1 I OK E) as I1. pose proof (run_inv s1 tr s2 I1 RN) as I2.
  destruct (step_fs_mono s t o s1 I OK E) as [F1 [x HX]]. destruct (run_fs_mono s1 tr s2 I1 RN) as [F2 G].
  assert (H2 : In r (hist s2)) by (apply G; rewrite HX, in_app_iff; auto).
  pose proof (i_pcs s2 I2 t) as (PM & _). rewrite P2 in PM. cbn in PM.
  assert (L : r_lsn r <= lsn s).
  { pose proof (d_le s D) as LE. rewrite Forall_forall in LE. auto. }
  assert (X : r_lsn r <= fsynced s2).
  { pose proof (d_top s D) as T. unfold top in T. destruct (b_recs (inb s)) eqn:B.
    - destruct Q as [Q|Q]; [congruence|]. destruct (i_none s I Q) as [OB QU].
      destruct (QU B) as [FW|(v & LK & A)].
      + unfold otop in T. rewrite OB in T. lia.
      + exfalso. assert (LT : lock s = Some t) by (apply (i_lock s I); now rewrite P).
        rewrite LT in LK. injection LK as <-. rewrite P in A. discriminate.
    - lia. }
  destruct (synced_stable s2 (fsynced s2) r I2 (N.le_refl _) H2 X) as [Y|Y]; [exact Y|].
  pose proof (d_gone s2 (i_data s2 I2)) as GO. rewrite Forall_forall in GO. specialize (GO r Y). lia.
Qed.
Print Assumptions C26_flush_is_durable_partial.

(** * Executing schedules *)

Fixpoint lexec (s : lgr) (tr : list (nat * lop)) : option lgr :=
  match tr with
  | [] => Some s
  | (t, o) :: tr' => match lstep s t o with Next s' => lexec s' tr' | _ => None end
  end.
Lemma lexec_run s tr s' : Forall (fun p => op_ok (snd p)) tr -> lexec s tr = Some s' -> lrun s tr s'.
Proof.
  revert s. induction tr as [|[t o] tr IH]; cbn; intros s F E; [injection E as <-; constructor|].
  inversion F; subst. destruct (lstep s t o) eqn:S; try discriminate. econstructor; eauto.
Qed.
Definition stays (t : nat) (o : lop) (n : nat) : list (nat * lop) := repeat (t, o) n.
Definition is_some {A} (o : option A) : bool := match o with Some _ => true | None => false end.
Lemma some_of {A} (o : option A) : is_some o = true -> exists a, o = Some a.
Proof. destruct o; [eauto|discriminate]. Qed.

Definition d21 : bytes := repeat 7 21.
Definition start (lgmax : N) : lgr := lgr_open [] 0 lgmax.
Lemma start_ok : dir_ok [] 0.
Proof. repeat split; cbn; constructor. Qed.
Lemma reached_exec lgmax tr s : Forall (fun p => op_ok (snd p)) tr -> lexec (start lgmax) tr = Some s -> reached s.
Proof.
  intros F E. exists [], 0, lgmax, tr. split; [exact start_ok|]. apply lexec_run; auto.
Qed.
Definition op_okb (o : lop) : bool :=
  match o with OLog d _ | OCkBegin d | OCkEnd d => 21 <=? len d | _ => true end.
Lemma ops_okb tr : forallb (fun p => op_okb (snd p)) tr = true -> Forall (fun p : nat * lop => op_ok (snd p)) tr.
Proof.
  intros H. rewrite forallb_forall in H. apply Forall_forall. intros [t o] IN. specialize (H _ IN).
  destruct o; cbn in *; auto; now apply N.leb_le.
Qed.
Ltac ops_ok := apply ops_okb; vm_compute; reflexivity.

(** Log flush can return before a record logged earlier is on disk: thread 0 logs a record
    (a commit without sync) and returns; thread 1 commits, swaps the buffers and is about to
    write; thread 0's flush finds the empty buffer with the LSN it had when it was last
    written, which is already synced, and returns at once. *)
Definition flush_tr0 : list (nat * lop) := stays 0 (OLog d21 false) 5 ++ stays 1 (OLog d21 true) 9.
Definition flush_tr1 : list (nat * lop) := repeat (0%nat, OFlush) 5.

(** A property of the states two consecutive schedules lead to, by computation. *)
Definition leads (s : lgr) (tr0 tr1 : list (nat * lop)) (P : lgr -> lgr -> bool) : bool :=
  forallb (fun p => op_okb (snd p)) tr0 && forallb (fun p => op_okb (snd p)) tr1 &&
  match lexec s tr0 with
  | Some s0 => match lexec s0 tr1 with Some s1 => P s0 s1 | None => false end
  | None => false
  end.
Lemma leads_ok lgmax tr0 tr1 P : leads (start lgmax) tr0 tr1 P = true ->
  exists s0 s1, reached s0 /\ lrun s0 tr1 s1 /\ reached s1 /\ P s0 s1 = true.
Proof.
  unfold leads. intros H. apply andb_true_iff in H as [H E]. apply andb_true_iff in H as [H0 H1].
  apply ops_okb in H0, H1. destruct (lexec (start lgmax) tr0) as [s0|] eqn:E0; [|discriminate].
  destruct (lexec s0 tr1) as [s1|] eqn:E1; [|discriminate].
  assert (R0 : reached s0) by exact (reached_exec lgmax tr0 s0 H0 E0).
  assert (R1 : lrun s0 tr1 s1) by (apply lexec_run; auto).
  exists s0, s1. split; [exact R0|split; [exact R1|split; [|exact E]]].
  apply (reached_run s0 tr1); auto.
Qed.

Definition ret_eqb (p : pc) (r : ret) : bool :=
  match p, r with
  | Ret RNone, RNone => true
  | Ret (RLogged a), RLogged b => a =? b
  | Ret (RSynced a), RSynced b => a =? b
  | _, _ => false
  end.
Lemma ret_eqb_ok p r : ret_eqb p r = true -> p = Ret r.
Proof. destruct p as [[]| | | | | | | | | | | | | | | | | | | | | | | | | | | |], r; cbn; try discriminate; auto; intros H; apply N.eqb_eq in H; now subst. Qed.
Definition holds (n : N) (l : list lrec) : bool := existsb (fun r => r_lsn r =? n) l.

Theorem C26_flush_is_durable_refuted :
  exists s0 n s1 m r, reached s0 /\ pcs s0 0%nat = Ret (RLogged 1) /\ In r (hist s0) /\
    lrun s0 (repeat (0%nat, OFlush) n) s1 /\ pcs s1 0%nat = Ret (RSynced m) /\
    last_ck s1 <= r_lsn r /\ ~ In r (stable s1).
Proof.
  assert (L : leads (start 1000) flush_tr0 flush_tr1 (fun s0 s1 =>
     ret_eqb (pcs s0 0%nat) (RLogged 1) && holds 1 (hist s0) && ret_eqb (pcs s1 0%nat) (RSynced 0) &&
     (last_ck s1 =? 0) && negb (holds 1 (stable s1))) = true) by (vm_compute; reflexivity).
  apply leads_ok in L as (s0 & s1 & R0 & RN & _ & P).
  rewrite !andb_true_iff in P. destruct P as ((((P1 & P2) & P3) & P4) & P5).
  unfold holds in *. apply existsb_exists in P2 as (r & IN & RL). apply N.eqb_eq in RL, P4.
  exists s0, 5%nat, s1, 0, r. split; [exact R0|]. split; [now apply ret_eqb_ok|]. split; [exact IN|].
  split; [exact RN|]. split; [now apply ret_eqb_ok|]. split; [lia|].
  intros B. apply negb_true_iff in P5. assert (existsb (fun x => r_lsn x =? 1) (stable s1) = true).
  { apply existsb_exists. exists r. split; [exact B|]. now apply N.eqb_eq. }
  congruence.
Qed.
Print Assumptions C26_flush_is_durable_refuted.

(** * No assertion of the logger fails *)

Definition carries (p : pc) : option bytes :=
  match p with
  | LogLock _ d _ | LogSpace _ d _ | MsGrab _ d _ | MsLock _ d _ _ | MsCheck _ d _ _
  | MsGrow _ d _ _ | MsRel _ d _ _ | Append _ d _ => Some d
  | WWrite k _ | WRotSync k _ | WRotNote k _ | WRotOpen k _ =>
      match k with KSpace _ d _ => Some d | _ => None end
  | _ => None
  end.
Definition op_data (o : lop) : option bytes :=
  match o with OLog d _ | OCkBegin d | OCkEnd d => Some d | _ => None end.
Definition op_short (o : lop) : Prop := forall d, op_data o = Some d -> len d < 2 ^ 29.

Lemma release_pcs s f : pcs (release_output s f) = pcs s.
Proof. unfold release_output. destruct (fsynced s <? f); reflexivity. Qed.
Lemma write_pcs s s' : write_outbuf s = Some s' -> pcs s' = pcs s.
Proof. unfold write_outbuf. intros H. repeat (match type of H with context [if ?b then _ else _] => destruct b | context [match ?b with _ => _ end] => destruct b end; try discriminate); injection H as <-; reflexivity. Qed.
Lemma swap_pcs s s' : swap s = Some s' -> pcs s' = pcs s.
Proof. unfold swap. destruct (n_in_buf (outb s) =? 0); [|discriminate]. intros H; injection H as <-. reflexivity. Qed.

Lemma carries_set (pp : nat -> pc) t q u d : carries (setpc pp t q u) = Some d ->
  carries (pp u) = Some d \/ u = t /\ carries q = Some d.
Proof. unfold setpc. destruct (Nat.eqb_spec u t) as [->|]; auto. Qed.

Lemma return_pcs w r l t s u d : carries (pcs (log_return w r l t s) u) = Some d -> carries (pcs s u) = Some d.
Proof. destruct w; cbn; intros C; apply carries_set in C as [C|[_ C]]; auto; discriminate. Qed.
Lemma grab_pcs s t s' f : grab_output s t = Some (s', f) -> pcs s' = pcs s.
Proof. unfold grab_output. destruct (out s); [discriminate|]. intros H; injection H as <- _. reflexivity. Qed.
Lemma after_carries k f : carries (after_write k f) = carries (WWrite k f).
Proof. destruct k; reflexivity. Qed.

Lemma step_carries s t o s' u d : lstep s t o = Next s' -> carries (pcs s' u) = Some d ->
  (exists v, carries (pcs s v) = Some d) \/ op_data o = Some d.
Proof.
  intros E C. unfold lstep, wrap in E.
  destruct (pcs s t) as [r|w' d' fs|w' d' fs|w' d' fs|w' d' fs f|w' d' fs f|k f|k f|k f|k f|w' d' fs f|w' d' fs f|w' d' fs|w' l fs|w' l|w' l f|w' l f|w' l f|w' l f|w' l f|w' l f| | |l| | |l|l f|f] eqn:P;
  repeat match type of E with
    | context [match ?x with _ => _ end] => destruct x eqn:?; try discriminate
    | context [if ?x then _ else _] => destruct x eqn:?; try discriminate
    end;
  try discriminate; injection E as <-;
  repeat match goal with H : write_outbuf _ = Some _ |- _ => apply write_pcs in H | H : swap _ = Some _ |- _ => apply swap_pcs in H | H : grab_output _ _ = Some _ |- _ => apply grab_pcs in H end;
  try apply return_pcs in C;
  cbn [pcs go set_lock set_out set_bufs set_fsynced set_files set_lfm] in *;
  rewrite ?release_pcs in C; cbn in C;
  repeat match goal with H : pcs _ = pcs _ |- _ => rewrite H in C end;
  try (left; eauto; fail); apply carries_set in C as [C|[-> C]]; rewrite ?after_carries in C; try (left; eauto; fail); try discriminate; cbn in C;
  try (right; cbn; exact C); try (left; exists t; rewrite P; exact C).
  destruct (fsynced s <? f); cbn in C; left; eauto.
Qed.

Theorem C26_no_assertion_fails_partial : forall fl nexti lgmax tr s t o,
  dir_ok fl nexti -> Forall (fun p => op_short (snd p)) tr -> lrun (lgr_open fl nexti lgmax) tr s ->
  lstep s t o <> Abort.
Proof.
  intros fl nx mx tr s t o D F R.
  assert (RE : reached s) by (exists fl, nx, mx, tr; auto).
  apply step_no_abort; [apply reached_inv, RE|].
  assert (K : forall u d, carries (pcs s u) = Some d -> len d < 2 ^ 29).
  { assert (K0 : forall u d, carries (pcs (lgr_open fl nx mx) u) = Some d -> len d < 2 ^ 29) by (intros u d H; discriminate H).
    clear RE D. revert R K0 F. generalize (lgr_open fl nx mx). intros z R K0 F.
    induction R as [|z t0 o0 z1 tr z2 OK E R IH]; [exact K0|]. inversion F; subst. apply IH; auto.
    intros u d C. destruct (step_carries _ _ _ _ _ _ E C) as [[v V]|V]; [eapply K0; eauto|].
    match goal with H : op_short _ |- _ => exact (H d V) end. }
  unfold short_pc. destruct (pcs s t) eqn:P; auto. apply (K t). now rewrite P.
Qed.
Print Assumptions C26_no_assertion_fails_partial.

(** * C27: trimming *)

(** The checkpoint recovery starts from: it is only remembered once its begin record is on
    stable storage, it never moves back, and no record from it on is ever deleted. *)
Theorem C27_trim_keeps_what_recovery_needs : forall s r,
  reached s -> In r (hist s) -> last_ck s <= r_lsn r ->
  ~ In r (gone s) /\
  In r (recs s ++ b_recs (outb s) ++ b_recs (inb s)).
Proof.
  intros s r R H C. pose proof (i_data s (reached_inv s R)) as D. split.
  - intros G. pose proof (d_gone s D) as F. rewrite Forall_forall in F. specialize (F r G). lia.
  - rewrite <- (d_hist s D) in H. apply in_app_iff in H as [G|H]; [|exact H].
    pose proof (d_gone s D) as F. rewrite Forall_forall in F. specialize (F r G). lia.
Qed.
Print Assumptions C27_trim_keeps_what_recovery_needs.

Theorem C27_checkpoint_start_is_stable : forall s,
  reached s -> last_ck s <> 0 -> exists d, In (last_ck s, d) (stable s).
Proof.
  intros s R NZ. pose proof (reached_inv s R) as I. pose proof (i_data s I) as D.
  destruct (d_ckr s D) as [Z|IN]; [contradiction|]. apply in_map_iff in IN as ((l & d) & E & IN).
  cbn in E. subst l. exists d.
  destruct (synced_stable s (last_ck s) (last_ck s, d) I (d_ckf s D) IN) as [X|X]; [cbn; lia|exact X|].
  pose proof (d_gone s D) as GO. rewrite Forall_forall in GO. specialize (GO _ X). cbn in GO. lia.
Qed.
Print Assumptions C27_checkpoint_start_is_stable.

Lemma step_ck_mono s t o s' : linv s -> op_ok o -> lstep s t o = Next s' -> last_ck s <= last_ck s'.
Proof.
  intros I OK E. pose proof (i_data s I) as D. unfold lstep, wrap in E.
  destruct (pcs s t) eqn:P;
  repeat match type of E with
    | context [match ?x with _ => _ end] => destruct x eqn:?; try discriminate
    | context [if ?x then _ else _] => destruct x eqn:?; try discriminate
    end;
  try discriminate; injection E as <-;
  unfold log_return, release_output, write_outbuf, swap, grab_output in *;
  repeat match goal with
    | |- context [match ?x with _ => _ end] => destruct x eqn:?
    | H : match ?x with _ => _ end = Some _ |- _ => destruct x eqn:?; try discriminate
    | H : Some _ = Some _ |- _ => injection H as <-
    end; cbn; try lia; try discriminate;
  repeat match goal with H : Some _ = Some _ |- _ => injection H; clear H; intros; subst end; cbn; try lia.
  all: try (match goal with H : ck ?z = Some (_, Some ?b) |- _ => pose proof (d_ckb z D _ _ H); lia end).
Qed.

Theorem C27_checkpoint_never_moves_back : forall s tr s',
  reached s -> lrun s tr s' -> last_ck s <= last_ck s'.
Proof.
  intros s tr s' R RN. pose proof (reached_inv s R) as I. clear R.
  induction RN as [|s t o s1 tr s2 OK E RN IH]; [lia|].
  pose proof (step_ck_mono s t o s1 I OK E). specialize (IH (step_inv s t o s1 I OK E)). lia.
Qed.
Print Assumptions C27_checkpoint_never_moves_back.

(** After a crash every record from the checkpoint on whose durability was promised, and the
    record that begins the checkpoint, are in the files recovery will read. *)
Theorem C27_recovery_finds_the_checkpoint : forall s disk,
  reached s -> crash s disk -> last_ck s <> 0 -> exists d, In (last_ck s, d) (concat_recs disk).
Proof.
  intros s disk R C NZ. destruct (C27_checkpoint_start_is_stable s R NZ) as [d ST]. exists d.
  unfold stable in ST. unfold concat_recs. clear -C ST.
  induction C as [|f e fl dd (A & k & B & E) C IH]; [exact ST|].
  cbn [map concat] in *. apply in_app_iff in ST. apply in_app_iff. destruct ST as [ST|ST]; [left|auto].
  rewrite E. rewrite <- (firstn_skipn (f_sync f) (firstn k (f_recs f))). apply in_app_iff. left.
  rewrite firstn_firstn. now rewrite Nat.min_l by lia.
Qed.
Print Assumptions C27_recovery_finds_the_checkpoint.

(** * Concrete cases *)

(** Group commit: thread 0 has appended its commit and waits; thread 1's fsync covers both. *)
Example C26_case : exists s, reached s /\ pcs s 0%nat = Ret (RSynced 1) /\ pcs s 1%nat = Ret (RSynced 2) /\
  last_ck s = 0 /\ map r_lsn (hist s) = [1; 2] /\ map r_lsn (stable s) = [1; 2].
Proof.
  assert (L : leads (start 1000) (stays 0 (OLog d21 true) 5 ++ stays 1 (OLog d21 true) 13) (stays 0 OFlush 1)
    (fun _ s => ret_eqb (pcs s 0%nat) (RSynced 1) && ret_eqb (pcs s 1%nat) (RSynced 2) && (last_ck s =? 0) &&
       (if list_eq_dec N.eq_dec (map r_lsn (hist s)) [1; 2] then true else false) &&
       (if list_eq_dec N.eq_dec (map r_lsn (stable s)) [1; 2] then true else false)) = true)
    by (vm_compute; reflexivity).
  apply leads_ok in L as (s0 & s & _ & _ & R & P).
  rewrite !andb_true_iff in P. destruct P as ((((P1 & P2) & P3) & P4) & P5).
  exists s. split; [exact R|]. split; [now apply ret_eqb_ok|]. split; [now apply ret_eqb_ok|].
  split; [now apply N.eqb_eq|].
  split; [destruct (list_eq_dec N.eq_dec (map r_lsn (hist s)) [1; 2])|destruct (list_eq_dec N.eq_dec (map r_lsn (stable s)) [1; 2])];
    auto; discriminate.
Qed.

(** A flush that finds its record in the buffer. *)
Example C26_flush_case : exists s, reached s /\ pcs s 0%nat = FlRead /\ b_recs (inb s) <> [] /\ hist s <> [].
Proof.
  assert (L : leads (start 1000) (stays 0 (OLog d21 false) 5) (stays 0 OFlush 2)
    (fun _ s => match pcs s 0%nat, b_recs (inb s), hist s with FlRead, _ :: _, _ :: _ => true | _, _, _ => false end) = true)
    by (vm_compute; reflexivity).
  apply leads_ok in L as (s0 & s & _ & _ & R & P). exists s. split; [exact R|].
  destruct (pcs s 0%nat); try discriminate. destruct (b_recs (inb s)); try discriminate.
  destruct (hist s); try discriminate. repeat split; discriminate.
Qed.

(** Files of one record each: a checkpoint (begin record 3, end record 4) deletes the file of
    record 1 and keeps the file of the begin record. *)
Example C27_case : exists s, reached s /\ last_ck s = 3 /\ map r_lsn (gone s) = [1; 2] /\
  map r_lsn (hist s) = [1; 2; 3; 4] /\ map r_lsn (stable s) = [3; 4].
Proof.
  assert (L : leads (start 20)
     (stays 0 (OLog d21 true) 16 ++ stays 0 (OLog d21 true) 16 ++ stays 1 (OCkBegin d21) 5) (stays 1 (OCkEnd d21) 23)
    (fun _ s => (last_ck s =? 3) &&
       (if list_eq_dec N.eq_dec (map r_lsn (gone s)) [1; 2] then true else false) &&
       (if list_eq_dec N.eq_dec (map r_lsn (hist s)) [1; 2; 3; 4] then true else false) &&
       (if list_eq_dec N.eq_dec (map r_lsn (stable s)) [3; 4] then true else false)) = true)
    by (vm_compute; reflexivity).
  apply leads_ok in L as (s0 & s & _ & _ & R & P).
  rewrite !andb_true_iff in P. destruct P as (((P1 & P2) & P3) & P4).
  exists s. split; [exact R|]. split; [now apply N.eqb_eq|].
  split; [|split].
  - destruct (list_eq_dec N.eq_dec (map r_lsn (gone s)) [1; 2]); auto; discriminate.
  - destruct (list_eq_dec N.eq_dec (map r_lsn (hist s)) [1; 2; 3; 4]); auto; discriminate.
  - destruct (list_eq_dec N.eq_dec (map r_lsn (stable s)) [3; 4]); auto; discriminate.
Qed.
