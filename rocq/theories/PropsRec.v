(** Crash recovery (C28).

    A history is any interleaving of transactions (nested, prepared), opens and closes
    of dictionaries, and checkpoints that run concurrently with them.  A crash leaves
    the versions of the dictionaries written so far and any prefix of the log that
    contains the flushed part.  The theorems compare what is read after recovery with
    [committed], the value of a row according to the user's operations in that prefix
    (RecSpec.v), where everything done by transactions without a commit record can be
    left out.

    Missing from the full statement of C28, hence the suffix: a crash while recovery
    runs, before the checkpoint it ends with is complete; creating and deleting
    dictionaries; crashes in the middle of the write of a log record (C25) or of a
    dictionary version (C18, C20); the recovery of row locks of prepared transactions
    (they are given to their owners, RecModel.v recover). *)
From Coq Require Import Sorted.
From Verif Require Import Base UleModel MgrModel MvccModel MvccSpec RecModel RecSpec RecIdeal RecFiles RecSim RecBlock RecReplay
  RecRun RecSteps RecCkpt RecCrash RecRow RecLeaf RecExec.
Open Scope N_scope.

(** Reading row [k] of dictionary [nm]: the leaf entry all messages for the row lead to
    ([stored]: of the open dictionary or of the file), read as in ft/ule.cc. *)
Definition read_row (how : read_type) (rd : reader) (s : sys) (nm : fname) (k : rkey) : option (option val) :=
  do o <- leaf_run None (rmsgs k (stored s nm)); row_read how rd o.

(** Recovery never fails. *)
Theorem C28_recovery_succeeds_partial s n : exec false s -> (y_flushed s <= n <= length (y_log s))%nat ->
  exists s', recover (crash n s) = Some s' /\ exec true s'.
Proof.
  intros E Hn. destruct (exec_inv _ _ E) as [W (J & Iv)]. destruct (recover_inv _ _ _ Iv Hn) as (s' & _ & _ & _ & R & _).
  exists s'. split; [auto|]. eapply ex_crash; eauto.
Qed.

Lemma recovered s n s' : exec false s -> (y_flushed s <= n <= length (y_log s))%nat -> recover (crash n s) = Some s' ->
  exists I out, Core s' I /\ y_log s' = firstn n (y_log s) ++ out ++ [LComment true] /\ Forall (fun x => exists r c, x = LAbort r c) out
    /\ wkinds_ok (y_log s') /\ (forall r, In r (map pt_root (y_txns s')) <-> in_doubt (firstn n (y_log s)) r).
Proof.
  intros E Hn R. destruct (exec_inv _ _ E) as [W (J & Iv)].
  destruct (recover_inv _ _ _ Iv Hn) as (s2 & J2 & out & K & R2 & (Co & _) & _ & EK & El & Ho & Ht). rewrite R in R2. injection R2 as <-.
  exists J2, out. split; [auto|]. split; [auto|]. split; [eapply Forall_impl; [|exact Ho]; intros x (t & c & -> & _); eauto|]. split.
  - apply (exec_inv true). eapply ex_crash; eauto.
  - intros r. rewrite <- (in_doubt_ok _ K EK). unfold prep_at. rewrite in_map_iff. split.
    + intros (u & Er & Hu). apply Ht in Hu. exists u. tauto.
    + intros (u & Hu & Er & Hp). exists u. split; [auto|]. apply Ht. auto.
Qed.

(** After recovery every row has its committed value, and only the transactions with a
    commit record contribute to it: for a new snapshot, whatever is in doubt, and for a
    reader of the newest value unless a transaction in doubt has the row locked. *)
Theorem C28_exactly_committed_partial s n s' nm k rd :
  exec false s -> (y_flushed s <= n <= length (y_log s))%nat -> recover (crash n s) = Some s' ->
  let durable := firstn n (y_log s) in
  (new_reader s' rd -> read_row C_READ_SNAPSHOT rd s' nm k = Some (committed nm k (only_committed durable)))
  /\ (y_locks s' nm k = None -> read_row C_READ_ANY rd s' nm k = Some (committed nm k (only_committed durable))).
Proof.
  intros E Hn R durable. destruct (recovered _ _ _ E Hn R) as (J & out & Co & El & Ho & Wk & _).
  assert (Ec : committed nm k (y_log s') = committed nm k (only_committed durable)).
  { rewrite El, committed_tail by auto. symmetry. apply committed_only. }
  destruct (leaf_reads nm k (y_log s') J Wk (c_run _ _ Co)) as (o & Eo & Ra & Rs).
  unfold read_row. rewrite (stored_ok _ _ _ Co), Eo. split.
  - intros Hr. rewrite <- Ec. apply Rs. intros x Hx. eapply new_reader_reads; eauto.
  - intros Hl. rewrite <- Ec. apply Ra. rewrite <- (c_locks _ _ Co). auto.
Qed.

(** The transactions alive after recovery are those prepared in the durable log with
    neither commit nor abort after it. *)
Theorem C28_in_doubt_partial s n s' r :
  exec false s -> (y_flushed s <= n <= length (y_log s))%nat -> recover (crash n s) = Some s' ->
  In r (map pt_root (y_txns s')) <-> in_doubt (firstn n (y_log s)) r.
Proof. intros E Hn R. destruct (recovered _ _ _ E Hn R) as (J & out & _ & _ & _ & _ & H). apply H. Qed.

(** While the system runs, crashes and recoveries behind it included, rows also have the
    values the log says. *)
Theorem C28_running_partial ph s nm k rd : exec ph s ->
  (new_reader s rd -> read_row C_READ_SNAPSHOT rd s nm k = Some (committed nm k (only_committed (y_log s))))
  /\ (y_locks s nm k = None -> read_row C_READ_ANY rd s nm k = Some (committed nm k (only_committed (y_log s)))).
Proof.
  intros E. destruct (exec_inv _ _ E) as [Wk (J & Co & _)]. rewrite committed_only.
  destruct (leaf_reads nm k (y_log s) J Wk (c_run _ _ Co)) as (o & Eo & Ra & Rs).
  unfold read_row. rewrite (stored_ok _ _ _ Co), Eo. split.
  - intros Hr. apply Rs. intros x Hx. eapply new_reader_reads; eauto.
  - intros Hl. apply Ra. rewrite <- (c_locks _ _ Co). auto.
Qed.

(** * Recovering again *)

(** The checkpoint at the end of recovery (recover.cc:1629-1641). *)
Inductive finish : sys -> sys -> Prop :=
| fin_end s s' : step s SCkEnd = Some s' -> finish s s'
| fin_step s o s1 s' : ck_op o = true -> is_ckend o = false -> step s o = Some s1 -> finish s1 s' -> finish s s'.

Definition ck_rec (x : lrec) : bool :=
  match x with LBeginCk _ | LEndCk _ _ _ | LFassoc _ _ | LFassocRb | LStill _ _ _ _ _ | LStillPrep _ _ _ => true | _ => false end.

Lemma still_ck r : forall ls p, forallb ck_rec (still_recs r p ls) = true.
Proof. induction ls as [|l ls IH]; intros p; cbn; auto. Qed.
Lemma ck_step_log s o s' : ck_op o = true -> step s o = Some s' ->
  (y_flushed s <= y_flushed s' \/ length (y_log s) <= y_flushed s')%nat /\ exists l, y_log s' = y_log s ++ l /\ forallb ck_rec l = true.
Proof.
  intros Ho E. destruct o; try discriminate Ho; cbn [step] in E.
  - destruct (y_ck s); [discriminate|]. injection E as <-. cbn [y_log y_flushed]. split; [lia|]. eexists. split; [reflexivity|].
    unfold ck_recs. cbn [forallb ck_rec andb]. rewrite forallb_app. apply andb_true_iff. split.
    + apply forallb_forall. intros x Hx. apply in_map_iff in Hx. destruct Hx as (p & <- & _). reflexivity.
    + apply forallb_forall. intros x Hx. apply in_flat_map in Hx. destruct Hx as (t & _ & Hx). revert x Hx. apply forallb_forall. unfold still_of.
      destruct (pt_levels t) as [|l1 [|l2 ls]]; try apply still_ck. destruct (pt_prep t); [reflexivity|apply still_ck].
  - destruct (y_ck s) as [c|]; [|discriminate]. destruct (find _ _); [|discriminate]. destruct (flook _ _); [|discriminate]. injection E as <-. cbn [y_log y_flushed].
    split; [lia|]. exists []. rewrite app_nil_r. auto.
  - destruct (y_ck s) as [c|]; [|discriminate]. destruct (k_rb c); [|discriminate]. injection E as <-. cbn [y_log y_flushed]. split; [lia|]. exists []. rewrite app_nil_r. auto.
  - destruct (y_ck s) as [c|]; [|discriminate]. destruct (is_nil _); [|discriminate]. destruct (is_some _); [discriminate|]. injection E as <-. cbn [y_log y_flushed].
    split; [right; rewrite app_length; lia|]. eauto.
  - injection E as <-. cbn [y_log y_flushed]. split; [lia|]. exists []. rewrite app_nil_r. auto.
Qed.

Lemma finish_log s s' : finish s s' ->
  (forall m, (m <= y_flushed s)%nat -> (m <= length (y_log s))%nat -> (m <= y_flushed s')%nat)
  /\ exists l, y_log s' = y_log s ++ l /\ forallb ck_rec l = true.
Proof.
  intros F. induction F as [s s' E|s o s1 s' Ho He E F IH].
  - destruct (ck_step_log s SCkEnd s' eq_refl E) as [A B]. split; [intros; lia|auto].
  - destruct (ck_step_log s o s1 Ho E) as [A (l & El & B)]. destruct IH as [A2 (l2 & El2 & B2)]. split.
    + intros m H1 H2. apply A2; [lia|]. rewrite El, app_length. lia.
    + exists (l ++ l2). rewrite El2, El, app_assoc, forallb_app, B, B2. auto.
Qed.

Lemma finish_exec s s' : finish s s' -> exec true s -> exec false s'.
Proof.
  induction 1 as [s s' E|s o s1 s' Ho He E F IH]; intros X.
  - exact (ex_ck s SCkEnd s' X eq_refl E).
  - apply IH. pose proof (ex_ck s o s1 X Ho E) as Y. rewrite He in Y. exact Y.
Qed.

Lemma forallb_impl' {A} (f g : A -> bool) l : (forall x, f x = true -> g x = true) -> forallb f l = true -> forallb g l = true.
Proof. intros H. rewrite !forallb_forall. auto. Qed.
Lemma forallb_firstn {A} (f : A -> bool) l n : forallb f l = true -> forallb f (firstn n l) = true.
Proof. rewrite <- (firstn_skipn n l) at 1. rewrite forallb_app, andb_true_iff. tauto. Qed.
Lemma committed_ck nm k l x : forallb ck_rec x = true -> committed nm k (l ++ x) = committed nm k l.
Proof.
  intros H. unfold committed. rewrite row_events_app. assert (E : forall o, row_events nm k o x = []).
  { induction x as [|y x IH]; intros o; [reflexivity|]. cbn in H. apply andb_true_iff in H. destruct H as [H1 H2]. destruct y; try discriminate H1; cbn [row_events]; auto. }
  rewrite E, app_nil_r. reflexivity.
Qed.
Lemma in_doubt_app l x r : forallb (fun y => match y with LPrepare _ | LCommit _ _ | LAbort _ _ => false | _ => true end) x = true -> in_doubt (l ++ x) r <-> in_doubt l r.
Proof.
  induction x as [|y x IH] using rev_ind; intros H; [now rewrite app_nil_r|]. rewrite forallb_app in H. apply andb_true_iff in H. destruct H as [H1 H2].
  cbn in H2. rewrite app_assoc, in_doubt_snoc, IH by auto. destruct y; try discriminate H2; (split; [intros [X|[X _]]; [discriminate|auto]|intros X; right; repeat split; auto; discriminate]).
Qed.
Lemma in_doubt_aborts l x r : Forall (fun y => exists q c, y = LAbort q c) x -> in_doubt (l ++ x) r -> in_doubt l r.
Proof.
  induction x as [|y x IH] using rev_ind; intros H D; [now rewrite app_nil_r in D|]. apply Forall_app in H. destruct H as [H1 H2].
  apply Forall_cons_iff in H2. destruct H2 as [(q & c & ->) _]. rewrite app_assoc, in_doubt_snoc in D. destruct D as [D|[D _]]; [discriminate|auto].
Qed.

Lemma recover_flushed im s : recover im = Some s -> y_flushed s = length (y_log s).
Proof.
  unfold recover. destruct (replay im); [|discriminate]. destruct (scan_back _ _) as [[b e]|]; [|discriminate].
  destruct (abort_all _ _ _ _) as [[[ts fs] out]|]; [|discriminate]. destruct (close_all _ _ _ _) as [fs' d]. intros [= <-]. reflexivity.
Qed.

(** Crash, recover, let recovery's checkpoint finish, crash again at once, recover
    again: it succeeds, every row reads the same, the same transactions are in doubt. *)
Theorem C28_recover_again_partial s n s1 s2 m :
  exec false s -> (y_flushed s <= n <= length (y_log s))%nat -> recover (crash n s) = Some s1 ->
  finish s1 s2 -> (y_flushed s2 <= m <= length (y_log s2))%nat ->
  exists s3, recover (crash m s2) = Some s3
   /\ (forall nm k rd1 rd3, new_reader s1 rd1 -> new_reader s3 rd3 ->
         read_row C_READ_SNAPSHOT rd3 s3 nm k = read_row C_READ_SNAPSHOT rd1 s1 nm k)
   /\ (forall r, In r (map pt_root (y_txns s3)) <-> In r (map pt_root (y_txns s1))).
Proof.
  intros E Hn R F Hm. assert (E1 : exec true s1) by (eapply ex_crash; eauto). assert (E2 := finish_exec _ _ F E1).
  destruct (C28_recovery_succeeds_partial s2 m E2 Hm) as (s3 & R3 & E3). exists s3. split; [auto|].
  destruct (finish_log _ _ F) as [Fl (l & El & Hl)].
  assert (Hlen : (length (y_log s1) <= m)%nat). { rewrite <- (recover_flushed _ _ R). etransitivity; [apply Fl|apply Hm]; rewrite (recover_flushed _ _ R); lia. }
  assert (Ep : exists l', firstn m (y_log s2) = y_log s1 ++ l' /\ forallb ck_rec l' = true).
  { exists (firstn (m - length (y_log s1)) l). rewrite El, firstn_app, firstn_all2 by auto. split; [auto|apply forallb_firstn; auto]. }
  destruct Ep as (l' & Ep & Hl'). split.
  - intros nm k rd1 rd3 N1 N3. destruct (C28_exactly_committed_partial s2 m s3 nm k rd3 E2 Hm R3) as [-> _]; [|auto].
    destruct (C28_running_partial true s1 nm k rd1 E1) as [-> _]; [|auto]. rewrite !committed_only, Ep, committed_ck by auto. reflexivity.
  - intros r. rewrite (C28_in_doubt_partial _ _ _ r E2 Hm R3), (C28_in_doubt_partial _ _ _ r E Hn R), Ep.
    rewrite in_doubt_app by (eapply forallb_impl'; [|exact Hl']; intros y; destruct y; auto; discriminate).
    destruct (recovered _ _ _ E Hn R) as (J & out & Co & El1 & Ho & _ & Ht). rewrite <- Ht. split.
    + intros D. rewrite El1, app_assoc, in_doubt_app in D by reflexivity. apply in_doubt_aborts in D; [|auto]. apply Ht. auto.
    + intros D. apply in_map_iff in D. destruct D as (u & Er & Hu). apply (in_doubt_ok _ J (c_run _ _ Co)). exists u. rewrite <- (c_txns _ _ Co). split; [auto|]. split; [auto|].
      destruct (exec_inv _ _ E) as [_ (I0 & Iv)]. destruct (recover_inv _ _ _ Iv Hn) as (s4 & J4 & out4 & K & R4 & _ & _ & _ & _ & _ & H4). rewrite R in R4. injection R4 as <-. apply H4 in Hu. tauto.
Qed.

(** * A history with a crash *)

Fixpoint run (s : sys) (l : list sop) : option sys :=
  match l with [] => Some s | o :: l' => do s' <- step s o; run s' l' end.
Lemma run_exec l : forall s s', exec false s -> Forall op_ok l -> run s l = Some s' -> exec false s'.
Proof.
  induction l as [|o l IH]; intros s s' E H R; cbn in R; [injection R as <-; auto|]. apply Forall_cons_iff in H. destruct H as [H1 H2].
  destruct (step s o) as [s1|] eqn:E1; [|discriminate]. apply (IH s1); auto. eapply ex_step; eauto.
Qed.
Fixpoint run_finish (s : sys) (l : list sop) : option sys :=
  match l with
  | [] => step s SCkEnd
  | o :: l' => guard (ck_op o && negb (is_ckend o)); do s' <- step s o; run_finish s' l'
  end.
Lemma run_finish_ok l : forall s s', run_finish s l = Some s' -> finish s s'.
Proof.
  induction l as [|o l IH]; intros s s' R; cbn in R; [apply fin_end; auto|].
  destruct (ck_op o) eqn:H1; [|discriminate]. destruct (is_ckend o) eqn:H2; [discriminate|]. cbn in R.
  destruct (step s o) as [s1|] eqn:E1; [|discriminate]. eapply fin_step; eauto.
Qed.

(** Transaction 1 writes before the checkpoint begins and commits while it runs, 2 and a
    child of it write during the checkpoint and never end, 3 is prepared. *)
Definition ex_ops : list sop :=
  [SOpen 1 10; SStart; SStart; SStart; SBegin 1; SWrite 1 1 [7] (WPut [42]); SCkBegin; SBegin 2;
   SWrite 2 1 [8] (WPut [43]); SChild 2; SWrite 2 1 [9] (WPut [44]); SCommit 1; SCkFile 1; SCkRb; SCkEnd;
   SBegin 3; SWrite 3 1 [6] (WPut [45]); SPrepare 3; SFlush 19].
Definition ex_rd := mkReader 9 [3] 9.

Example C28_example : exists s s1 s2 s3,
  exec false s /\ (y_flushed s <= 19 <= length (y_log s))%nat
  /\ recover (crash 19 s) = Some s1 /\ new_reader s1 ex_rd /\ y_locks s1 10 [7] = None
  /\ map (read_row C_READ_SNAPSHOT ex_rd s1 10) [[6]; [7]; [8]; [9]] = [Some None; Some (Some [42]); Some None; Some None]
  /\ map pt_root (y_txns s1) = [3]
  /\ finish s1 s2 /\ (y_flushed s2 <= length (y_log s2) <= length (y_log s2))%nat
  /\ recover (crash (length (y_log s2)) s2) = Some s3 /\ new_reader s3 ex_rd
  /\ map (read_row C_READ_SNAPSHOT ex_rd s3 10) [[6]; [7]; [8]; [9]] = [Some None; Some (Some [42]); Some None; Some None].
Proof.
  assert (H : match run sys_init ex_ops with
              | Some s => match recover (crash 19 s) with
                | Some s1 => match run_finish s1 [SCkBegin; SCkFile 1; SCkRb] with
                  | Some s2 => match recover (crash (length (y_log s2)) s2) with
                    | Some s3 => y_flushed s = 19%nat /\ length (y_log s) = 19%nat /\ y_last s1 = 3 /\ map pt_root (y_txns s1) = [3] /\ y_locks s1 10 [7] = None
                      /\ map (read_row C_READ_SNAPSHOT ex_rd s1 10) [[6]; [7]; [8]; [9]] = [Some None; Some (Some [42]); Some None; Some None]
                      /\ y_flushed s2 = length (y_log s2) /\ y_last s3 = 3 /\ map pt_root (y_txns s3) = [3]
                      /\ map (read_row C_READ_SNAPSHOT ex_rd s3 10) [[6]; [7]; [8]; [9]] = [Some None; Some (Some [42]); Some None; Some None]
                    | None => False end
                  | None => False end
                | None => False end
              | None => False end) by (vm_compute; repeat split).
  destruct (run sys_init ex_ops) as [s|] eqn:R; [|contradiction]. destruct (recover (crash 19 s)) as [s1|] eqn:R1; [|contradiction].
  destruct (run_finish s1 _) as [s2|] eqn:F; [|contradiction]. destruct (recover (crash (length (y_log s2)) s2)) as [s3|] eqn:R3; [|contradiction].
  destruct H as (A1 & A2 & A3 & A4 & A5 & A6 & A7 & A8 & A9 & A10). exists s, s1, s2, s3.
  assert (Nr : forall u, y_last u = 3 -> map pt_root (y_txns u) = [3] -> new_reader u ex_rd).
  { intros u H1 H2. unfold new_reader, ex_rd. cbn. rewrite H1, H2. split; [lia|]. split; [lia|]. exists []. auto. }
  split; [apply (run_exec ex_ops sys_init); [constructor| |auto]|].
  { repeat (apply Forall_cons || apply Forall_nil); cbn; try exact Logic.I; repeat constructor. }
  split; [lia|]. split; [auto|]. split; [apply Nr; auto|]. split; [auto|]. split; [auto|]. split; [auto|].
  split; [eapply run_finish_ok; eauto|]. split; [lia|]. split; [auto|]. split; [apply Nr; auto|auto].
Qed.

Print Assumptions C28_recovery_succeeds_partial.
Print Assumptions C28_exactly_committed_partial.
Print Assumptions C28_in_doubt_partial.
Print Assumptions C28_running_partial.
Print Assumptions C28_recover_again_partial.
Print Assumptions C28_example.
