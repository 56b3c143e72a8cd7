(** Concrete runs of the row system, for the examples. *)
From Verif Require Import Base Bytes UleModel UleSpec LeCodecProofs MgrModel MgrSpec MgrProofs MvccModel MvccSpec MvccRead.
Open Scope N_scope.

Definition activeb (y : rsys) (r : txnid) : bool :=
  match find_txn r (y_txns y) with Some t => match t_phase t with PActive => true | _ => false end | None => false end.
Definition writableb (y : rsys) (r : txnid) : bool :=
  match find_root r (ms_roots (y_ms y)) with Some rt => negb (r_ro rt) | None => false end.
Definition lockableb (y : rsys) (r : txnid) : bool :=
  match y_lock y with Some q => q =? r | None => true end.
Definition nosnapb (y : rsys) (r : txnid) : bool := forallb (fun p => negb (fst p =? r)) (ms_child (y_ms y)).
Definition wkb (w : wkind) : bool :=
  match w with WPut v | WPutNew v => N.of_nat (length v) <? 2 ^ 31 | WDel => true | WUpd _ => false end.
Definition selb (os : list obs) (k : nat) (s : gcsel) : bool :=
  match nth_error os (gs_simple s), nth_error os (gs_promo s) with
  | Some _, Some b => Nat.leb (ob_n b) k && match gs_state s with
                        | None => true
                        | Some (_, i) => match nth_error os i with Some c => Nat.leb k (ob_n c) | None => false end
                        end
  | _, _ => false
  end.

Definition legalb (y : rsys) (o : rop) : bool :=
  match o with
  | OBegin _ _ => true
  | OChildSnap r => activeb y r
  | OChildSnapEnd s => existsb (fun p => s_id (snd p) =? s) (ms_child (y_ms y))
  | OTouch r => activeb y r && writableb y r
  | OChild r => match find_txn r (y_txns y) with
                | Some t => activeb y r && Nat.ltb (length (t_levels t)) MAX_NESTED_TRANSACTIONS && (t_last t + 2 <? 2 ^ 64)
                | None => false end
  | OReadLock r => activeb y r && lockableb y r
  | OWrite r w => activeb y r && writableb y r && lockableb y r && wkb w
  | OChildCommit r => match find_txn r (y_txns y) with
                | Some t => activeb y r && Nat.ltb 1 (length (t_levels t)) | None => false end
  | OAbort r => activeb y r
  | OAbortMsg r => match find_txn r (y_txns y) with
                | Some t => match t_phase t with PAbort (S _) => true | _ => false end | None => false end
  | OAbortDone r => match find_txn r (y_txns y) with
                | Some t => match t_phase t with PAbort O => Nat.ltb 1 (length (t_levels t)) || nosnapb y r | _ => false end
                | None => false end
  | OCommit r => match find_txn r (y_txns y) with
                | Some t => activeb y r && Nat.eqb (length (t_levels t)) 1 | None => false end
  | OCommitMsg r => match find_txn r (y_txns y) with
                | Some t => match t_phase t with PCommit (_ :: _) => true | _ => false end | None => false end
  | OCommitDone r => match find_txn r (y_txns y) with
                | Some t => match t_phase t with PCommit [] => nosnapb y r | _ => false end | None => false end
  | OObserve => true
  | OOptimize i => match nth_error (y_obs y) i with
                | Some ob => match m_live (ob_mgr ob) with [] => Nat.eqb (ob_n ob) (length (y_msgs y)) | _ => true end
                | None => false end
  | OApply j s => match nth_error (y_copies y) j with
                | Some (k, _) => Nat.ltb k (length (y_msgs y)) && selb (y_obs y) (S k) s | None => false end
  | OGc j s => match nth_error (y_copies y) j with
                | Some (k, Some _) => selb (y_obs y) k s && match gs_state s with Some _ => true | None => false end
                | _ => false end
  end.

Lemma activeb_ok y r : activeb y r = true -> active y r.
Proof. unfold activeb, active. destruct (find_txn _ _) as [t|]; [|discriminate]. destruct (t_phase t) eqn:E; try discriminate. eauto. Qed.
Lemma writableb_ok y r : writableb y r = true -> writable y r.
Proof. unfold writableb, writable. destruct (find_root _ _) as [t|]; [|discriminate]. intros H. apply negb_true_iff in H. eauto. Qed.
Lemma lockableb_ok y r : lockableb y r = true -> lockable y r.
Proof. unfold lockableb, lockable. destruct (y_lock y); auto. intros H. apply N.eqb_eq in H. subst. auto. Qed.
Lemma nosnapb_ok y r : nosnapb y r = true -> no_child_snaps y r.
Proof.
  unfold nosnapb, no_child_snaps. intros H n Hi. rewrite forallb_forall in H. specialize (H _ Hi). cbn in H.
  rewrite N.eqb_refl in H. discriminate.
Qed.
Lemma wkb_ok w : wkb w = true -> wkind_ok w.
Proof. destruct w; cbn -[N.pow]; try discriminate; auto; apply N.ltb_lt. Qed.
Lemma selb_ok os k s : selb os k s = true -> sel_legal os k s.
Proof.
  unfold selb, sel_legal. destruct (nth_error os (gs_simple s)) as [a|]; [|discriminate].
  destruct (nth_error os (gs_promo s)) as [b|]; [|discriminate]. intros H. apply andb_true_iff in H. destruct H as [H1 H2].
  apply Nat.leb_le in H1. split; eauto. split; eauto. destruct (gs_state s) as [[g i]|]; auto.
  destruct (nth_error os i) as [c|]; [|discriminate]. apply Nat.leb_le in H2. eauto.
Qed.

Lemma legalb_ok y o : legalb y o = true -> rop_legal y o.
Proof.
  destruct o as [ro rec|r|s|r|r|r|r w|r|r|r|r|r|r|r| |i|j s|j s]; cbn [legalb rop_legal]; intros H; auto.
  - apply activeb_ok; auto.
  - apply existsb_exists in H. destruct H as ([x n] & Hi & E). apply N.eqb_eq in E. eauto.
  - apply andb_true_iff in H. destruct H. split; [apply activeb_ok|apply writableb_ok]; auto.
  - destruct (find_txn r (y_txns y)) as [t|] eqn:Ef; [|discriminate]. apply andb_true_iff in H. destruct H as [H H3].
    apply andb_true_iff in H. destruct H as [H1 H2]. apply Nat.ltb_lt in H2. apply N.ltb_lt in H3.
    exists t. destruct (activeb_ok _ _ H1) as (t' & Ht & Hp). rewrite Ef in Ht. injection Ht as <-. auto.
  - apply andb_true_iff in H. destruct H. split; [apply activeb_ok|apply lockableb_ok]; auto.
  - apply andb_true_iff in H. destruct H as [H H4]. apply andb_true_iff in H. destruct H as [H H3].
    apply andb_true_iff in H. destruct H as [H1 H2].
    split; [apply activeb_ok; auto|]. split; [apply writableb_ok; auto|]. split; [apply lockableb_ok; auto|apply wkb_ok; auto].
  - destruct (find_txn r (y_txns y)) as [t|] eqn:Ef; [|discriminate]. apply andb_true_iff in H. destruct H as [H1 H2].
    apply Nat.ltb_lt in H2. exists t. destruct (activeb_ok _ _ H1) as (t' & Ht & Hp). rewrite Ef in Ht. injection Ht as <-. auto.
  - apply activeb_ok; auto.
  - destruct (find_txn r (y_txns y)) as [t|] eqn:Ef; [|discriminate]. destruct (t_phase t) as [| |[|n]] eqn:Ep; try discriminate.
    eauto.
  - destruct (find_txn r (y_txns y)) as [t|] eqn:Ef; [|discriminate]. destruct (t_phase t) as [| |[|n]] eqn:Ep; try discriminate.
    apply orb_true_iff in H. exists t. split; auto. split; auto. destruct H as [H|H]; [left; apply Nat.ltb_lt; auto|right; apply nosnapb_ok; auto].
  - destruct (find_txn r (y_txns y)) as [t|] eqn:Ef; [|discriminate]. apply andb_true_iff in H. destruct H as [H1 H2].
    apply Nat.eqb_eq in H2. exists t. destruct (activeb_ok _ _ H1) as (t' & Ht & Hp). rewrite Ef in Ht. injection Ht as <-. auto.
  - destruct (find_txn r (y_txns y)) as [t|] eqn:Ef; [|discriminate]. destruct (t_phase t) as [|[|b l]|] eqn:Ep; try discriminate.
    eauto.
  - destruct (find_txn r (y_txns y)) as [t|] eqn:Ef; [|discriminate]. destruct (t_phase t) as [|[|b l]|] eqn:Ep; try discriminate.
    split; [eauto|]. apply nosnapb_ok. auto.
  - destruct (nth_error _ _) as [ob|]; [|discriminate]. exists ob. split; auto. destruct (m_live (ob_mgr ob)); [|left; discriminate].
    right. apply Nat.eqb_eq. auto.
  - destruct (nth_error _ _) as [[k le]|]; [|discriminate]. apply andb_true_iff in H. destruct H as [H1 H2]. apply Nat.ltb_lt in H1.
    exists k, le. split; auto. split; auto. apply selb_ok. auto.
  - destruct (nth_error _ _) as [[k [u|]]|]; try discriminate. apply andb_true_iff in H. destruct H as [H1 H2].
    exists k, u. split; auto. split; [apply selb_ok; auto|]. destruct (gs_state s); congruence.
Qed.

Definition idsb (y : rsys) : bool := m_last (ms_mgr (y_ms y)) + 3 <? TXNID_MAX.

Fixpoint run (y : rsys) (ops : list rop) : option rsys :=
  match ops with
  | [] => Some y
  | o :: ops' => if legalb y o && idsb y then (do y1 <- rstep y o; run y1 ops') else None
  end.

Lemma run_steps y ops y' : run y ops = Some y' -> rsteps y y'.
Proof.
  revert y. induction ops as [|o ops IH]; intros y H; cbn [run] in H.
  - apply Some_inj in H. subst. constructor.
  - destruct (legalb y o && idsb y) eqn:E; [|discriminate]. apply andb_true_iff in E. destruct E as [E1 E2].
    destruct (rstep y o) as [y1|] eqn:Es; [|discriminate]. apply N.ltb_lt in E2.
    eapply rs_step; [apply legalb_ok; exact E1|exact E2|exact Es|apply IH; auto].
Qed.

Lemma run_reach last ops y : last < TXNID_MAX -> run (rsys_init last) ops = Some y -> rreach last y.
Proof. intros Hl H. apply run_steps in H. eapply rsteps_reach; eauto. constructor. auto. Qed.
