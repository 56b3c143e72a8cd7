(** Concrete runs of the dictionary, for the examples. *)
From Verif Require Import Base Bytes LtSpec KOrd KeyCmp UleModel MgrModel MgrProofs MvccModel MvccRun.
From Verif Require Import FtModel FtSpec OrkModel DbModel.
Open Scope nat_scope.

Section R.
Context (c : bytes -> bytes -> comparison).
Local Notation db := (db c).
Implicit Types d : db.

Definition dactiveb d r : bool := match dfind r (d_txns d) with Some t => match d_phase t with QActive => true | _ => false end | None => false end.
Definition dwritableb d r : bool := match find_root r (ms_roots (d_ms d)) with Some rt => negb (r_ro rt) | None => false end.
Definition dlockableb d r k : bool := match d_lock d k with Some q => (q =? r)%N | None => true end.
Definition dnosnapb d r : bool := forallb (fun p => negb (fst p =? r)%N) (ms_child (d_ms d)).
Definition clegalb d (o : cop) : bool :=
  match o with
  | CBegin _ _ => true
  | CChildSnap r => dactiveb d r
  | CChildSnapEnd s => existsb (fun p => s_id (snd p) =? s)%N (ms_child (d_ms d))
  | CChild r => match dfind r (d_txns d) with
                | Some t => dactiveb d r && Nat.ltb (length (d_levels t)) MAX_NESTED_TRANSACTIONS && (d_last t + 2 <? 2 ^ 64)%N
                | None => false end
  | CLock r k => dactiveb d r && dlockableb d r k
  | CWrite r k w => dactiveb d r && dwritableb d r && dlockableb d r k && wkb w
  | CChildCommit r => match dfind r (d_txns d) with Some t => dactiveb d r && Nat.ltb 1 (length (d_levels t)) | None => false end
  | CAbort r => dactiveb d r
  | CAbortMsg r => match dfind r (d_txns d) with Some t => match d_phase t with QAbort (_ :: _) => true | _ => false end | None => false end
  | CAbortDone r => match dfind r (d_txns d) with
                | Some t => match d_phase t with QAbort [] => Nat.ltb 1 (length (d_levels t)) || dnosnapb d r | _ => false end
                | None => false end
  | CCommit r => match dfind r (d_txns d) with Some t => dactiveb d r && Nat.eqb (length (d_levels t)) 1 | None => false end
  | CCommitMsg r => match dfind r (d_txns d) with Some t => match d_phase t with QCommit (_ :: _) => true | _ => false end | None => false end
  | CCommitDone r => match dfind r (d_txns d) with Some t => match d_phase t with QCommit [] => dnosnapb d r | _ => false end | None => false end
  | COptimize i => match nth_error (d_looks d) i with
                | Some l => match m_live (lk_mgr l) with [] => Nat.eqb (lk_n l) (length (d_sent d)) | _ => true end
                | None => false end
  end.
Definition dlegalb d (o : dop) : bool := match o with DClient o _ => clegalb d o | _ => true end.

Lemma dactiveb_ok d r : dactiveb d r = true -> dactive c d r.
Proof. unfold dactiveb, dactive. destruct (dfind _ _) as [t|]; [|discriminate]. destruct (d_phase t) eqn:Q; try discriminate. eauto. Qed.
Lemma dlockableb_ok d r k : dlockableb d r k = true -> dlockable c d r k.
Proof. unfold dlockableb, dlockable. destruct (d_lock d k); auto. intros H. apply N.eqb_eq in H. subst. auto. Qed.
Lemma dnosnapb_ok d r : dnosnapb d r = true -> dno_child_snaps c d r.
Proof. intros H n I. unfold dnosnapb in H. rewrite forallb_forall in H. specialize (H _ I). cbn [fst] in H. rewrite N.eqb_refl in H. discriminate. Qed.
Lemma clegalb_ok d o : clegalb d o = true -> cop_legal c d o.
Proof.
  destruct o; cbn [clegalb cop_legal]; intros H; auto using dactiveb_ok.
  - apply existsb_exists in H. destruct H as ([x n] & Hi & Q). apply N.eqb_eq in Q. eauto.
  - destruct (dfind r (d_txns d)) as [t|] eqn:F; [|discriminate]. apply andb_true_iff in H. destruct H as (H & H3). apply andb_true_iff in H. destruct H as (H1 & H2).
    apply dactiveb_ok in H1. destruct H1 as (t' & F' & P). rewrite F in F'. injection F' as <-. exists t. apply Nat.ltb_lt in H2. apply N.ltb_lt in H3. auto.
  - apply andb_true_iff in H. destruct H. split; [apply dactiveb_ok|apply dlockableb_ok]; auto.
  - apply andb_true_iff in H. destruct H as (H & H4). apply andb_true_iff in H. destruct H as (H & H3). apply andb_true_iff in H. destruct H as (H1 & H2).
    split; [apply dactiveb_ok; auto|]. split; [|split; [apply dlockableb_ok; auto|apply wkb_ok; auto]].
    unfold dwritableb in H2. unfold dwritable. destruct (find_root r (ms_roots (d_ms d))) as [rt|]; [|discriminate]. apply negb_true_iff in H2. eauto.
  - destruct (dfind r (d_txns d)) as [t|] eqn:F; [|discriminate]. apply andb_true_iff in H. destruct H as (H1 & H2).
    apply dactiveb_ok in H1. destruct H1 as (t' & F' & P). rewrite F in F'. injection F' as <-. exists t. apply Nat.ltb_lt in H2. auto.
  - destruct (dfind r (d_txns d)) as [t|] eqn:F; [|discriminate]. destruct (d_phase t) as [| |[|e todo]] eqn:P; try discriminate. eauto.
  - destruct (dfind r (d_txns d)) as [t|] eqn:F; [|discriminate]. destruct (d_phase t) as [| |[|e todo]] eqn:P; try discriminate. exists t. split; [reflexivity|]. split; [exact P|].
    apply orb_true_iff in H. destruct H as [H|H]; [left; apply Nat.ltb_lt; exact H|right; apply dnosnapb_ok; exact H].
  - destruct (dfind r (d_txns d)) as [t|] eqn:F; [|discriminate]. apply andb_true_iff in H. destruct H as (H1 & H2).
    apply dactiveb_ok in H1. destruct H1 as (t' & F' & P). rewrite F in F'. injection F' as <-. exists t. apply Nat.eqb_eq in H2. auto.
  - destruct (dfind r (d_txns d)) as [t|] eqn:F; [|discriminate]. destruct (d_phase t) as [|[|e todo]|] eqn:P; try discriminate. eauto.
  - destruct (dfind r (d_txns d)) as [t|] eqn:F; [|discriminate]. destruct (d_phase t) as [|[|e todo]|] eqn:P; try discriminate. split; [eauto|apply dnosnapb_ok; exact H].
  - destruct (nth_error (d_looks d) i) as [l|]; [|discriminate]. exists l. split; [reflexivity|]. destruct (m_live (lk_mgr l)); [right; apply Nat.eqb_eq; exact H|left; discriminate].
Qed.

Definition idsd d : bool := (m_last (ms_mgr (d_ms d)) + 3 <? TXNID_MAX)%N.
Fixpoint drun (os : list dop) d : option db :=
  match os with
  | [] => Some d
  | o :: os => if dlegalb d o && idsd d then match dstep c d o with Ok (d', _) => drun os d' | _ => None end else None
  end.
Lemma drun_reach last os : forall d d', dreach c last d -> drun os d = Some d' -> dreach c last d'.
Proof.
  induction os as [|o os IH]; intros d d' R; cbn [drun]; [intros Q; injection Q as <-; exact R|].
  destruct (dlegalb d o && idsd d) eqn:L; [|discriminate]. apply andb_true_iff in L. destruct L as (L1 & L2). destruct (dstep c d o) as [[d1 r]| |] eqn:ST; try discriminate.
  apply IH. eapply dreach_step; [exact R| |apply N.ltb_lt; exact L2|exact ST]. destruct o; cbn [dop_legal dlegalb] in *; auto. apply clegalb_ok. exact L1.
Qed.
Lemma drun_steps os : forall d d', drun os d = Some d' -> dsteps c d d'.
Proof.
  induction os as [|o os IH]; intros d d'; cbn [drun]; [intros Q; injection Q as <-; apply dst_refl|].
  destruct (dlegalb d o && idsd d) eqn:L; [|discriminate]. apply andb_true_iff in L. destruct L as (L1 & L2). destruct (dstep c d o) as [[d1 r]| |] eqn:ST; try discriminate.
  intros Q. eapply dst_step; [|apply N.ltb_lt; exact L2|exact ST|apply IH; exact Q]. destruct o; cbn [dop_legal dlegalb] in *; auto. apply clegalb_ok. exact L1.
Qed.
End R.

(** 11 stores rows 1, 2, 3 and commits; the leaf is split; 12 reads from a snapshot;
    14 overwrites row 1 and deletes row 3 in a child that commits into it, and
    commits; its messages stay in the root's buffers until the first leaf is
    flushed. *)
Definition J (p : list nat) : inj := mkInj (mkZ true 0) 0 false p.
Definition JN (n : nat) (p : list nat) : inj := mkInj (mkZ true n) n false p.
Definition K (x : N) : bytes := [x].
Definition Z0 : zsel := mkZ true 0.
Definition C (o : cop) (p : list nat) : dop := DClient o (J p).
Definition db_ops1 : list dop :=
  [C (CBegin false false) []; C (CWrite 11%N (K 1) (WPut [1%N])) []; C (CWrite 11%N (K 2) (WPut [2%N])) []; C (CWrite 11%N (K 3) (WPut [3%N])) [];
   C (CCommit 11%N) []; C (CCommitMsg 11%N) []; C (CCommitMsg 11%N) []; C (CCommitMsg 11%N) []; C (CCommitDone 11%N) [];
   DTree TNewRoot; DTree (TSplit [] 0 (SEvenly 0 0)); DTree (TUnlock []);
   C (CBegin false true) []; C (CBegin false false) []; DClient (CWrite 14%N (K 1) (WPut [9%N])) (JN 6 []); C (CChild 14%N) [];
   C (CWrite 14%N (K 3) WDel) []; C (CChildCommit 14%N) []].
Definition db_ops2 : list dop :=
  [C (CCommit 14%N) []; C (CCommitMsg 14%N) []; C (CCommitMsg 14%N) []; C (CCommitDone 14%N) []; DLook;
   DTree (TLockChain []); DTree (TFlush Z0 [] 0); DTree (TUnlock []);
   DTree (TWriteLeaf None (Some Z0) [0] [])].
Definition dget (o : option (db key_cmp)) : db key_cmp := match o with Some d => d | None => db_init key_cmp 0%N end.
Definition dbx1 : db key_cmp := dget (drun key_cmp db_ops1 (db_init key_cmp 10%N)).
Definition dbx2 : db key_cmp := dget (drun key_cmp db_ops2 dbx1).
