(** Every step of every thread keeps the logger's invariant, and no assertion fails. *)
From Coq Require Import List NArith Sorted.
From Verif Require Import Base Bytes LgrModel LgrSpec LgrInv LgrProofs.
Import ListNotations.
Local Open Scope N_scope.

Ltac fields := cbn [lock out lsn inb outb written fsynced n_in_file lg_max files nextno lfm
  last_ck ck pcs hist gone set_bufs set_files set_lfm set_fsynced set_ck set_lock set_out go open_logfile
  b_recs b_size b_max].

Lemma step_plain s t q lk : linv s -> moved has_lock (lock s) lk t (pcs s t) q ->
  has_out q = has_out (pcs s t) -> is_append (pcs s t) = false ->
  pc_ok (go (set_lock s lk) t q) t q -> linv (go (set_lock s lk) t q).
Proof.
  intros I M O A PO. apply (linv_intro s _ t q I); fields; auto 10; try lia; unfold moved; auto 10; try discriminate.
  apply dinv_go, dinv_lock, (i_data s I).
Qed.
Lemma step_go s t q : linv s -> has_lock q = has_lock (pcs s t) ->
  has_out q = has_out (pcs s t) -> is_append (pcs s t) = false ->
  pc_ok (go s t q) t q -> linv (go s t q).
Proof.
  intros I L O A PO. apply (linv_intro s _ t q I); fields; auto 10; try lia; unfold moved; auto 10; try discriminate.
  apply dinv_go, (i_data s I).
Qed.
Lemma step_grab s t q : linv s -> out s = None -> has_lock q = has_lock (pcs s t) ->
  has_out q = true -> is_append (pcs s t) = false ->
  pc_ok (go (set_out s (Some t)) t q) t q -> linv (go (set_out s (Some t)) t q).
Proof.
  intros I N L O A PO. apply (linv_intro s _ t q I); fields; auto 10; try lia; unfold moved; auto 10; try discriminate.
  apply dinv_go, dinv_out, (i_data s I).
Qed.

Lemma p_ck_same s s' t p q : ck s' = ck s -> last_ck s' = last_ck s -> lsn s <= lsn s' ->
  hist s' = hist s -> fsynced s <= fsynced s' ->
  purpose_of q = purpose_of p -> (req_lsn q = None \/ req_lsn q = req_lsn p) -> (p <> CkNote -> q <> CkNote) ->
  (flag_of q = None \/ flag_of q = flag_of p) ->
  match q with TrGrab l | TrLoop l _ => l <= last_ck s | _ => True end ->
  p_ck s t p -> p_ck s' t q.
Proof.
  intros C L S H' F P R Nn Fl T (A & B & _). split; [|split].
  - intros H. rewrite P in H. destruct (A H) as [X Y]. split; [congruence|]. intros l E.
    destruct R as [R|R]; [congruence|]. rewrite R in E. destruct (Y l E). rewrite H'. split; [lia|assumption].
  - intros H. rewrite P in H. destruct (B H) as (b & X & Y & Z & Z'). exists b. split; [congruence|]. split; [|split].
    + intros l E. destruct R as [R|R]; [congruence|]. apply Y. congruence.
    + intros E. subst q. destruct p; try (exfalso; apply Nn; [discriminate|reflexivity]). specialize (Z eq_refl). lia.
    + destruct Fl as [Fl|Fl]; congruence.
  - rewrite L. exact T.
Qed.

Ltac pcsplit := split; [|split; [|split; [|split]]]; cbn [p_mono p_out p_lock p_quiet].

Lemma swap_none s : dinv s -> b_recs (outb s) = [] -> swap s = Some (set_bufs s (outb s) (inb s)).
Proof. intros D E. unfold swap, n_in_buf. now rewrite E. Qed.

Ltac pcs' PC := pcsplit; fields; auto; try lia;
  try (eapply p_ck_same; [| | | | | | | | | |exact PC]; cbn; auto; try discriminate; lia).

Lemma release_facts s f : fsynced s <= fsynced (release_output s f) /\ f <= fsynced (release_output s f) /\
  lock (release_output s f) = lock s /\
  out (release_output s f) = None /\ lsn (release_output s f) = lsn s /\ inb (release_output s f) = inb s /\
  outb (release_output s f) = outb s /\ written (release_output s f) = written s /\
  files (release_output s f) = files s /\ lfm (release_output s f) = lfm s /\
  ck (release_output s f) = ck s /\ last_ck (release_output s f) = last_ck s /\
  pcs (release_output s f) = pcs s /\ hist (release_output s f) = hist s.
Proof. unfold release_output. destruct (fsynced s <? f) eqn:LT; fields; repeat split; auto; lia. Qed.

Theorem step_inv s t o s' : linv s -> op_ok o -> lstep s t o = Next s' -> linv s'.
Proof.
  intros I OK E. unfold lstep in E.
  pose proof (i_pcs s I t) as (PM & PO & PL & PC & PQ).
  pose proof (i_data s I) as D.
  destruct (pcs s t) eqn:P; cbn [p_mono p_out p_lock p_quiet] in PM, PO, PL, PQ.
  - (* Ret *)
    destruct o; cbn [op_ok] in OK.
    + injection E as <-. apply step_go; rewrite ?P; auto. pcs' PC.
      all: split; [|split]; cbn; try exact Logic.I; discriminate.
    + destruct (l <=? lsn s) eqn:L; [|discriminate]. injection E as <-.
      apply step_go; rewrite ?P; auto. pcs' PC.
      all: split; [|split]; cbn; try exact Logic.I; discriminate.
    + injection E as <-. apply step_go; rewrite ?P; auto. pcs' PC.
      all: split; [|split]; cbn; try exact Logic.I; discriminate.
    + destruct (ck s) eqn:C; [discriminate|]. injection E as <-.
      apply (linv_intro s _ t (LogLock CkBegin d false) I); fields; rewrite ?P; auto 10; try lia; unfold moved; auto 10.
      * apply dinv_go, dinv_ck0; auto. discriminate.
      * pcs' PC. split; [|split]; cbn; try exact Logic.I; try discriminate.
        intros _. split; [reflexivity|discriminate].
    + destruct (ck s) as [[u [b|]]|] eqn:C; try discriminate.
      destruct (Nat.eqb_spec u t) as [->|]; [|discriminate]. injection E as <-.
      apply step_go; rewrite ?P; auto. pcs' PC.
      split; [|split]; cbn; try exact Logic.I; try discriminate. intros _. rewrite C. exists b. split; [reflexivity|]. repeat split; discriminate.
  - (* LogLock *)
    destruct (lock s) eqn:L; [discriminate|]. injection E as <-.
    apply step_plain; rewrite ?P; auto; [right; left; auto|]. pcs' PC.
  - (* LogSpace *)
    destruct (n_in_buf (inb s) + len d <=? LOGGER_MIN_BUF_SIZE) eqn:R; injection E as <-.
    + apply step_go; rewrite ?P; auto. pcs' PC.
      * fields. pose proof (d_isz s D). lia.
    + apply step_plain; rewrite ?P; auto; [right; right; auto|]. pcs' PC.
  - (* MsGrab *)
    unfold grab_output in E. destruct (out s) eqn:O; [discriminate|]. injection E as <-.
    destruct (i_none s I O) as [OB QU].
    apply step_grab; rewrite ?P; auto. pcs' PC.
    + split; [|exact OB]. split; [apply (d_fs s D)|apply (d_set s D)].
  - (* MsLock *)
    destruct (lock s) eqn:L; [discriminate|]. injection E as <-.
    apply step_plain; rewrite ?P; auto; [right; left; auto|]. pcs' PC.
  - (* MsCheck *)
    destruct PO as [FO OB].
    destruct (n_in_buf (inb s) + len d <=? LOGGER_MIN_BUF_SIZE) eqn:R.
    + injection E as <-. apply step_go; rewrite ?P; auto. pcs' PC.
      * fields. pose proof (d_isz s D). lia.
    + destruct (0 <? n_in_buf (inb s)) eqn:Z.
      * rewrite swap_none in E by auto. injection E as <-.
        apply (linv_intro s _ t (WWrite (KSpace w d fs) f) I); fields; rewrite ?P; auto 10; try lia; unfold moved; auto 10.
        -- apply dinv_go, dinv_swap; auto.
        -- pcs' PC.
        -- intros N. assert (has_out (pcs s t) = true) by now rewrite P. apply (i_out s I) in H. congruence.
      * injection E as <-. apply step_go; rewrite ?P; auto. pcs' PC.
        -- apply size_0; [|unfold n_in_buf in Z; lia]. pose proof (d_pos s D) as DP.
           apply Forall_app in DP. tauto.
  - (* WWrite *)
    destruct (write_outbuf s) as [s1|] eqn:W; [|discriminate].
    destruct (dinv_write s s1 D W) as (D1 & OB1 & W1 & L1 & O1 & P1 & N1 & IB1 & F1 & M1 & C1 & K1 & H1 & FK).
    destruct PO as [FO KO].
    assert (HO : out s <> None).
    { assert (has_out (pcs s t) = true) by now rewrite P. apply (i_out s I) in H. congruence. }
    destruct (lg_max s1 <? n_in_file s1) eqn:R; injection E as <-.
    + apply (linv_intro s _ t (WRotSync k f) I); fields; rewrite ?P, ?L1, ?O1, ?P1, ?N1, ?IB1, ?F1, ?M1, ?C1, ?K1, ?H1;
        auto 10; try lia; unfold moved; auto 10; try congruence.
      * apply dinv_go; auto.
      * pcsplit; fields; auto.
        -- split; [apply FK, FO|]. split; [exact OB1|]. unfold kok. destruct k; [exact Logic.I|]. fields. rewrite W1. apply KO.
        -- rewrite IB1. auto.
        -- eapply p_ck_same; [| | | | | | | | | |exact PC]; fields; cbn; auto; try discriminate; lia.
    + apply (linv_intro s _ t (after_write k f) I); fields; rewrite ?P, ?L1, ?O1, ?P1, ?N1, ?IB1, ?F1, ?M1, ?C1, ?K1, ?H1;
        auto 10; try lia; unfold moved; auto 10; try congruence; try (destruct k; cbn; auto 10; fail).
      * apply dinv_go; auto.
      * destruct k; cbn [after_write]; pcsplit; fields; rewrite ?IB1; auto.
        -- split; [apply FK, FO|exact OB1].
        -- eapply p_ck_same; [| | | | | | | | | |exact PC]; fields; cbn; auto; try discriminate; lia.
        -- split; [apply FK, FO|]. split; [exact OB1|]. rewrite W1. lia.
        -- eapply p_ck_same; [| | | | | | | | | |exact PC]; fields; cbn; auto; try discriminate; lia.
  - (* WRotSync *)
    injection E as <-. destruct PO as (FO & OB & KO).
    apply (linv_intro s _ t (WRotNote k f) I); fields; rewrite ?P; auto 10; try lia; unfold moved; auto 10.
    * apply dinv_go, dinv_fsync; auto.
    * pcs' PC. split; [apply unsynced_fsync; auto|auto].
  - (* WRotNote *)
    injection E as <-. destruct PO as (UN & OB & KO).
    apply (linv_intro s _ t (WRotOpen k (written s)) I); fields; rewrite ?P; auto 10; try lia; unfold moved; auto 10.
    * apply dinv_go, dinv_note; auto.
    * pcs' PC. repeat split; auto.
      destruct (d_dir s D) as [(fs & cur & ms & mc & FE & ME & _) _]. exists ms, (fst mc).
      rewrite ME. unfold lfm_update. now rewrite on_last_snoc.
  - (* WRotOpen *)
    injection E as <-. destruct PO as (-> & UN & OB & KO & ms & i & LM).
    pose proof (dinv_open s ms i D OB UN LM) as D1.
    pose proof (d_fs s D) as FS.
    apply (linv_intro s _ t (after_write k (written s)) I); fields; rewrite ?P; auto 10; try lia; unfold moved; auto 10;
      try (destruct k; cbn; auto 10; fail).
    * apply dinv_go; auto.
    * assert (FO : fok (go (open_logfile s) t (after_write k (written s))) (written s)).
      { split; fields; [lia|]. apply (d_set _ D1). }
      destruct k; cbn [after_write] in *; pcs' PC.
  - (* MsGrow *)
    destruct PO as (FO & OB). pose proof (d_isz s D) as SZ.
    destruct (b_size (inb s) <? len d) eqn:B.
    + destruct ((len d <? 2 ^ 30) && (N.max (b_size (inb s) * 2) (len d) <? 2 ^ 30)) eqn:G; [|discriminate].
      injection E as <-.
      apply (linv_intro s _ t (MsRel w d fs f) I); fields; rewrite ?P; auto 10; try lia; unfold moved; auto 10.
      * apply dinv_go, dinv_grow; auto. lia.
      * pcs' PC. unfold n_in_buf. fields. rewrite PL. cbn [size_of fold_right]. lia.
    + injection E as <-. apply step_go; rewrite ?P; auto. pcs' PC.
      unfold n_in_buf. rewrite PL. cbn [size_of fold_right]. lia.
  - (* MsRel *)
    injection E as <-. destruct PO as (FO & OB).
    pose proof (release_facts s f) as RF.
    pose proof (release_dinv s f D FO) as D1.
    set (s1 := release_output s f) in *. clearbody s1.
    destruct RF as (RF & RF2 & L1 & O1 & N1 & IB1 & OB1 & W1 & FI1 & M1 & C1 & K1 & P1 & H1).
    apply (linv_intro s _ t (Append w d fs) I); fields; rewrite ?P, ?L1, ?O1, ?P1, ?N1, ?IB1, ?OB1, ?W1, ?FI1, ?M1, ?C1, ?K1, ?H1;
      auto 10; try lia; unfold moved; auto 10.
    + apply dinv_go; auto.
    + pcsplit; fields; rewrite ?IB1; auto.
      eapply p_ck_same; [| | | | | | | | | |exact PC]; fields; cbn; auto; try discriminate; lia.
    + intros _. right. split; [exact OB|]. intros _. right. exists t. fields. unfold setpc. rewrite Nat.eqb_refl.
      rewrite L1. split; [|reflexivity]. apply (i_lock s I). now rewrite P.
  - (* Append *)
    destruct (n_in_buf (inb s) + len d <=? b_size (inb s)) eqn:B; [|discriminate]. injection E as <-.
    pose proof (d_ck s D) as CK.
    apply (linv_intro s _ t (MfUnlock w (lsn s + 1) fs) I); fields; rewrite ?P; auto 10; try lia; unfold moved; auto 10.
    + apply dinv_append; auto.
    + pcsplit; fields; auto; try lia. destruct PC as (A1 & A2 & A3). split; [|split]; fields; auto.
      * intros H. destruct (A1 H) as [X _]. split; [exact X|]. cbn [req_lsn]. intros l L. injection L as <-.
        split; [lia|]. rewrite map_app, in_app_iff. right. left. reflexivity.
      * intros H. destruct (A2 H) as (b & X & _ & _ & F). exists b. split; [exact X|]. split; [|split; [discriminate|exact F]].
        cbn [req_lsn]. intros l L. injection L as <-. pose proof (d_ckb s D t b X). lia.
    + apply incl_appl, incl_refl.
    + left. split; [reflexivity|]. destruct (b_recs (inb s)); discriminate.
  - (* MfUnlock *)
    destruct fs.
    + injection E as <-. apply step_plain; rewrite ?P; auto; [right; right; auto|]. pcs' PC.
    + injection E as <-. destruct w; cbn [log_return].
      * apply step_plain; rewrite ?P; auto; [right; right; auto|]. pcsplit; auto.
        split; [|split]; cbn; try exact Logic.I; discriminate.
      * destruct PC as (A1 & A2 & A3). destruct (A1 eq_refl) as [X Y]. specialize (Y l eq_refl).
        apply (linv_intro s _ t (Ret (RLogged l)) I); fields; rewrite ?P; auto 10; try lia; unfold moved; auto 10.
        -- apply dinv_go, (dinv_ck0 (set_lock s None)); [apply dinv_lock; auto|]; fields.
           intros u b H. injection H as <- <-. exact Y.
        -- pcsplit; auto. split; [|split]; cbn; try exact Logic.I; discriminate.
        -- left. exists None. exact X.
      * apply step_plain; rewrite ?P; auto; [right; right; auto|]. pcsplit; auto.
        destruct PC as (A1 & A2 & A3). split; [discriminate|]. split; [|exact Logic.I].
        intros _. destruct (A2 eq_refl) as (b & X & Y & _ & F). destruct (F eq_refl).
  - (* MfWait *)
    destruct (l <=? fsynced s) eqn:F.
    + injection E as <-. destruct w; cbn [log_return].
      * apply step_go; rewrite ?P; auto. pcsplit; fields; auto; try lia.
        split; [|split]; cbn; try exact Logic.I; discriminate.
      * destruct PC as (A1 & A2 & A3). destruct (A1 eq_refl) as [X Y]. specialize (Y l eq_refl).
        apply (linv_intro s _ t (Ret (RSynced l)) I); fields; rewrite ?P; auto 10; try lia; unfold moved; auto 10.
        -- apply dinv_go, dinv_ck0; auto. intros u b H. injection H as <- <-. exact Y.
        -- pcsplit; fields; auto; try lia. split; [|split]; cbn; try exact Logic.I; discriminate.
        -- left. exists None. exact X.
      * apply step_go; rewrite ?P; auto. pcsplit; auto.
        destruct PC as (A1 & A2 & A3). split; [discriminate|]. split; [|exact Logic.I].
        intros _. destruct (A2 eq_refl) as (b & X & Y & _). exists b. split; [exact X|].
        split; [discriminate|]. split; [|discriminate]. intros _. specialize (Y l eq_refl). fields. lia.
    + unfold grab_output in E. destruct (out s) eqn:O; [discriminate|]. injection E as <-.
      destruct (i_none s I O) as [OB QU].
      apply step_grab; rewrite ?P; auto. pcs' PC.
      split; [split; [apply (d_fs s D)|apply (d_set s D)]|]. split; [exact OB|lia].
  - (* MfLock *)
    destruct (lock s) eqn:L; [discriminate|]. injection E as <-.
    apply step_plain; rewrite ?P; auto; [right; left; auto|]. pcs' PC.
  - (* MfSwap *)
    destruct PO as (FO & OB & FL). rewrite swap_none in E by auto. injection E as <-.
    apply (linv_intro s _ t (MfUnlock2 w l f) I); fields; rewrite ?P; auto 10; try lia; unfold moved; auto 10.
    + apply dinv_go, dinv_swap; auto.
    + pcs' PC. split; [exact FO|]. split; [|exact FL].
      pose proof (d_top s D) as T. unfold top, otop in *. fields. rewrite OB in T.
      destruct (b_recs (inb s)); lia.
    + intros N. assert (has_out (pcs s t) = true) by now rewrite P. apply (i_out s I) in H. congruence.
  - (* MfUnlock2 *)
    injection E as <-. apply step_plain; rewrite ?P; auto; [right; right; auto|]. pcs' PC.
  - (* MfSync *)
    destruct PO as (FO & OB & LW & FL).
    destruct (f <? l) eqn:Z.
    + destruct (f <=? written s) eqn:FW; [|discriminate]. injection E as <-.
      apply (linv_intro s _ t (MfNote w l (written s)) I); fields; rewrite ?P; auto 10; try lia; unfold moved; auto 10.
      * apply dinv_go, dinv_fsync; auto.
      * pcs' PC. split; [|auto]. split; fields; [lia|]. unfold settled. rewrite unsynced_fsync by auto. constructor.
    + injection E as <-. apply step_go; rewrite ?P; auto. pcs' PC. split; [exact FO|]. split; [exact OB|].
      destruct FO. lia.
  - (* MfNote *)
    injection E as <-. destruct PO as (FO & OB & LF & FW).
    apply (linv_intro s _ t (MfRel w l f) I); fields; rewrite ?P; auto 10; try lia; unfold moved; auto 10.
    * apply dinv_go, dinv_note; auto.
    * pcs' PC.
  - (* MfRel *)
    injection E as <-. destruct PO as (FO & OB & LF & FW).
    pose proof (release_facts s f) as RF.
    pose proof (release_dinv s f D FO) as D1.
    set (s1 := release_output s f) in *. clearbody s1.
    destruct RF as (RF & RF2 & L1 & O1 & N1 & IB1 & OB1 & W1 & FI1 & M1 & C1 & K1 & P1 & H1).
    pose proof (d_fs s1 D1) as FS1.
    assert (QQ : forall q sx, inb sx = inb s1 -> fsynced sx = fsynced s1 -> written sx = written s1 -> pcs sx = setpc (pcs s) t q -> quiet sx).
    { intros q sx A1 A2 A3 A4 _. left. rewrite A2, A3. lia. }
    destruct w; cbn [log_return].
    + apply (linv_intro s _ t (Ret (RSynced l)) I); fields; rewrite ?P, ?L1, ?O1, ?P1, ?N1, ?IB1, ?OB1, ?W1, ?FI1, ?M1, ?C1, ?K1, ?H1;
      auto 10; try lia; unfold moved; auto 10.
      * apply dinv_go; auto.
      * pcsplit; fields; auto; try lia. split; [|split]; cbn; try exact Logic.I; discriminate.
      * intros _. right. split; [exact OB|]. eapply QQ; fields; rewrite ?P1; reflexivity.
    + destruct PC as (A1 & A2 & A3). destruct (A1 eq_refl) as [X Y]. specialize (Y l eq_refl).
      apply (linv_intro s _ t (Ret (RSynced l)) I); fields; rewrite ?P, ?L1, ?O1, ?P1, ?N1, ?IB1, ?OB1, ?W1, ?FI1, ?M1, ?C1, ?K1, ?H1;
      auto 10; try lia; unfold moved; auto 10.
      * apply dinv_go. rewrite <- K1. apply dinv_ck0; auto.
        intros u b H. injection H as <- <-. rewrite K1, N1, H1. exact Y.
      * pcsplit; fields; auto; try lia. split; [|split]; cbn; try exact Logic.I; discriminate.
      * intros _. right. split; [exact OB|]. eapply QQ; fields; rewrite ?P1; reflexivity.
      * left. exists None. exact X.
    + apply (linv_intro s _ t CkNote I); fields; rewrite ?P, ?L1, ?O1, ?P1, ?N1, ?IB1, ?OB1, ?W1, ?FI1, ?M1, ?C1, ?K1, ?H1;
      auto 10; try lia; unfold moved; auto 10.
      * apply dinv_go; auto.
      * pcsplit; fields; auto; try lia. destruct PC as (A1 & A2 & A3). split; [discriminate|].
        split; [|exact Logic.I]. fields. rewrite C1. intros _. destruct (A2 eq_refl) as (b & X & Y & _).
        exists b. split; [exact X|]. split; [discriminate|]. split; [|discriminate]. intros _.
        specialize (Y l eq_refl). lia.
      * intros _. right. split; [exact OB|]. eapply QQ; fields; rewrite ?P1; reflexivity.
  - (* FlLock *)
    destruct (lock s) eqn:L; [discriminate|]. injection E as <-.
    apply step_plain; rewrite ?P; auto; [right; left; auto|]. pcs' PC.
  - (* FlRead *)
    injection E as <-. apply step_go; rewrite ?P; auto. pcs' PC. apply (d_imax s D).
  - (* FlUnlock *)
    injection E as <-. apply step_plain; rewrite ?P; auto; [right; right; auto|]. pcs' PC.
    split; [|split]; cbn; try exact Logic.I; discriminate.
  - (* CkNote *)
    destruct PC as (A1 & A2 & A3). destruct (A2 eq_refl) as (b & X & _ & Y & _). specialize (Y eq_refl).
    rewrite X in E. injection E as <-.
    pose proof (d_ckb s D t b X) as CB. pose proof (d_ckbr s D t b X) as CR.
    apply (linv_intro s _ t CkTrim I); fields; rewrite ?P; auto 10; try lia; unfold moved; auto 10.
    + apply dinv_go, dinv_ck; auto; [lia|]. intros u c H. injection H as <- <-. split; [lia|exact CR].
    + pcsplit; fields; auto. split; [discriminate|]. split; [|exact Logic.I]. fields. intros _. exists b.
      repeat split; discriminate.
    + left. eauto.
  - (* CkTrim *)
    injection E as <-. apply step_go; rewrite ?P; auto. pcsplit; fields; auto.
    destruct PC as (A1 & A2 & A3). split; [discriminate|]. split; [|fields; lia]. intros _.
    destruct (A2 eq_refl) as (b & X & _). exists b. repeat split; try discriminate. exact X.
  - (* TrGrab *)
    unfold grab_output in E. destruct (out s) eqn:O; [discriminate|]. injection E as <-.
    destruct (i_none s I O) as [OB QU].
    apply step_grab; rewrite ?P; auto. pcs' PC.
    + split; [|exact OB]. split; [apply (d_fs s D)|apply (d_set s D)].
    + destruct PC as (A1 & A2 & A3). split; [discriminate|]. split; [|exact A3]. intros _.
      destruct (A2 eq_refl) as (b & X & _). exists b. repeat split; try discriminate. exact X.
    + eapply quiet_keep; [exact I| | | | | | |exact QU]; fields; rewrite ?P; auto. left; auto.
  - (* TrLoop *)
    destruct PO as (FO & OB).
    assert (G : linv (go s t (TrRel f))).
    { apply step_go; rewrite ?P; auto. pcsplit; fields; auto.
      - destruct PC as (A1 & A2 & A3). split; [discriminate|]. split; [|exact Logic.I]. intros _.
        destruct (A2 eq_refl) as (b & X & _). exists b. repeat split; try discriminate. exact X.
      - eapply quiet_keep; [exact I| | | | | | |exact PQ]; fields; rewrite ?P; auto. left; auto. }
    destruct (lfm s) as [|[i m] [|e rest]] eqn:LM; [injection E as <-; exact G|injection E as <-; exact G|].
    destruct (l <=? m) eqn:LE; [injection E as <-; exact G|].
    destruct (delete_file i (files s)) as [[g fl]|] eqn:DF; [|discriminate]. injection E as <-.
    destruct (dinv_trim s i m (e :: rest) l g fl (setpc (pcs s) t (TrLoop l f)) D LM) as [D1 SE]; auto; try discriminate; try lia.
    { apply PC. }
    apply (linv_intro s _ t (TrLoop l f) I); fields; rewrite ?P; auto 10; try lia; unfold moved; auto 10.
    pcsplit; fields; auto.
    + split; [|exact OB]. destruct FO. split; auto.
    + eapply quiet_keep; [exact I| | | | | | |exact PQ]; fields; rewrite ?P; auto. left; auto.
  - (* TrRel *)
    injection E as <-. destruct PO as (FO & OB).
    pose proof (release_facts s f) as RF.
    pose proof (release_dinv s f D FO) as D1.
    set (s1 := release_output s f) in *. clearbody s1.
    destruct RF as (RF & RF2 & L1 & O1 & N1 & IB1 & OB1 & W1 & FI1 & M1 & C1 & K1 & P1 & H1).
    pose proof (d_fs s1 D1) as FS1.
    apply (linv_intro s _ t (Ret RNone) I); fields; rewrite ?P, ?L1, ?O1, ?P1, ?N1, ?IB1, ?OB1, ?W1, ?FI1, ?M1, ?C1, ?K1, ?H1;
      auto 10; try lia; unfold moved; auto 10.
    + apply dinv_go. rewrite <- K1. apply dinv_ck0; auto. discriminate.
    + pcsplit; fields; auto. split; [|split]; cbn; try exact Logic.I; discriminate.
    + intros _. right. split; [exact OB|]. unfold quiet in *. fields. rewrite IB1, W1, L1, P1. intros Z.
      destruct (PQ Z) as [H|(v & L & A)]; [left; lia|]. right. exists v. split; [exact L|].
      unfold setpc. destruct (Nat.eqb_spec v t) as [->|]; [|exact A]. rewrite P in A. discriminate.
    + destruct PC as (A1 & A2 & A3). destruct (A2 eq_refl) as (b & X & _). left. eauto.
Qed.

(** No assertion fails, as long as records are shorter than 2^29 bytes. *)
Definition short_pc (p : pc) : Prop :=
  match p with
  | MsGrow _ d _ _ => len d < 2 ^ 29
  | _ => True
  end.
Theorem step_no_abort s t o : linv s -> short_pc (pcs s t) -> lstep s t o <> Abort.
Proof.
  intros I SH. unfold lstep.
  pose proof (i_pcs s I t) as (PM & PO & PL & PC & PQ).
  pose proof (i_data s I) as D.
  destruct (pcs s t) eqn:P; cbn [p_mono p_out p_lock p_quiet short_pc] in PM, PO, PL, PQ, SH; try discriminate.
  - destruct o; try discriminate.
    + destruct (l <=? lsn s); discriminate.
    + destruct (ck s); discriminate.
    + destruct (ck s) as [[u [b|]]|]; try discriminate. destruct (Nat.eqb u t); discriminate.
  - destruct (lock s); discriminate.
  - destruct (_ <=? _); discriminate.
  - destruct (grab_output s t) as [[]|]; discriminate.
  - destruct (lock s); discriminate.
  - destruct (_ <=? _); [discriminate|]. destruct (0 <? _); [|discriminate].
    rewrite swap_none by (tauto || auto). discriminate.
  - unfold write_outbuf. destruct (0 <? n_in_buf (outb s)) eqn:Z.
    + destruct (written s <? b_max (outb s)) eqn:W; [fields; destruct (lg_max s <? _); discriminate|].
      exfalso. pose proof (d_ob s D) as OB. unfold n_in_buf in Z.
      destruct (b_recs (outb s)) as [|r l] eqn:B; [discriminate|]. inversion OB; subst. lia.
    + destruct (lg_max s <? _); discriminate.
  - destruct (b_size (inb s) <? len d) eqn:B; [|discriminate].
    replace (len d <? 2 ^ 30) with true by lia.
    replace (N.max (b_size (inb s) * 2) (len d) <? 2 ^ 30) with true by lia. discriminate.
  - replace (_ <=? _) with true by lia. discriminate.
  - destruct fs; discriminate.
  - destruct (l <=? fsynced s); [discriminate|]. destruct (grab_output s t) as [[]|]; discriminate.
  - destruct (lock s); discriminate.
  - rewrite swap_none by (tauto || auto). discriminate.
  - destruct (f <? l); [|discriminate]. destruct PO as ((FW & _) & _). replace (f <=? written s) with true by lia. discriminate.
  - destruct (lock s); discriminate.
  - destruct PC as (A1 & A2 & A3). destruct (A2 eq_refl) as (b & X & _). rewrite X. discriminate.
  - destruct (grab_output s t) as [[]|]; discriminate.
  - destruct (lfm s) as [|[i m] [|e rest]] eqn:LM; try discriminate. destruct (l <=? m); [discriminate|].
    destruct (delete_file i (files s)) as [[]|] eqn:DF; [discriminate|].
    exfalso. eapply delete_found; eauto.
Qed.
