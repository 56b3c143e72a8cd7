(** The log cursor on a complete log. *)
From Verif Require Import Base Bytes X1764Model WbufProofs LogModel LogSpec LogProofs.
Open Scope N_scope.

(** A log: one list of records per file.  [log_ok]: every record can be written, LSNs are
    consecutive (over all files) and do not reach 2^64. *)
Definition log_ok (ess : list (list lentry)) : Prop :=
  Forall entry_ok (concat ess) /\
  exists n, lsns_from n (concat ess) /\ n + N.of_nat (length (concat ess)) < 2 ^ 64.

Lemma len_header : len log_header = 12.
Proof. reflexivity. Qed.
Lemma len_file es : len (file_of es) = 12 + len (concat (map rec_bytes es)).
Proof. unfold file_of. rewrite len_app, len_header. reflexivity. Qed.
Lemma file_app a b : file_of (a ++ b) = file_of a ++ concat (map rec_bytes b).
Proof. unfold file_of. rewrite map_app, concat_app, app_assoc. reflexivity. Qed.
Lemma file_snoc a e : file_of (a ++ [e]) = file_of a ++ rec_bytes e.
Proof. rewrite file_app. cbn [map concat]. rewrite app_nil_r. reflexivity. Qed.
Lemma header_magic x : read_logmagic (log_header ++ x) = Some LOG_VERSION.
Proof.
  unfold read_logmagic. rewrite len_app, len_header.
  destruct (N.ltb_spec (12 + len x) 12); [lia|]. reflexivity.
Qed.
Lemma open_file files j x : nth_error files j = Some (log_header ++ x) ->
  lc_open_pos files j = inl 12.
Proof.
  intros H. unfold lc_open_pos.
  destruct (Nat.leb_spec (length files) j) as [C|C].
  { apply nth_error_None in C. congruence. }
  rewrite (nth_error_nth _ _ [] H), len_app, len_header.
  destruct (N.leb_spec 12 (12 + len x)); [|lia]. rewrite header_magic. reflexivity.
Qed.

Lemma list_snoc {A} (l : list A) : l = [] \/ exists l' x, l = l' ++ [x].
Proof. induction l as [|x l _] using rev_ind; eauto. Qed.

Section Log.
Variable ess : list (list lentry).
Hypothesis OK : Forall entry_ok (concat ess).

Lemma file_entries j es : nth_error ess j = Some es -> Forall entry_ok es.
Proof.
  intros H. apply nth_error_In in H. rewrite Forall_forall in *. intros e He. apply OK.
  apply in_concat. eauto.
Qed.
Lemma nth_file j es : nth_error ess j = Some es -> nth_error (map file_of ess) j = Some (file_of es).
Proof. apply map_nth_error. Qed.
Lemma firstn_S_nth j es : nth_error ess j = Some es ->
  concat (firstn (S j) ess) = concat (firstn j ess) ++ es.
Proof.
  clear OK. revert j. induction ess as [|x l IH]; intros [|j] H; cbn [nth_error] in H; try discriminate.
  - injection H as ->. cbn [firstn concat]. now rewrite app_nil_r.
  - cbn [firstn concat] in *. rewrite <- app_assoc, <- IH; auto.
Qed.
Lemma split_at j a b : nth_error ess j = Some (a ++ b) ->
  concat ess = (concat (firstn j ess) ++ a) ++ b ++ concat (skipn (S j) ess).
Proof.
  intros H. rewrite <- (firstn_skipn (S j) ess) at 1. rewrite concat_app, (firstn_S_nth _ _ H).
  rewrite <- !app_assoc. reflexivity.
Qed.

(** The stream stands in file [j] after its records [a]; [b] are the file's other records;
    [pre] are all the records of the log before that point. *)
Definition stands (lc : lcur) (j : nat) (a b pre : list lentry) : Prop :=
  l_files lc = map file_of ess /\ nth_error ess j = Some (a ++ b) /\ l_idx lc = j /\
  l_pos lc = Some (len (file_of a)) /\ pre = concat (firstn j ess) ++ a.

Definition same (lc lc' : lcur) : Prop :=
  l_files lc' = l_files lc /\ l_valid lc' = l_valid lc /\ l_lsn lc' = l_lsn lc /\ l_dir lc' = l_dir lc.
Lemma same_refl lc : same lc lc.
Proof. repeat split. Qed.

Lemma fread_in a e b : Forall entry_ok (a ++ e :: b) ->
  log_fread (skipn (N.to_nat (len (file_of a))) (file_of (a ++ e :: b)))
  = ROk e (concat (map rec_bytes b)).
Proof.
  intros H. rewrite file_app, skipn_len. cbn [map concat]. apply log_fread_rec.
  apply Forall_app in H as [_ H]. now inversion H.
Qed.
Lemma fread_end a : log_fread (skipn (N.to_nat (len (file_of a))) (file_of a)) = REof.
Proof. rewrite <- (app_nil_r (file_of a)) at 2. rewrite skipn_len. reflexivity. Qed.
Lemma pos_after a e b : len (file_of (a ++ e :: b)) - len (concat (map rec_bytes b)) = len (file_of (a ++ [e])).
Proof.
  change (e :: b) with ([e] ++ b). rewrite app_assoc, (file_app (a ++ [e]) b), len_app. lia.
Qed.
Lemma back_in a e b : Forall entry_ok (a ++ e :: b) ->
  log_fread_backward (file_of (a ++ e :: b)) (len (file_of (a ++ [e]))) = BOk e (len (file_of a)).
Proof.
  intros H. rewrite file_snoc, len_app.
  change (e :: b) with ([e] ++ b). rewrite app_assoc, file_app, file_snoc, <- app_assoc.
  apply backward_rec; [|rewrite len_file; lia]. apply Forall_app in H as [_ H]. now inversion H.
Qed.

Lemma lc_file_nth lc j es : l_files lc = map file_of ess -> nth_error ess j = Some es ->
  lc_file lc j = file_of es.
Proof. intros F H. unfold lc_file. rewrite F. apply nth_error_nth. now apply nth_file. Qed.

(** Reading forward from any point of the log. *)
Lemma log_read_ok : forall fuel lc j a b pre,
  stands lc j a b pre -> (length ess <= S (j + fuel))%nat ->
  match b ++ concat (skipn (S j) ess) with
  | [] => exists lc', lc_log_read fuel lc = Some (L_notfound, lc') /\ same lc lc' /\ l_pos lc' = None
  | e :: _ => exists lc' j' a' b', lc_log_read fuel lc = Some (L_ok e, lc') /\ same lc lc' /\
      nth_error ess j' = Some (a' ++ e :: b') /\ l_idx lc' = j' /\
      l_pos lc' = Some (len (file_of (a' ++ [e]))) /\ pre = concat (firstn j' ess) ++ a'
  end.
Proof.
  induction fuel as [|fuel IH]; intros lc j a b pre (F & N & I & P & Q) HF.
  all: pose proof (lc_file_nth _ _ _ F N) as LF.
  all: cbn [lc_log_read]; rewrite P, I, LF.
  all: destruct b as [|e b].
  all: cycle 1.
  1, 3: cbn [app]; exists (lc_at lc j (len (file_of (a ++ [e])))), j, a, b;
    rewrite (fread_in a e b) by (eapply file_entries; eauto); rewrite pos_after;
    split; [reflexivity|]; repeat split; auto.
  all: rewrite app_nil_r in *; rewrite fread_end; cbn [app].
  all: rewrite F, map_length.
  all: assert (J : (j < length ess)%nat) by (apply nth_error_Some; congruence).
  - destruct (Nat.eqb_spec j (length ess - 1)) as [C|C].
    + rewrite skipn_all2 by lia. cbn [concat]. exists (lc_close lc). repeat split; auto.
    + destruct (nth_error ess (S j)) as [es|] eqn:N1.
      2:{ apply nth_error_None in N1. lia. }
      rewrite (open_file _ _ (concat (map rec_bytes es))) by (apply (nth_file _ _ N1)).
      set (lc1 := lc_at (lc_close lc) (S j) 12).
      assert (ST : stands lc1 (S j) [] es pre).
      { repeat split; auto. subst pre. rewrite (firstn_S_nth _ _ N), app_nil_r. reflexivity. }
      specialize (IH lc1 (S j) [] es pre ST ltac:(lia)).
      assert (E : skipn (S j) ess = es :: skipn (S (S j)) ess).
      { clear -N1. revert N1. generalize (S j). induction ess as [|x l IHl]; intros [|k] H;
          cbn [nth_error] in H; try discriminate.
        - injection H as ->. reflexivity.
        - cbn [skipn]. rewrite (IHl k) by auto. reflexivity. }
      rewrite E. cbn [concat]. destruct (es ++ concat (skipn (S (S j)) ess)) as [|e r].
      * destruct IH as (lc' & R1 & R2 & R3). exists lc'. split; [exact R1|]. split; auto.
      * destruct IH as (lc' & j' & a' & b' & R1 & R2 & R3). exists lc', j', a', b'. split; auto.
  - destruct (Nat.eqb_spec j (length ess - 1)) as [C|C]; [|lia].
    rewrite skipn_all2 by lia. cbn [concat]. exists (lc_close lc). repeat split; auto.
Qed.

(** Reading backward from any point. *)
Lemma log_read_backward_ok : forall j lc a b pre,
  stands lc j a b pre ->
  match pre with
  | [] => exists lc', lc_log_read_backward j lc = Some (L_notfound, lc') /\ same lc lc' /\ l_pos lc' = None
  | _ => exists lc' j' a' b' e, lc_log_read_backward j lc = Some (L_ok e, lc') /\ same lc lc' /\
      nth_error ess j' = Some (a' ++ e :: b') /\ l_idx lc' = j' /\
      l_pos lc' = Some (len (file_of a')) /\ pre = (concat (firstn j' ess) ++ a') ++ [e]
  end.
Proof.
  induction j as [|j IH]; intros lc a b pre (F & N & I & P & Q).
  all: pose proof (lc_file_nth _ _ _ F N) as LF.
  all: cbn [lc_log_read_backward]; rewrite P, LF.
  all: destruct (list_snoc a) as [->|(a0 & e & ->)].
  - cbn [firstn concat app] in Q. subst pre.
    assert (B : log_fread_backward (file_of b) (len (file_of [])) = BTop) by reflexivity.
    cbn [app]. rewrite B. exists (lc_close lc). repeat split; auto.
  - assert (Q' : pre = (concat (firstn 0 ess) ++ a0) ++ [e]) by (rewrite <- app_assoc; exact Q).
    destruct pre as [|x pre]; [destruct (concat (firstn 0 ess) ++ a0); discriminate|].
    rewrite <- app_assoc in *. cbn [app] in *.
    rewrite back_in by (eapply file_entries; eauto).
    exists (lc_at lc 0 (len (file_of a0))), 0%nat, a0, b, e. repeat split; auto.
  - assert (B : log_fread_backward (file_of b) (len (file_of [])) = BTop) by reflexivity.
    cbn [app]. rewrite B. rewrite F.
    assert (J : (S j < length ess)%nat) by (apply nth_error_Some; congruence).
    destruct (nth_error ess j) as [es|] eqn:N1; [|apply nth_error_None in N1; lia].
    rewrite (open_file _ _ (concat (map rec_bytes es))) by (apply (nth_file _ _ N1)).
    rewrite (lc_file_nth _ _ _ F N1).
    set (lc1 := lc_at (lc_close lc) j (len (file_of es))).
    assert (ST : stands lc1 j es [] pre).
    { repeat split; auto. - now rewrite app_nil_r.
      - subst pre. rewrite (firstn_S_nth _ _ N1), app_nil_r. reflexivity. }
    specialize (IH lc1 es [] pre ST). destruct pre as [|x pre].
    + destruct IH as (lc' & R1 & R2 & R3). exists lc'. auto.
    + destruct IH as (lc' & j' & a' & b' & e & R1 & R2 & R3). exists lc', j', a', b', e. auto.
  - assert (Q' : pre = (concat (firstn (S j) ess) ++ a0) ++ [e]) by (rewrite <- app_assoc; exact Q).
    destruct pre as [|x pre]; [destruct (concat (firstn (S j) ess) ++ a0); discriminate|].
    rewrite <- app_assoc in *. cbn [app] in *.
    rewrite back_in by (eapply file_entries; eauto).
    exists (lc_at lc (S j) (len (file_of a0))), (S j), a0, b, e. repeat split; auto.
    rewrite <- app_assoc. exact Q'.
Qed.

(** * The four cursor calls *)
Variable base : N.
Hypothesis LSN : lsns_from base (concat ess).
Hypothesis BND : base + N.of_nat (length (concat ess)) < 2 ^ 64.

Lemma lsns_app l1 : forall n l2, lsns_from n (l1 ++ l2) -> lsns_from (n + N.of_nat (length l1)) l2.
Proof.
  clear. induction l1 as [|x l1 IH]; intros n l2 H; cbn [app length lsns_from] in *.
  - now rewrite N.add_0_r.
  - destruct H as [_ H]. apply IH in H. replace (n + N.of_nat (S (length l1))) with (n + 1 + N.of_nat (length l1)) by lia.
    exact H.
Qed.
Lemma lsn_of pre e rest : concat ess = pre ++ e :: rest -> e_lsn e = base + N.of_nat (length pre).
Proof. intros E. rewrite E in LSN. apply lsns_app in LSN. apply LSN. Qed.
Lemma lsn_bound pre e rest : concat ess = pre ++ e :: rest -> base + N.of_nat (length pre) + 1 < 2 ^ 64.
Proof. intros E. rewrite E, app_length in BND. cbn [length] in BND. lia. Qed.

(** The cursor is on record [e], which follows the records [pre] of the log. *)
Definition on (lc : lcur) (pre : list lentry) (e : lentry) (d : lcdir) : Prop :=
  l_files lc = map file_of ess /\ l_valid lc = true /\ l_lsn lc = e_lsn e /\ l_dir lc = d /\
  exists j a b, nth_error ess j = Some (a ++ e :: b) /\ l_idx lc = j /\
    pre = concat (firstn j ess) ++ a /\
    l_pos lc = Some (len (file_of (match d with
                                   | D_FORWARD | D_FIRST => a ++ [e]
                                   | D_BACKWARD | D_LAST => a end))).
Definition idle (lc : lcur) : Prop :=
  l_files lc = map file_of ess /\ l_valid lc = false /\ l_pos lc = None.

Lemma on_split lc pre e d : on lc pre e d -> exists rest, concat ess = pre ++ e :: rest.
Proof.
  intros (_ & _ & _ & _ & j & a & b & N & _ & -> & _). rewrite (split_at _ _ _ N).
  cbn [app]. eauto.
Qed.

Lemma idle_create : idle (lc_create (map file_of ess)).
Proof. repeat split. Qed.

(** Reading forward and then checking the LSN. *)
Lemma read_forward lc j a b pre d :
  stands lc j a b pre -> l_valid lc = false ->
  d = D_FIRST \/ d = D_FORWARD /\ (forall p0 e0, pre = p0 ++ [e0] -> l_lsn lc = e_lsn e0) /\ pre <> [] ->
  match b ++ concat (skipn (S j) ess) with
  | [] => exists lc', lc_log_read (length (l_files lc)) lc = Some (L_notfound, lc') /\ idle lc'
  | e :: _ => exists lc' lc'', lc_log_read (length (l_files lc)) lc = Some (L_ok e, lc') /\
      lc_finish lc' e d = (L_ok e, lc'') /\ on lc'' pre e d
  end.
Proof.
  intros ST V D. pose proof ST as (F & N & _).
  pose proof (split_at _ _ _ N) as SP.
  pose proof (log_read_ok (length (l_files lc)) lc j a b pre ST) as LR.
  rewrite F, map_length in *. specialize (LR ltac:(lia)).
  replace (concat (firstn j ess) ++ a) with pre in SP by (now destruct ST as (_ & _ & _ & _ & ->)).
  destruct (b ++ concat (skipn (S j) ess)) as [|e r].
  - destruct LR as (lc' & R1 & (S1 & S2 & S3) & R3). exists lc'. split; auto.
    repeat split; auto; congruence.
  - destruct LR as (lc' & j' & a' & b' & R1 & (S1 & S2 & S3 & S4) & R3 & R4 & R5 & R6).
    assert (CK : lc_check_lsn lc' e d = true).
    { destruct D as [->|(-> & L & NE)]; [reflexivity|]. cbn [lc_check_lsn]. rewrite S3.
      destruct (list_snoc pre) as [->|(p0 & e0 & ->)]; [congruence|].
      rewrite (L p0 e0 eq_refl). rewrite (lsn_of _ _ _ SP).
      rewrite <- app_assoc in SP. rewrite (lsn_of _ _ _ SP).
      pose proof (lsn_bound _ _ _ SP). rewrite app_length. cbn [length].
      rewrite N.mod_small by lia. apply N.eqb_eq. lia. }
    eexists _, _. split; [exact R1|]. unfold lc_finish. rewrite CK. split; [reflexivity|].
    split; [cbn; congruence|]. split; [reflexivity|]. split; [reflexivity|]. split; [reflexivity|].
    exists j', a', b'. split; auto. split; auto. split; auto.
    destruct D as [->|(-> & _)]; exact R5.
Qed.

Lemma idle_first lc : idle lc ->
  match concat ess with
  | [] => exists lc', lc_first lc = Some (L_notfound, lc') /\ idle lc'
  | e :: _ => exists lc', lc_first lc = Some (L_ok e, lc') /\ on lc' [] e D_FIRST
  end.
Proof.
  intros (F & V & P). unfold lc_first.
  set (lc2 := if (l_idx (lc_invalidate lc) =? 0)%nat then lc_invalidate lc else lc_close (lc_invalidate lc)).
  assert (P2 : l_pos lc2 = None) by (unfold lc2; destruct (_ =? 0)%nat; [exact P|reflexivity]).
  assert (F2 : l_files lc2 = map file_of ess) by (unfold lc2; destruct (_ =? 0)%nat; exact F).
  assert (V2 : l_valid lc2 = false) by (unfold lc2; destruct (_ =? 0)%nat; reflexivity).
  rewrite P2, F2. clearbody lc2.
  destruct (nth_error ess 0) as [es|] eqn:N.
  - rewrite (open_file _ _ (concat (map rec_bytes es))) by (apply (nth_file _ _ N)).
    set (lc3 := lc_at lc2 0 12).
    assert (ST : stands lc3 0 [] es []) by (repeat split; auto).
    pose proof (read_forward lc3 0 [] es [] D_FIRST ST V2 (or_introl eq_refl)) as R.
    assert (E : es ++ concat (skipn 1 ess) = concat ess).
    { destruct ess; cbn [nth_error] in N; [discriminate|]. injection N as ->. reflexivity. }
    rewrite E in R. destruct (concat ess) as [|e r].
    + destruct R as (lc' & R1 & R2). rewrite R1. eauto.
    + destruct R as (lc' & lc'' & R1 & R2 & R3). rewrite R1, R2. eauto.
  - assert (E : ess = []) by (clear -N; destruct ess; [reflexivity|discriminate N]).
    rewrite E. cbn [concat]. exists lc2. split; [reflexivity|].
    repeat split; auto.
Qed.

Lemma on_next lc pre e d rest : on lc pre e d -> d <> D_LAST -> concat ess = pre ++ e :: rest ->
  match rest with
  | [] => exists lc', lc_next lc = Some (L_notfound, lc') /\ idle lc'
  | e' :: _ => exists lc', lc_next lc = Some (L_ok e', lc') /\ on lc' (pre ++ [e]) e' D_FORWARD
  end.
Proof.
  intros (F & V & L & D & j & a & b & N & I & Q & P) ND SP.
  unfold lc_next. rewrite V.
  assert (RES : rest = b ++ concat (skipn (S j) ess)).
  { pose proof (split_at _ _ _ N) as SP2. rewrite <- Q, SP in SP2. cbn [app] in SP2.
    apply app_inv_head in SP2. now injection SP2. }
  assert (E : lc_turn_forward (lc_invalidate lc) = Some (lc_at (lc_invalidate lc) j (len (file_of (a ++ [e]))))).
  { unfold lc_turn_forward, lc_turn_backward. cbn [lc_invalidate l_dir l_pos l_idx]. rewrite D.
    assert (LF : lc_file (lc_invalidate lc) j = file_of (a ++ e :: b)) by (apply lc_file_nth; auto).
    destruct d; try congruence.
    - unfold lc_invalidate, lc_at. cbn [l_files l_valid l_lsn l_dir]. now rewrite P, I.
    - rewrite P, I, LF. rewrite fread_in by (eapply file_entries; eauto).
      rewrite pos_after. reflexivity.
    - unfold lc_invalidate, lc_at. cbn [l_files l_valid l_lsn l_dir]. now rewrite P, I. }
  rewrite E. set (lc2 := lc_at (lc_invalidate lc) j (len (file_of (a ++ [e])))).
  assert (ST : stands lc2 j (a ++ [e]) b (pre ++ [e])).
  { repeat split; auto.
    - rewrite <- app_assoc. exact N.
    - rewrite Q, <- app_assoc. reflexivity. }
  pose proof (read_forward lc2 j (a ++ [e]) b (pre ++ [e]) D_FORWARD ST eq_refl) as R.
  rewrite <- RES in R.
  assert (HD : D_FORWARD = D_FIRST \/
    D_FORWARD = D_FORWARD /\ (forall p0 e0, pre ++ [e] = p0 ++ [e0] -> l_lsn lc2 = e_lsn e0) /\
    pre ++ [e] <> []).
  { right. split; [reflexivity|]. split; [|intros X; destruct pre; discriminate].
    intros p0 e0 X. apply app_inj_tail in X as [_ <-]. exact L. }
  specialize (R HD). destruct rest as [|e' r].
  - destruct R as (lc' & R1 & R2). rewrite R1. eauto.
  - destruct R as (lc' & lc'' & R1 & R2 & R3). rewrite R1, R2. eauto.
Qed.

Lemma on_prev lc pre e d : on lc pre e d -> d <> D_FIRST ->
  (pre = [] /\ exists lc', lc_prev lc = Some (L_notfound, lc') /\ idle lc') \/
  (exists pre' e' lc', pre = pre' ++ [e'] /\
     lc_prev lc = Some (L_ok e', lc') /\ on lc' pre' e' D_BACKWARD).
Proof.
  intros ON ND. destruct (on_split _ _ _ _ ON) as (rest & SP).
  destruct ON as (F & V & L & D & j & a & b & N & I & Q & P).
  unfold lc_prev. rewrite V.
  assert (E : lc_turn_backward (lc_invalidate lc) = Some (lc_at (lc_invalidate lc) j (len (file_of a)))).
  { unfold lc_turn_forward, lc_turn_backward. cbn [lc_invalidate l_dir l_pos l_idx]. rewrite D.
    assert (LF : lc_file (lc_invalidate lc) j = file_of (a ++ e :: b)) by (apply lc_file_nth; auto).
    destruct d; try congruence.
    - rewrite P, I, LF. rewrite back_in by (eapply file_entries; eauto). reflexivity.
    - unfold lc_invalidate, lc_at. cbn [l_files l_valid l_lsn l_dir]. now rewrite P, I.
    - unfold lc_invalidate, lc_at. cbn [l_files l_valid l_lsn l_dir]. now rewrite P, I. }
  rewrite E. set (lc2 := lc_at (lc_invalidate lc) j (len (file_of a))).
  assert (ST : stands lc2 j a (e :: b) pre) by (repeat split; auto).
  change (l_idx lc2) with j.
  pose proof (log_read_backward_ok j lc2 a (e :: b) pre ST) as R.
  destruct (list_snoc pre) as [EP|(pre' & e' & EP)].
  - left. split; auto. rewrite EP in R. destruct R as (lc' & R1 & (S1 & S2 & S3) & R3).
    rewrite R1. exists lc'. split; auto. split; [rewrite S1; exact F|]. split; [rewrite S2; reflexivity|exact R3].
  - right. assert (R' : exists lc' j' a' b' e0,
      lc_log_read_backward j lc2 = Some (L_ok e0, lc') /\ same lc2 lc' /\
      nth_error ess j' = Some (a' ++ e0 :: b') /\ l_idx lc' = j' /\
      l_pos lc' = Some (len (file_of a')) /\ pre = (concat (firstn j' ess) ++ a') ++ [e0]).
    { destruct pre; [destruct pre'; discriminate|exact R]. }
    destruct R' as (lc' & j' & a' & b' & e0 & R1 & (S1 & S2 & S3 & S4) & R3 & R4 & R5 & R6).
    rewrite EP in R6. apply app_inj_tail in R6 as [E1 E2]. subst e0.
    rewrite R1.
    assert (CK : lc_check_lsn lc' e' D_BACKWARD = true).
    { cbn [lc_check_lsn]. rewrite S3. change (l_lsn lc2) with (l_lsn lc). rewrite L.
      rewrite (lsn_of _ _ _ SP). pose proof (lsn_bound _ _ _ SP) as LB.
      rewrite EP in SP, LB |- *. rewrite <- app_assoc in SP. rewrite (lsn_of _ _ _ SP).
      rewrite app_length in *. cbn [length] in *. apply N.eqb_eq.
      replace (base + N.of_nat (length pre' + 1) + 2 ^ 64 - 1)
        with (base + N.of_nat (length pre') + 1 * 2 ^ 64) by lia.
      rewrite N.mod_add by lia. rewrite N.mod_small; lia. }
    unfold lc_finish. rewrite CK. do 3 eexists. split; [exact EP|]. split; [reflexivity|].
    split; [cbn [l_files]; rewrite S1; exact F|]. split; [reflexivity|]. split; [reflexivity|]. split; [reflexivity|].
    exists j', a', b'. repeat split; auto.
Qed.

(** Opening at the end. *)
Lemma last_loop_ok : forall j lc es, nth_error ess j = Some es -> l_files lc = map file_of ess ->
  l_valid lc = false ->
  (concat (firstn (S j) ess) = [] /\
     exists lc', lc_last_loop j lc = Some (L_notfound, lc') /\ idle lc') \/
  (exists pre e lc' lc'', concat (firstn (S j) ess) = pre ++ [e] /\
     lc_last_loop j lc = Some (L_ok e, lc') /\ lc_finish lc' e D_LAST = (L_ok e, lc'') /\
     on lc'' pre e D_LAST).
Proof.
  induction j as [|j IH]; intros lc es N F V; rewrite (firstn_S_nth _ _ N); cbn [lc_last_loop];
    rewrite (lc_file_nth _ _ _ F N).
  all: destruct (list_snoc es) as [->|(a & e & ->)].
  - left. split; [reflexivity|].
    assert (B : log_fread_backward (file_of []) (len (file_of [])) = BTop) by reflexivity.
    rewrite B. eexists. split; [reflexivity|]. repeat split; auto.
  - right. rewrite back_in by (eapply file_entries; eauto).
    do 4 eexists. split; [rewrite app_assoc; reflexivity|]. split; [reflexivity|].
    split; [reflexivity|]. split; [exact F|]. split; [reflexivity|]. split; [reflexivity|].
    split; [reflexivity|]. exists 0%nat, a, []. repeat split; auto.
  - assert (B : log_fread_backward (file_of []) (len (file_of [])) = BTop) by reflexivity.
    rewrite B, F.
    assert (J : (S j < length ess)%nat) by (apply nth_error_Some; congruence).
    destruct (nth_error ess j) as [es|] eqn:N1; [|apply nth_error_None in N1; lia].
    rewrite (open_file _ _ (concat (map rec_bytes es))) by (apply (nth_file _ _ N1)).
    rewrite app_nil_r. eapply IH; eauto.
  - right. rewrite back_in by (eapply file_entries; eauto).
    do 4 eexists. split; [rewrite app_assoc; reflexivity|]. split; [reflexivity|].
    split; [reflexivity|]. split; [exact F|]. split; [reflexivity|]. split; [reflexivity|].
    split; [reflexivity|]. exists (S j), a, []. repeat split; auto.
Qed.

Lemma idle_last lc : idle lc ->
  (concat ess = [] /\ exists lc', lc_last lc = Some (L_notfound, lc') /\ idle lc') \/
  (exists pre e lc', concat ess = pre ++ [e] /\
     lc_last lc = Some (L_ok e, lc') /\ on lc' pre e D_LAST).
Proof.
  intros (F & V & P). unfold lc_last.
  set (n := length (l_files lc)).
  assert (HN : n = length ess) by (unfold n; rewrite F; apply map_length).
  set (lc2 := if (l_idx (lc_invalidate lc) =? n - 1)%nat then lc_invalidate lc else lc_close (lc_invalidate lc)).
  assert (P2 : l_pos lc2 = None) by (unfold lc2; destruct (_ =? _)%nat; [exact P|reflexivity]).
  assert (F2 : l_files lc2 = map file_of ess) by (unfold lc2; destruct (_ =? _)%nat; exact F).
  assert (V2 : l_valid lc2 = false) by (unfold lc2; destruct (_ =? _)%nat; reflexivity).
  rewrite P2, F2. clearbody lc2. clearbody n. subst n.
  destruct (nth_error ess (length ess - 1)) as [es|] eqn:N.
  - rewrite (open_file _ _ (concat (map rec_bytes es))) by (apply (nth_file _ _ N)).
    assert (J : (length ess - 1 < length ess)%nat) by (apply nth_error_Some; congruence).
    destruct (last_loop_ok _ (lc_at lc2 (length ess - 1) 12) es N F2 V2) as [[E (lc' & R1 & R2)]|R].
    + left. rewrite firstn_all2 in E by lia. split; auto.
      change (l_idx (lc_at lc2 (length ess - 1) 12)) with (length ess - 1)%nat. rewrite R1. eauto.
    + right. destruct R as (pre & e & lc' & lc'' & E & R1 & R2 & R3).
      rewrite firstn_all2 in E by lia. exists pre, e, lc''. split; auto.
      change (l_idx (lc_at lc2 (length ess - 1) 12)) with (length ess - 1)%nat. rewrite R1, R2. auto.
  - apply nth_error_None in N.
    assert (E : ess = []) by (clear -N; destruct ess; [reflexivity|cbn in N; lia]).
    rewrite E. left. split; [reflexivity|].
    exists lc2. split; [reflexivity|]. repeat split; auto.
Qed.
End Log.
