(** C24, C25, C42: log records, torn logs, the log cursor. *)
From Coq Require Import String.
From Verif Require Import Base Bytes X1764Model LogModel LogSpec LogProofs LogCursor LogTorn.
Open Scope N_scope.

(** * C24 *)

(** [written es f]: file [f] is the header followed by what the logger's writer put for each
    record of [es]. *)
Definition written (es : list lentry) (f : bytes) : Prop :=
  exists bss, Forall2 (fun e b => log_write e = Some b) es bss /\ f = log_header ++ concat bss.

Lemma written_file es f : Forall entry_ok es -> written es f -> f = file_of es.
Proof.
  intros OK (bss & W & ->). unfold file_of. f_equal. f_equal.
  induction W as [|e b es bss H W IH]; cbn; [reflexivity|].
  inversion OK; subst. rewrite log_write_ok in H by auto. injection H as <-. f_equal. auto.
Qed.
Lemma written_files ess fs : Forall entry_ok (concat ess) -> Forall2 written ess fs -> fs = map file_of ess.
Proof.
  intros OK W. induction W as [|es f ess fs H W IH]; cbn; [reflexivity|].
  cbn in OK. apply Forall_app in OK as [O1 O2]. rewrite (written_file es f O1 H), IH by auto. reflexivity.
Qed.

(** The relation between the code's cursor and the walk. *)
Definition rel (ess : list (list lentry)) (lc : lcur) (st : cst) : Prop :=
  match st with
  | Idle => idle ess lc
  | On k d => exists pre e, length pre = k /\ on ess lc pre e d
  end.

Lemma walk_sim ess base lc st op o st' :
  Forall entry_ok (concat ess) -> lsns_from base (concat ess) ->
  base + N.of_nat (length (concat ess)) < 2 ^ 64 ->
  rel ess lc st -> walk (concat ess) st op = Some (o, st') ->
  exists r lc', lc_op lc op = Some (r, lc') /\ out_of r = Some o /\ rel ess lc' st'.
Proof.
  intros OK LS BD R W.
  assert (FI : idle ess lc -> walk_to (concat ess) 0 D_FIRST = (o, st') ->
               exists r lc', lc_first lc = Some (r, lc') /\ out_of r = Some o /\ rel ess lc' st').
  { intros I WT. pose proof (idle_first ess OK base LS BD lc I) as H.
    unfold walk_to in WT. destruct (concat ess) as [|e r]; cbn [nth_error] in WT; injection WT as <- <-.
    - destruct H as (lc' & H1 & H2). eauto.
    - destruct H as (lc' & H1 & H2). exists (L_ok e), lc'. repeat split; auto. exists [], e. auto. }
  assert (LA : idle ess lc -> walk_last (concat ess) = (o, st') ->
               exists r lc', lc_last lc = Some (r, lc') /\ out_of r = Some o /\ rel ess lc' st').
  { intros I WT. unfold walk_last in WT. destruct (idle_last ess OK base BD lc I) as [(E & lc' & H1 & H2)|(pre & e & lc' & E & H1 & H2)].
    - rewrite E in WT. injection WT as <- <-. eauto.
    - assert (X : walk_to (concat ess) (length (concat ess) - 1) D_LAST = (o, st')).
      { destruct (concat ess); [destruct pre; discriminate|]. exact WT. }
      unfold walk_to in X. rewrite E in X. rewrite app_length in X. cbn [length] in X.
      replace (length pre + 1 - 1)%nat with (length pre) in X by lia.
      rewrite nth_error_app2, Nat.sub_diag in X by lia. cbn [nth_error] in X. injection X as <- <-.
      exists (L_ok e), lc'. repeat split; auto. exists pre, e. auto. }
  destruct st as [|k d].
  - cbn [rel] in R. destruct op; cbn [walk lc_op] in *.
    + injection W as W. auto.
    + injection W as W. unfold lc_next. rewrite (proj1 (proj2 R)). auto.
    + injection W as W. unfold lc_prev. rewrite (proj1 (proj2 R)). auto.
    + injection W as W. auto.
  - destruct R as (pre & e & K & ON). destruct (on_split ess lc pre e d ON) as (rest & SP).
    assert (NX : d <> D_LAST -> walk_to (concat ess) (S k) D_FORWARD = (o, st') ->
               exists r lc', lc_next lc = Some (r, lc') /\ out_of r = Some o /\ rel ess lc' st').
    { intros ND WT. pose proof (on_next ess OK base LS BD lc pre e d rest ON ND SP) as H.
      unfold walk_to in WT. rewrite SP in WT.
      replace (S k) with (length pre + 1)%nat in WT by lia.
      rewrite nth_error_app2 in WT by lia. replace (length pre + 1 - length pre)%nat with 1%nat in WT by lia.
      destruct rest as [|e' r]; cbn [nth_error] in WT; injection WT as <- <-.
      - destruct H as (lc' & H1 & H2). eauto.
      - destruct H as (lc' & H1 & H2). exists (L_ok e'), lc'. repeat split; auto.
        exists (pre ++ [e]), e'. rewrite app_length. split; auto. }
    assert (PV : d <> D_FIRST ->
               match k with O => Some (O_end, Idle) | S k' => Some (walk_to (concat ess) k' D_BACKWARD) end
                 = Some (o, st') ->
               exists r lc', lc_prev lc = Some (r, lc') /\ out_of r = Some o /\ rel ess lc' st').
    { intros ND WT. destruct (on_prev ess OK base LS BD lc pre e d ON ND)
        as [(EP & lc' & H1 & H2)|(pre' & e' & lc' & EP & H1 & H2)].
      - subst pre. cbn in K. subst k. injection WT as <- <-. eauto.
      - subst pre. rewrite app_length in K. cbn [length] in K. destruct k as [|k]; [lia|].
        injection WT as WT. unfold walk_to in WT. rewrite SP, <- app_assoc in WT.
        rewrite nth_error_app2 in WT by lia. replace (k - length pre')%nat with 0%nat in WT by lia.
        cbn [nth_error app] in WT. injection WT as <- <-.
        exists (L_ok e'), lc'. repeat split; auto. exists pre', e'. split; [lia|auto]. }
    clear ON K. destruct op; destruct d; destruct k; cbn [walk lc_op] in *; try discriminate W;
      first [ apply NX; [discriminate | injection W; auto] | apply PV; [discriminate | exact W] ].
Qed.

(** Whatever sequence of calls within the supported pattern: the cursor returns the records
    of the log as the walk does, across file boundaries and changes of direction. *)
Theorem C42_cursor_walks_log_partial : forall ess fs n ops outs,
  Forall entry_ok (concat ess) -> Forall2 written ess fs ->
  lsns_from n (concat ess) -> n + N.of_nat (length (concat ess)) < 2 ^ 64 ->
  walks (concat ess) Idle ops = Some outs ->
  lc_ops (lc_create fs) ops = Some outs.
Proof.
  intros ess fs n ops outs OK W LS BD. rewrite (written_files _ _ OK W).
  assert (H : forall ops st lc outs, rel ess lc st -> walks (concat ess) st ops = Some outs ->
              lc_ops lc ops = Some outs).
  { induction ops0 as [|op ops0 IH]; intros st lc outs0 R E; cbn [walks lc_ops] in *; [exact E|].
    destruct (walk (concat ess) st op) as [[o st']|] eqn:E1; [|discriminate].
    destruct (walks (concat ess) st' ops0) as [os|] eqn:E2; [|discriminate].
    destruct (walk_sim ess n lc st op o st' OK LS BD R E1) as (r & lc' & X1 & X2 & X3).
    rewrite X1, X2, (IH _ _ _ X3 E2). exact E. }
  apply H. apply idle_create.
Qed.
Print Assumptions C42_cursor_walks_log_partial.

Lemma walks_forward l : forall k os, nth_error l k <> None ->
  skipn (S k) l = os -> forall d, d <> D_LAST ->
  walks l (On k d) (repeat C_next (S (length os))) = Some (map O_rec os ++ [O_end]).
Proof.
  intros k os. revert k. induction os as [|e os IH]; intros k K E d D.
  - cbn [length repeat walks].
    assert (N0 : nth_error l (S k) = None).
    { apply nth_error_None. apply (f_equal (@length lentry)) in E. rewrite skipn_length in E. cbn in E. lia. }
    destruct d; try congruence; cbn [walk]; unfold walk_to; rewrite N0; reflexivity.
  - assert (N0 : nth_error l (S k) = Some e).
    { rewrite <- (firstn_skipn (S k) l), E. rewrite nth_error_app2; rewrite firstn_length_le.
      - now rewrite Nat.sub_diag.
      - apply nth_error_Some in K. lia.
      - apply nth_error_Some in K. lia.
      - apply nth_error_Some in K. lia. }
    assert (E' : skipn (S (S k)) l = os).
    { clear -E. revert l E. induction (S k) as [|j IHj]; intros [|x l] E; cbn [skipn] in *; try discriminate.
      - now injection E.
      - auto. }
    change (repeat C_next (S (length (e :: os)))) with (C_next :: repeat C_next (S (length os))).
    cbn [walks map app].
    assert (WK : walk l (On k d) C_next = Some (O_rec e, On (S k) D_FORWARD)).
    { destruct d; try congruence; cbn [walk]; unfold walk_to; rewrite N0; reflexivity. }
    rewrite WK, (IH (S k)); first [congruence | discriminate | assumption | reflexivity].
Qed.
Lemma walks_backward l : forall k, nth_error l k <> None -> forall d, d <> D_FIRST ->
  walks l (On k d) (repeat C_prev (S k)) = Some (map O_rec (rev (firstn k l)) ++ [O_end]).
Proof.
  induction k as [|k IH]; intros K d D.
  - cbn [repeat walks firstn rev map app]. destruct d; try congruence; reflexivity.
  - change (repeat C_prev (S (S k))) with (C_prev :: repeat C_prev (S k)). cbn [walks].
    destruct (nth_error l k) as [e|] eqn:N0.
    2:{ apply nth_error_None in N0. apply nth_error_Some in K. lia. }
    assert (WK : walk l (On (S k) d) C_prev = Some (O_rec e, On k D_BACKWARD)).
    { destruct d; try congruence; cbn [walk]; unfold walk_to; rewrite N0; reflexivity. }
    rewrite WK, IH; [|congruence|discriminate].
    assert (F : firstn (S k) l = firstn k l ++ [e]).
    { clear -N0. revert l N0. induction k as [|k IHk]; intros [|x l] H; cbn [nth_error] in H; try discriminate.
      - now injection H as ->.
      - cbn [firstn app]. f_equal. now apply IHk. }
    rewrite F, rev_app_distr. reflexivity.
Qed.

(** Records written are the records read: forward in order, backward in reverse order, then
    the end of the log.  [entry_ok] leaves out records of 2 GiB and more and XA identifiers
    whose format id does not fit in 32 bits: hence partial. *)
Theorem C24_log_round_trip_partial : forall ess fs n,
  Forall entry_ok (concat ess) -> Forall2 written ess fs ->
  lsns_from n (concat ess) -> n + N.of_nat (length (concat ess)) < 2 ^ 64 ->
  let l := concat ess in
  lc_ops (lc_create fs) (repeat C_next (S (length l))) = Some (map O_rec l ++ [O_end]) /\
  lc_ops (lc_create fs) (repeat C_prev (S (length l))) = Some (map O_rec (rev l) ++ [O_end]).
Proof.
  intros ess fs n OK W LS BD l. unfold l. split; eapply C42_cursor_walks_log_partial; eauto.
  - destruct (concat ess) as [|e r]; [reflexivity|].
    change (repeat C_next (S (length (e :: r)))) with (C_next :: repeat C_next (S (length r))).
    cbn [walks walk walk_first walk_to nth_error]. rewrite (walks_forward (e :: r) 0 r); auto; discriminate.
  - assert (H : concat ess = [] \/ exists k, length (concat ess) = S k) by (destruct (concat ess); cbn; eauto).
    destruct H as [->|(k & H)]; [reflexivity|].
    destruct (nth_error (concat ess) k) as [e|] eqn:N0; [|apply nth_error_None in N0; lia].
    rewrite H. change (repeat C_prev (S (S k))) with (C_prev :: repeat C_prev (S k)). cbn [walks].
    assert (WK : walk (concat ess) Idle C_prev = Some (O_rec e, On k D_LAST)).
    { cbn [walk]. unfold walk_last. rewrite H. replace (S k - 1)%nat with k by lia. unfold walk_to. rewrite N0.
      destruct (concat ess); [discriminate|reflexivity]. }
    rewrite WK, walks_backward; [|congruence|discriminate].
    assert (F : concat ess = firstn k (concat ess) ++ [e]).
    { assert (firstn (S k) (concat ess) = firstn k (concat ess) ++ [e]).
      { clear -N0. revert N0. generalize (concat ess). induction k as [|k IHk]; intros [|x l] H; cbn [nth_error] in H; try discriminate.
        - now injection H as ->.
        - cbn [firstn app]. f_equal. now apply IHk. }
      rewrite <- H0. symmetry. apply firstn_all2. lia. }
    rewrite F at 2. rewrite rev_app_distr. reflexivity.
Qed.
Print Assumptions C24_log_round_trip_partial.

(** The writer does not fail on such records, and what it writes reads back whatever follows. *)
Theorem C24_one_record_partial : forall e, entry_ok e ->
  exists b, log_write e = Some b /\ forall rest, log_fread (b ++ rest) = ROk e rest.
Proof.
  intros e OK. exists (rec_bytes e). split; [now apply log_write_ok|]. intros. now apply log_fread_rec.
Qed.
Print Assumptions C24_one_record_partial.

(** The full claim fails: a prepared transaction whose XA identifier has format id 2^32 (a
    valid value of its C type, long) is read back with format id 0. *)
Definition big_xid : lentry := mkE (c "P") 1 [V_pair 1 0; V_xid (2 ^ 32) [1; 2] [3]].
Theorem C24_round_trip_refuted : exists e b e',
  log_write e = Some b /\ log_fread b = ROk e' [] /\ e' <> e.
Proof.
  exists big_xid, (match log_write big_xid with Some b => b | None => [] end),
    (mkE (c "P") 1 [V_pair 1 0; V_xid 0 [1; 2] [3]]).
  split; [vm_compute; reflexivity|]. split; [vm_compute; reflexivity|]. discriminate.
Qed.
Print Assumptions C24_round_trip_refuted.

(** A log of two files, with an insert, a prepare with an XA identifier, a hot index over two
    files and a commit. *)
Definition sample : list (list lentry) :=
  [ [mkE (c "b") 5 [V_pair 7 0; V_pair 0 0];
     mkE (c "I") 6 [V_num 3; V_pair 7 0; V_bytes [1; 2; 3]; V_bytes []]];
    [];
    [mkE (c "P") 7 [V_pair 7 0; V_xid 5 [9] [8; 7]];
     mkE (c "h") 8 [V_pair 7 0; V_nums [3; 4294967295]];
     mkE (c "C") 9 [V_pair 7 0]] ].
Lemma sample_ok : Forall entry_ok (concat sample) /\ lsns_from 5 (concat sample).
Proof.
  split.
  - cbn [concat sample app]. repeat apply Forall_cons; try apply Forall_nil;
      (eexists; split; [reflexivity|]; split; [|split; [reflexivity|reflexivity]]);
      repeat apply Forall2_cons; try apply Forall2_nil; cbn [field_ok];
      repeat apply conj; try reflexivity; try discriminate; repeat constructor.
  - repeat split.
Qed.
Example C24_case : exists fs, Forall2 written sample fs /\
  5 + N.of_nat (length (concat sample)) < 2 ^ 64 /\
  lc_ops (lc_create fs) (repeat C_prev 6) = Some (map O_rec (rev (concat sample)) ++ [O_end]).
Proof.
  destruct sample_ok as [OK LS].
  assert (W : Forall2 written sample (map file_of sample)).
  { revert OK. clear. induction sample as [|es l IH]; intros OK; cbn [map]; [constructor|].
    cbn [concat] in OK. apply Forall_app in OK as [O1 O2]. constructor; auto.
    exists (map rec_bytes es). split; [|reflexivity].
    clear -O1. induction O1; cbn [map]; constructor; auto. now apply log_write_ok. }
  exists (map file_of sample). split; [exact W|]. split; [reflexivity|].
  refine (proj2 (C24_log_round_trip_partial sample _ 5 OK W LS _)). reflexivity.
Qed.
Example C42_case : exists outs, walks (concat sample) Idle
  [C_last; C_prev; C_prev; C_next; C_next; C_next; C_next; C_next; C_prev] = Some outs.
Proof. eexists. reflexivity. Qed.

(** Outside the pattern the cursor does not walk the log: [next] after [last] (and [prev]
    after [first]) reads the same record again and fails its LSN check, and [first] on a
    cursor standing in the first file does not return to the first record. *)
Definition tiny : list lentry :=
  [mkE (c "Q") 1 [V_num 5]; mkE (c "Q") 2 [V_num 6]; mkE (c "Q") 3 [V_num 7]].
Definition call (lc : lcur) (ops : list cop) : option (lres * lcur) :=
  fold_left (fun s op => do (_, lc) <- s; lc_op lc op) ops (Some (L_notfound, lc)).
Theorem C42_cursor_walks_log_refuted :
  let lc := lc_create [file_of tiny] in
  (exists s, call lc [C_first; C_prev] = Some (L_lsn_error, s)) /\
  (exists s, call lc [C_last; C_next] = Some (L_lsn_error, s)) /\
  (exists s, call lc [C_last; C_prev; C_next; C_first] = Some (L_notfound, s)) /\
  (exists s, call lc [C_first; C_first] = Some (L_ok (mkE (c "Q") 2 [V_num 6]), s)).
Proof. repeat split; eexists; vm_compute; reflexivity. Qed.
Print Assumptions C42_cursor_walks_log_refuted.

(** * C25 *)

(** Repairing a log file cut at any byte from its header on keeps exactly the records wholly
    contained in it; the other files are not touched. *)
Theorem C25_repair_keeps_complete_records : forall ess es n f lc,
  Forall entry_ok es -> 12 <= n <= len (file_of es) -> f = firstn (N.to_nat n) (file_of es) ->
  l_files lc = map file_of ess ++ [f] -> l_idx lc = length ess ->
  exists p lc', kept es n p /\ lc_fix lc = Some (inl lc') /\
    l_files lc' = map file_of ess ++ [file_of p].
Proof.
  intros ess es n f lc OK Hn -> F I.
  destruct (cut_file es n OK (proj1 Hn)) as (p & q & t & E & C & T & PL & PQ).
  rewrite C in F.
  assert (OKp : Forall entry_ok p) by (subst es; apply Forall_app in OK; tauto).
  exists p. eexists. split; [exists q; auto|]. split.
  - apply (fix_ok lc ess p t); auto. subst es. eapply torn_eof; eauto.
  - cbn [l_files]. now rewrite map_app.
Qed.
Print Assumptions C25_repair_keeps_complete_records.

(** Opening the log after a crash that left an arbitrary prefix of the last file: the last
    record reported is the last one wholly contained, and the file is cut back to the
    complete records (a file without a whole header is left as it is).  Partial: the torn
    bytes must not themselves end with bytes that read as a record ([tail_clear]). *)
Theorem C25_torn_log_partial : forall ess es n f,
  Forall entry_ok (concat ess ++ es) -> n <= len (file_of es) ->
  f = firstn (N.to_nat n) (file_of es) -> tail_clear es f ->
  exists p lc', kept es n p /\
    lc_last (lc_create (map file_of ess ++ [f])) = Some (last_res (concat ess ++ p), lc') /\
    l_files lc' = map file_of ess ++ [if 12 <=? n then file_of p else f].
Proof. intros ess es n f OK Hn -> TC. apply last_torn; auto. Qed.
Print Assumptions C25_torn_log_partial.

(** [kept] determines the records. *)
Lemma kept_unique es n p1 p2 : Forall entry_ok es -> kept es n p1 -> kept es n p2 -> p1 = p2.
Proof.
  assert (H : forall p1 p2, Forall entry_ok es -> kept es n p1 -> kept es n p2 -> (length p1 <= length p2)%nat).
  { intros a b OK (q1 & E1 & A1 & B1) (q2 & E2 & A2 & B2).
    rewrite E1 in E2, OK. destruct (Nat.le_gt_cases (length a) (length b)) as [C|C]; [exact C|].
    exfalso. apply app_eq_app in E2 as (l & [[-> ->]|[-> ->]]).
    - destruct l as [|e l]; [rewrite app_nil_r in C; lia|].
      specialize (B2 e (l ++ q1) eq_refl). destruct A1 as [A1|A1].
      + destruct b; discriminate.
      + replace (b ++ e :: l) with ((b ++ [e]) ++ l) in A1 by (rewrite <- app_assoc; reflexivity).
        rewrite file_app, len_app in A1. lia.
    - rewrite app_length in C. lia. }
  intros OK K1 K2. pose proof (H p1 p2 OK K1 K2). pose proof (H p2 p1 OK K2 K1).
  destruct K1 as (q1 & E1 & _), K2 as (q2 & E2 & _). rewrite E1 in E2.
  apply (f_equal (firstn (length p1))) in E2.
  rewrite firstn_app, Nat.sub_diag, firstn_O, app_nil_r, firstn_all in E2.
  replace (length p1) with (length p2) in E2 by lia.
  rewrite firstn_app, Nat.sub_diag, firstn_O, app_nil_r, firstn_all in E2. exact E2.
Qed.

(** The condition holds of real cuts: here in the middle of a record of the second file. *)
Definition torn_records : list lentry := [mkE (c "Q") 10 [V_num 5]; mkE (c "Q") 11 [V_num 6]].
Definition torn_n : N := len (file_of torn_records) - 5.
Definition torn_file : bytes := firstn (N.to_nat torn_n) (file_of torn_records).
Fixpoint clear_b (f : bytes) : bool :=
  match log_fread f with
  | RUb => false
  | ROk _ [] => false
  | _ => true
  end && match f with [] => true | _ :: f' => clear_b f' end.
Lemma clear_b_ok es f : clear_b f = true -> tail_clear es f.
Proof.
  intros H k K. assert (X : forall k f, clear_b f = true ->
      log_fread (skipn k f) <> RUb /\ forall e, log_fread (skipn k f) <> ROk e []).
  { clear. induction k as [|k IH]; intros f H.
    - cbn [skipn]. destruct f; cbn [clear_b] in H; apply andb_true_iff in H as [H _];
        destruct (log_fread _) as [? [|]| | |]; try discriminate; split; intros; discriminate.
    - destruct f as [|b f]; cbn [skipn]; [split; intros; cbn; discriminate|].
      cbn [clear_b] in H. apply andb_true_iff in H as [_ H]. auto. }
  destruct (X k f H) as [X1 X2]. split; auto. intros e E. destruct (X2 e E).
Qed.
Example C25_case :
  Forall entry_ok (concat sample ++ torn_records) /\ torn_n <= len (file_of torn_records) /\
  tail_clear torn_records torn_file /\ kept torn_records torn_n [mkE (c "Q") 10 [V_num 5]].
Proof.
  split; [|split; [|split]].
  - apply Forall_app. split; [apply sample_ok|].
    repeat apply Forall_cons; try apply Forall_nil;
      (eexists; split; [reflexivity|]; split; [|split; reflexivity]);
      repeat apply Forall2_cons; try apply Forall2_nil; reflexivity.
  - discriminate.
  - apply clear_b_ok. vm_compute. reflexivity.
  - exists [mkE (c "Q") 11 [V_num 6]]. split; [reflexivity|]. split; [right; discriminate|].
    intros e q' E. injection E as <- <-. reflexivity.
Qed.

(** The full claim fails.  A comment (or any key or value) may contain the bytes of a log
    record; if the crash cuts the log right after them, the record inside the text is
    reported as the last log record although it was never logged. *)
Definition inner : lentry := mkE (c "Q") 77 [V_num 1].
Definition carrier : lentry := mkE (c "T") 4 [V_num 9; V_bytes (rec_bytes inner ++ [0])].
Definition fooled_n : N := 12 + 4 + 1 + 8 + 8 + 4 + len (rec_bytes inner).
Theorem C25_last_record_was_logged_refuted :
  exists es n e lc', Forall entry_ok es /\ n <= len (file_of es) /\
    lc_last (lc_create [firstn (N.to_nat n) (file_of es)]) = Some (L_ok e, lc') /\
    ~ In e es /\ kept es n [].
Proof.
  exists [carrier], fooled_n, inner. eexists. split; [|split; [|split; [|split]]].
  - repeat apply Forall_cons; try apply Forall_nil.
    eexists; split; [reflexivity|]. split; [|split; reflexivity].
    repeat apply Forall2_cons; try apply Forall2_nil; [reflexivity|].
    cbn [field_ok]. apply bytes_ok_app. split; [|repeat constructor].
    apply rec_bytes_ok. eexists; split; [reflexivity|]. split; [|split; reflexivity].
    repeat apply Forall2_cons; try apply Forall2_nil; reflexivity.
  - vm_compute. discriminate.
  - vm_compute. reflexivity.
  - intros [H|[]]. discriminate H.
  - exists [carrier]. split; [reflexivity|]. split; [auto|]. intros e q' E. injection E as <- <-.
    vm_compute. reflexivity.
Qed.
Print Assumptions C25_last_record_was_logged_refuted.

(** Worse, text that looks like a prepare record with an over-long XA identifier makes the
    backward read write past the end of the identifier's buffer. *)
Definition bad_prepare : bytes :=
  le_enc 4 200 ++ [c "P"] ++ b8 1 ++ b8 1 ++ b8 0 ++ le_enc 4 0 ++ [255; 255] ++
  repeat 65 132 ++ le_enc 4 171.
Definition bad_carrier : lentry := mkE (c "T") 4 [V_num 9; V_bytes (bad_prepare ++ [0])].
Theorem C25_open_is_memory_safe_refuted :
  exists es n, Forall entry_ok es /\ n <= len (file_of es) /\
    lc_last (lc_create [firstn (N.to_nat n) (file_of es)]) = None.
Proof.
  exists [bad_carrier], (12 + 4 + 1 + 8 + 8 + 4 + len bad_prepare). split; [|split].
  - repeat apply Forall_cons; try apply Forall_nil.
    eexists; split; [reflexivity|]. split; [|split; reflexivity].
    repeat apply Forall2_cons; try apply Forall2_nil; [reflexivity|].
    cbn [field_ok]. apply Forall_forall. intros x X.
    assert (B : forallb (fun b => b <? 256) (bad_prepare ++ [0]) = true) by (vm_compute; reflexivity).
    rewrite forallb_forall in B. specialize (B x X). lia.
  - vm_compute. discriminate.
  - vm_compute. reflexivity.
Qed.
Print Assumptions C25_open_is_memory_safe_refuted.
