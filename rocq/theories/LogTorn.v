(** A log whose last file is cut at an arbitrary byte. *)
From Verif Require Import Base Bytes X1764Model WbufProofs LogModel LogSpec LogProofs LogCursor.
Open Scope N_scope.

Lemma rec_nonempty e : entry_ok e -> 21 <= len (rec_bytes e).
Proof.
  intros (ts & H & _). rewrite (len_rec_bytes e ts H). unfold rec_len. lia.
Qed.

(** [kept es n p]: [p] are the records of [es] wholly contained in the first [n] bytes of
    the file. *)
Definition kept (es : list lentry) (n : N) (p : list lentry) : Prop :=
  exists q, es = p ++ q /\ (p = [] \/ len (file_of p) <= n) /\
            (forall e q', q = e :: q' -> n < len (file_of (p ++ [e]))).

Lemma firstn_app_len (a b : bytes) n : len a <= n ->
  firstn (N.to_nat n) (a ++ b) = a ++ firstn (N.to_nat (n - len a)) b.
Proof.
  intros H. rewrite firstn_app. f_equal.
  - apply firstn_all2. unfold len in H. lia.
  - f_equal. unfold len. lia.
Qed.

(** Every cut position decomposes into complete records and a strict prefix of the next. *)
Lemma cut_records : forall es n, Forall entry_ok es ->
  exists p q t, es = p ++ q /\
    firstn (N.to_nat n) (concat (map rec_bytes es)) = concat (map rec_bytes p) ++ t /\
    (t = [] \/ exists e q' y, q = e :: q' /\ rec_bytes e = t ++ y /\ y <> []) /\
    (p = [] \/ len (concat (map rec_bytes p)) <= n) /\
    (forall e q', q = e :: q' -> n < len (concat (map rec_bytes (p ++ [e])))).
Proof.
  induction es as [|e es IH]; intros n OK.
  - exists [], [], []. cbn [map concat app]. rewrite firstn_nil. repeat split; auto. discriminate.
  - inversion OK as [|? ? He Hes]; subst. cbn [map concat].
    destruct (N.le_gt_cases (len (rec_bytes e)) n) as [C|C].
    + rewrite firstn_app_len by auto.
      destruct (IH (n - len (rec_bytes e)) Hes) as (p & q & t & E & F & T & P & Q).
      exists (e :: p), q, t. rewrite F. cbn [map concat app]. rewrite <- app_assoc.
      split; [now rewrite E|]. split; [reflexivity|]. split; [exact T|]. split.
      * right. rewrite len_app. destruct P as [->|P]; [cbn; lia|lia].
      * intros e' q' X. specialize (Q e' q' X). rewrite len_app. lia.
    + exists [], (e :: es), (firstn (N.to_nat n) (rec_bytes e)). cbn [map concat app].
      split; [reflexivity|]. split.
      { rewrite firstn_app. replace (N.to_nat n - length (rec_bytes e))%nat with 0%nat by (unfold len in C; lia).
        rewrite firstn_O, app_nil_r. reflexivity. }
      split.
      { right. exists e, es, (skipn (N.to_nat n) (rec_bytes e)). split; [reflexivity|].
        split; [now rewrite firstn_skipn|]. intros X. apply (f_equal (@length N)) in X.
        rewrite skipn_length in X. cbn [length] in X. unfold len in C. lia. }
      split; [auto|]. intros e' q' X. injection X as <- <-. now rewrite app_nil_r.
Qed.

Lemma cut_file es n : Forall entry_ok es -> 12 <= n ->
  exists p q t, es = p ++ q /\ firstn (N.to_nat n) (file_of es) = file_of p ++ t /\
    (t = [] \/ exists e q' y, q = e :: q' /\ rec_bytes e = t ++ y /\ y <> []) /\
    len (file_of p) <= n /\
    (forall e q', q = e :: q' -> n < len (file_of (p ++ [e]))).
Proof.
  intros OK Hn. destruct (cut_records es (n - 12) OK) as (p & q & t & E & F & T & P & Q).
  exists p, q, t. split; auto. split.
  { unfold file_of. rewrite firstn_app_len by (rewrite len_header; lia). rewrite len_header, F, app_assoc. reflexivity. }
  split; auto. split.
  - rewrite len_file. destruct P as [->|P]; [cbn; lia|lia].
  - intros e q' X. specialize (Q e q' X). rewrite len_file. lia.
Qed.

Lemma torn_eof p q t : Forall entry_ok (p ++ q) ->
  (t = [] \/ exists e q' y, q = e :: q' /\ rec_bytes e = t ++ y /\ y <> []) -> log_fread t = REof.
Proof.
  intros OK [->|(e & q' & y & -> & E & Y)]; [reflexivity|].
  eapply log_fread_torn; [|exact E|exact Y]. apply Forall_app in OK as [_ OK]. now inversion OK.
Qed.

(** The repair scan stops exactly after the complete records. *)
Lemma scan_good_ok t : log_fread t = REof -> forall b a fuel, Forall entry_ok (a ++ b) ->
  (length b <= fuel)%nat ->
  scan_good fuel (file_of (a ++ b) ++ t) (len (file_of a)) = Some (len (file_of (a ++ b))).
Proof.
  intros T. induction b as [|e b IH]; intros a fuel OK HF.
  - rewrite app_nil_r. destruct fuel; cbn [scan_good]; rewrite skipn_len, T; reflexivity.
  - destruct fuel as [|fuel]; [cbn in HF; lia|]. cbn [scan_good].
    rewrite file_app, <- app_assoc, skipn_len. cbn [map concat]. rewrite <- app_assoc.
    rewrite log_fread_rec by (apply Forall_app in OK as [_ OK]; now inversion OK).
    replace (len (file_of a ++ rec_bytes e ++ concat (map rec_bytes b) ++ t) - len (concat (map rec_bytes b) ++ t))
      with (len (file_of (a ++ [e]))) by (rewrite file_snoc, !len_app; lia).
    specialize (IH (a ++ [e]) fuel). rewrite <- app_assoc in IH. cbn [app] in IH.
    specialize (IH OK ltac:(cbn in HF; lia)).
    rewrite file_app in IH at 1. cbn [map concat] in IH. rewrite <- !app_assoc in IH. rewrite IH, file_app. reflexivity.
Qed.
Lemma records_fit p t : Forall entry_ok p -> (length p <= length (file_of p ++ t))%nat.
Proof.
  intros OK. assert (H : N.of_nat (length p) <= len (concat (map rec_bytes p))).
  { induction OK as [|e p He Hp IH]; cbn [map concat length]; [cbn; lia|].
    rewrite len_app. pose proof (rec_nonempty e He). lia. }
  rewrite app_length. pose proof (len_file p). unfold len in *. lia.
Qed.

(** Repair of a cut file keeps exactly its complete records. *)
Lemma fix_ok lc ess p t : Forall entry_ok p -> log_fread t = REof ->
  l_files lc = map file_of ess ++ [file_of p ++ t] -> l_idx lc = length ess ->
  lc_fix lc = Some (inl (mkLC (map file_of (ess ++ [p])) (length ess) (Some (len (file_of p)))
                           (l_valid lc) (l_lsn lc) (l_dir lc))).
Proof.
  intros OK T F I. unfold lc_fix.
  assert (LF : lc_file lc (length ess) = file_of p ++ t).
  { unfold lc_file. rewrite F, app_nth2; rewrite map_length; auto. now rewrite Nat.sub_diag. }
  rewrite I, LF.
  assert (HM : read_logmagic (file_of p ++ t) = Some LOG_VERSION).
  { unfold file_of. rewrite <- app_assoc. apply header_magic. }
  rewrite HM. rewrite N.eqb_refl. cbn [negb].
  pose proof (scan_good_ok t T p [] (length (file_of p ++ t))) as SG. cbn [app] in SG.
  change (len (file_of [])) with 12 in SG. rewrite SG by (auto using records_fit).
  rewrite F, app_length, map_length. cbn [length].
  replace (length ess + 1 - 1)%nat with (length ess) by lia. rewrite LF.
  replace (len (file_of p) - len (file_of p ++ t)) with 0 by (rewrite len_app; lia).
  change (repeat 0 (N.to_nat 0)) with (@nil N). rewrite app_nil_r.
  rewrite firstn_app_len, N.sub_diag by lia. change (firstn (N.to_nat 0) t) with (@nil N). rewrite app_nil_r.
  rewrite firstn_app, map_length, Nat.sub_diag, firstn_all2, firstn_O, app_nil_r by (rewrite map_length; lia).
  assert (OP : lc_open_pos (map file_of ess ++ [file_of p]) (length ess) = inl 12).
  { apply (open_file _ _ (concat (map rec_bytes p))).
    rewrite nth_error_app2; rewrite map_length; auto. rewrite Nat.sub_diag. reflexivity. }
  rewrite OP, map_app. reflexivity.
Qed.

(** * toku_logcursor_last *)

(** What [last] must report for the records [l]. *)
Definition last_res (l : list lentry) : lres :=
  match rev l with [] => L_notfound | e :: _ => L_ok e end.
Lemma last_res_snoc l e : last_res (l ++ [e]) = L_ok e.
Proof. unfold last_res. rewrite rev_app_distr. reflexivity. Qed.

(** [lc] has at least the files of [ess]. *)
Definition has_files (ess : list (list lentry)) (lc : lcur) : Prop :=
  forall j es, nth_error ess j = Some es -> nth_error (l_files lc) j = Some (file_of es).
Lemma has_file ess lc j es : has_files ess lc -> nth_error ess j = Some es -> lc_file lc j = file_of es.
Proof. intros H E. unfold lc_file. apply nth_error_nth. auto. Qed.

Lemma last_loop_full ess : Forall entry_ok (concat ess) ->
  forall j lc es, nth_error ess j = Some es -> has_files ess lc ->
  exists lc', lc_last_loop j lc = Some (last_res (concat (firstn (S j) ess)), lc') /\
              l_files lc' = l_files lc.
Proof.
  intros OK. induction j as [|j IH]; intros lc es N F; rewrite (firstn_S_nth _ _ _ N); cbn [lc_last_loop];
    rewrite (has_file _ _ _ _ F N).
  all: destruct (list_snoc es) as [->|(a & e & ->)].
  all: cycle 1.
  1, 3: rewrite app_assoc, last_res_snoc;
    rewrite back_in by (eapply file_entries; eauto); eexists; split; reflexivity.
  - assert (B : log_fread_backward (file_of []) (len (file_of [])) = BTop) by reflexivity.
    rewrite B.
    assert (J : (S j < length ess)%nat) by (apply nth_error_Some; congruence).
    destruct (nth_error ess j) as [es|] eqn:N1; [|apply nth_error_None in N1; lia].
    rewrite (open_file _ _ (concat (map rec_bytes es))) by (apply F, N1).
    rewrite app_nil_r. exact (IH (lc_at (lc_close lc) j 12) es eq_refl F).
  - assert (B : log_fread_backward (file_of []) (len (file_of [])) = BTop) by reflexivity.
    rewrite B. eexists. split; reflexivity.
Qed.

(** Inside the cut file, nothing but the real records reads as a record ending at its end. *)
Definition tail_clear (es : list lentry) (f : bytes) : Prop :=
  forall k, (k < length f)%nat ->
    log_fread (skipn k f) <> RUb /\
    (forall e, log_fread (skipn k f) = ROk e [] ->
       exists p q, es = p ++ q /\ len (file_of p) = N.of_nat k).

Lemma backward_result f e pos : log_fread_backward f (len f) = BOk e pos ->
  pos < len f /\ log_fread (skipn (N.to_nat pos) f) = ROk e [].
Proof.
  unfold log_fread_backward. destruct (N.leb_spec (len f) 12); [discriminate|].
  destruct (fread_u32_nocrc _ _) as [[l s] r| | |]; try discriminate.
  set (q := (Z.of_N (len f) + back_disp l)%Z).
  destruct (Z.ltb_spec q 0); [discriminate|].
  destruct (Z.ltb_spec (Z.of_N (len f)) q) as [C|C].
  - cbn. discriminate.
  - destruct (log_fread (skipn (Z.to_nat q) f)) as [e' rest| | |] eqn:R; try discriminate.
    destruct (N.eqb_spec (len f - len rest) (len f)) as [X|]; [|discriminate].
    intros Y. injection Y as <- <-.
    assert (rest = []) as ->.
    { destruct rest; [reflexivity|]. unfold len in X at 2. cbn [length] in X. lia. }
    rewrite Z_N_nat. split; [|exact R].
    assert (q <> Z.of_N (len f))%Z; [|lia].
    intros ->. rewrite N2Z.id in R || idtac.
    replace (Z.to_nat (Z.of_N (len f))) with (length f) in R by (unfold len; lia).
    rewrite skipn_all in R. discriminate.
Qed.
Lemma backward_ub f : log_fread_backward f (len f) = BUb ->
  exists k, (k < length f)%nat /\ log_fread (skipn k f) = RUb.
Proof.
  unfold log_fread_backward. destruct (N.leb_spec (len f) 12); [discriminate|].
  destruct (fread_u32_nocrc _ _) as [[l s] r| | |]; try discriminate.
  set (q := (Z.of_N (len f) + back_disp l)%Z).
  destruct (Z.ltb_spec q 0); [discriminate|].
  destruct (Z.ltb_spec (Z.of_N (len f)) q) as [C|C]; [cbn; discriminate|].
  destruct (log_fread (skipn (Z.to_nat q) f)) as [e' rest| | |] eqn:R; try discriminate.
  { destruct (_ =? _); discriminate. }
  intros _. exists (Z.to_nat q). split; auto.
  assert (q <> Z.of_N (len f))%Z; [|unfold len in *; lia].
  intros E. rewrite E in R. replace (Z.to_nat (Z.of_N (len f))) with (length f) in R by (unfold len; lia).
  rewrite skipn_all in R. discriminate.
Qed.

Lemma backward_top f p : log_fread_backward f p = BTop -> p <= 12.
Proof.
  unfold log_fread_backward. destruct (N.leb_spec p 12) as [C|C]; [auto|].
  destruct (fread_u32_nocrc _ _) as [[l s] r| | |]; try discriminate.
  destruct (_ <? 0)%Z; [discriminate|].
  match goal with |- context [log_fread ?x] => destruct (log_fread x) end; try discriminate.
  destruct (_ =? _); discriminate.
Qed.

(** A boundary of the log from which a record ends exactly at the cut: nothing is torn. *)
Lemma boundary_clean p q t a b k e : Forall entry_ok (p ++ q) -> p ++ q = a ++ b ->
  (t = [] \/ exists e q' y, q = e :: q' /\ rec_bytes e = t ++ y /\ y <> []) ->
  len (file_of a) = N.of_nat k -> (k < length (file_of p ++ t))%nat ->
  log_fread (skipn k (file_of p ++ t)) = ROk e [] -> t = [].
Proof.
  intros OK E T K HK R.
  destruct t as [|c0 t0]; [reflexivity|exfalso]. set (t := c0 :: t0) in *.
  destruct T as [T|(e1 & q' & y & Q & E1 & Y)]; [discriminate|].
  assert (Hk : k = N.to_nat (len (file_of a))) by lia.
  assert (TE : log_fread t = REof) by (eapply torn_eof; eauto 8).
  assert (OKp : Forall entry_ok p) by (apply Forall_app in OK; tauto).
  apply app_eq_app in E as (l & [[Ep Eb]|[Ea Eq]]).
  - subst p. rewrite file_app, <- app_assoc in R. rewrite Hk, skipn_len in R.
    destruct l as [|e2 l]; cbn [map concat app] in R; [congruence|].
    rewrite <- app_assoc in R. rewrite log_fread_rec in R.
    2:{ apply Forall_app in OKp as [_ OKp]. now inversion OKp. }
    injection R as _ R. apply app_eq_nil in R as [_ R]. discriminate R.
  - subst a. rewrite Q in Eq. destruct l as [|e2 l].
    + rewrite app_nil_r in *. rewrite Hk, skipn_len in R. congruence.
    + injection Eq as <- _. rewrite file_app, len_app in K. cbn [map concat] in K.
      rewrite len_app, E1, len_app in K. assert (0 < len y) by (destruct y; [congruence|unfold len; cbn [length]; lia]).
      rewrite app_length in HK. unfold len in *. lia.
Qed.

Theorem last_torn ess es n : Forall entry_ok (concat ess ++ es) -> n <= len (file_of es) ->
  let f := firstn (N.to_nat n) (file_of es) in
  tail_clear es f ->
  exists p lc', kept es n p /\
    lc_last (lc_create (map file_of ess ++ [f])) = Some (last_res (concat ess ++ p), lc') /\
    l_files lc' = map file_of ess ++ [if 12 <=? n then file_of p else f].
Proof.
  intros OK Hn f TC.
  assert (OKe : Forall entry_ok (concat ess)) by (apply Forall_app in OK; tauto).
  assert (OKs : Forall entry_ok es) by (apply Forall_app in OK; tauto).
  assert (LENF : len f = n) by (unfold f, len in *; rewrite firstn_length; lia).
  (* the walk back to the earlier files *)
  assert (PREV : forall lc, has_files ess lc ->
    exists lc', (match length ess with
                 | O => Some (L_notfound, lc_close lc)
                 | S i' => match lc_open_pos (l_files lc) i' with
                           | inr e => Some (e, lc_idx_set (lc_close lc) i')
                           | inl p => lc_last_loop i' (lc_at (lc_close lc) i' p)
                           end
                 end) = Some (last_res (concat ess), lc') /\ l_files lc' = l_files lc).
  { intros lc HF. destruct (length ess) as [|i'] eqn:LE.
    - destruct ess; [|discriminate]. eexists. split; reflexivity.
    - destruct (nth_error ess i') as [es'|] eqn:N1; [|apply nth_error_None in N1; lia].
      rewrite (open_file _ _ (concat (map rec_bytes es'))) by (apply HF, N1).
      destruct (last_loop_full ess OKe i' (lc_at (lc_close lc) i' 12) es' N1 HF) as (lc' & R1 & R2).
      rewrite firstn_all2 in R1 by lia. eauto. }
  (* opening the cut file *)
  unfold lc_last. cbn [lc_create l_files].
  rewrite app_length, map_length. cbn [length].
  replace (length ess + 1 - 1)%nat with (length ess) by lia.
  match goal with |- context [if (?a =? ?b)%nat then ?x else ?y] =>
    set (lc2 := if (a =? b)%nat then x else y) end.
  assert (P2 : l_pos lc2 = None) by (unfold lc2; destruct (_ =? _)%nat; reflexivity).
  assert (F2 : l_files lc2 = map file_of ess ++ [f]) by (unfold lc2; destruct (_ =? _)%nat; reflexivity).
  clearbody lc2. rewrite P2, F2.
  assert (NF : nth_error (map file_of ess ++ [f]) (length ess) = Some f).
  { rewrite nth_error_app2; rewrite map_length; auto. now rewrite Nat.sub_diag. }
  assert (HFS : forall lc g, l_files lc = map file_of ess ++ [g] -> has_files ess lc).
  { intros lc g E j es' N1. rewrite E, nth_error_app1; [now apply map_nth_error|].
    rewrite map_length. apply nth_error_Some. congruence. }
  (* positions *)
  destruct (N.leb_spec 12 n) as [C12|C12].
  2:{ (* not even a header *)
    exists [].
    assert (OP : lc_open_pos (map file_of ess ++ [f]) (length ess) = inl 0).
    { unfold lc_open_pos. rewrite app_length, map_length. cbn [length].
      destruct (Nat.leb_spec (length ess + 1) (length ess)); [lia|].
      rewrite (nth_error_nth _ _ [] NF), LENF. destruct (N.leb_spec 12 n); [lia|reflexivity]. }
    rewrite OP. set (lc3 := lc_at lc2 (length ess) 0). change (l_idx lc3) with (length ess).
    assert (LF : lc_file lc3 (length ess) = f).
    { unfold lc_file. change (l_files lc3) with (l_files lc2). rewrite F2. apply nth_error_nth, NF. }
    assert (BT : log_fread_backward f (len f) = BTop).
    { unfold log_fread_backward. rewrite LENF. destruct (N.leb_spec n 12); [reflexivity|lia]. }
    destruct (PREV lc3 (HFS lc3 f F2)) as (lc' & R1 & R2).
    assert (RL : lc_last_loop (length ess) lc3 = Some (last_res (concat ess), lc')).
    { rewrite <- R1. destruct (length ess) eqn:LE; cbn [lc_last_loop]; rewrite LF, BT; reflexivity. }
    rewrite RL, app_nil_r.
    assert (KP : kept es n []).
    { exists es. split; [reflexivity|]. split; [auto|]. intros e q' _. rewrite len_file. lia. }
    destruct (last_res (concat ess)) eqn:LR; eexists; (split; [exact KP|]); (split; [reflexivity|]);
      try exact (eq_trans R2 F2). }
  destruct (cut_file es n OKs C12) as (p & q & t & E & F & T & PL & PQ).
  fold f in F. assert (TE : log_fread t = REof) by (subst es; eapply torn_eof; eauto).
  assert (OKp : Forall entry_ok p) by (subst es; apply Forall_app in OKs; tauto).
  assert (KP : kept es n p) by (exists q; auto).
  exists p.
  assert (OP : lc_open_pos (map file_of ess ++ [f]) (length ess) = inl 12).
  { rewrite F. apply (open_file _ _ (concat (map rec_bytes p) ++ t)).
    rewrite F in NF. rewrite NF. unfold file_of. rewrite <- app_assoc. reflexivity. }
  rewrite OP. set (lc3 := lc_at lc2 (length ess) 12). change (l_idx lc3) with (length ess).
  assert (LF : lc_file lc3 (length ess) = f).
  { unfold lc_file. change (l_files lc3) with (l_files lc2). rewrite F2. apply nth_error_nth, NF. }
  assert (MAIN : exists lc', lc_last_loop (length ess) lc3 = Some (last_res (concat ess ++ p), lc') /\
                             l_files lc' = map file_of ess ++ [file_of p]).
  { destruct t as [|c0 t0].
    - (* the cut is at a record boundary *)
      rewrite app_nil_r in F. destruct (list_snoc p) as [->|(a & e & ->)].
      + destruct (PREV lc3 (HFS lc3 f F2)) as (lc' & R1 & R2). exists lc'.
        rewrite app_nil_r. split; [|rewrite R2; change (l_files lc3) with (l_files lc2); rewrite F2, F; reflexivity].
        rewrite <- R1. assert (BT : log_fread_backward f (len f) = BTop) by (rewrite F; reflexivity).
        destruct (length ess) eqn:LE; cbn [lc_last_loop]; rewrite LF, BT; reflexivity.
      + assert (BK : log_fread_backward f (len f) = BOk e (len (file_of a))) by (rewrite F; now apply back_in).
        rewrite app_assoc, last_res_snoc. exists (lc_at lc3 (length ess) (len (file_of a))).
        destruct (length ess) eqn:LE; cbn [lc_last_loop]; rewrite LF, BK; (split; [reflexivity|]);
          cbn [lc_at l_files]; change (l_files lc3) with (l_files lc2); rewrite F2, F; reflexivity.
    - set (t := c0 :: t0) in *.
      assert (L12 : 12 < len f).
      { rewrite F, len_app, len_file. unfold t, len at 2. cbn [length]. lia. }
      assert (BE : log_fread_backward f (len f) = BErr).
      { destruct (log_fread_backward f (len f)) as [e pos| | |] eqn:B; auto.
        - exfalso. apply backward_result in B as [B1 B2].
          destruct (TC (N.to_nat pos)) as [_ TC2]; [unfold len in B1; lia|].
          destruct (TC2 e B2) as (a & b & E' & K). rewrite F in B2, B1.
          enough (t = []) by discriminate.
          eapply (boundary_clean p q t a b (N.to_nat pos) e); eauto.
          + now rewrite <- E.
          + congruence.
          + unfold len in B1. lia.
        - exfalso. apply backward_top in B. lia.
        - exfalso. apply backward_ub in B as (k & B1 & B2). destruct (TC k B1). contradiction. }
      pose proof (fix_ok lc3 ess p t OKp TE) as FX.
      specialize (FX ltac:(change (l_files lc3) with (l_files lc2); now rewrite F2, F) eq_refl).
      set (lc4 := mkLC (map file_of (ess ++ [p])) (length ess) (Some (len (file_of p))) (l_valid lc3) (l_lsn lc3) (l_dir lc3)) in *.
      assert (F4 : l_files lc4 = map file_of ess ++ [file_of p]) by (cbn; now rewrite map_app).
      assert (G4 : lc_file lc4 (length (l_files lc4) - 1) = file_of p).
      { unfold lc_file. rewrite F4, app_length, map_length. cbn [length].
        replace (length ess + 1 - 1)%nat with (length ess) by lia.
        rewrite app_nth2; rewrite map_length; auto. now rewrite Nat.sub_diag. }
      destruct (list_snoc p) as [EP|(a & e & EP)].
      + assert (BT : log_fread_backward (file_of p) (len (file_of p)) = BTop) by (rewrite EP; reflexivity).
        destruct (PREV lc4 (HFS lc4 _ F4)) as (lc' & R1 & R2). exists lc'.
        split; [|congruence]. rewrite EP, app_nil_r, <- R1.
        destruct (length ess) eqn:LE; cbn [lc_last_loop]; rewrite LF, BE, FX, G4, BT; reflexivity.
      + assert (BK : log_fread_backward (file_of p) (len (file_of p)) = BOk e (len (file_of a))).
        { rewrite EP in *. now apply back_in. }
        rewrite EP, app_assoc, last_res_snoc. exists (lc_at lc4 (length ess) (len (file_of a))).
        split; [|cbn [lc_at l_files]; rewrite F4, EP; reflexivity].
        destruct (length ess) eqn:LE; cbn [lc_last_loop]; rewrite LF, BE, FX, G4, BK; reflexivity. }
  destruct MAIN as (lc' & M1 & M2). rewrite M1.
  destruct (last_res (concat ess ++ p)) eqn:LR; eexists; (split; [exact KP|]); (split; [reflexivity|]); exact M2.
Qed.
