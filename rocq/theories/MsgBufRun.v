(** The remaining operations on a child's message buffer keep the invariant; round trips. *)
From Verif Require Import Base Bytes X1764Model WbufModel WbufProofs XidsModel XidsProofs MsgBufModel MsgBufSpec MsgBufProofs MsgBufInv LtSpec KOrd.
From Coq Require Import Sorted Permutation.
Open Scope N_scope.

Lemma nth_ext' {A} (l l' : list A) : (forall i, nth_error l i = nth_error l' i) -> l = l'.
Proof.
  revert l'. induction l as [|a l IH]; intros [|b l'] H; auto.
  - specialize (H 0%nat). discriminate.
  - specialize (H 0%nat). discriminate.
  - pose proof (H 0%nat) as H0. injection H0 as ->. f_equal. apply IH. intros i. exact (H (S i)).
Qed.
Lemma mid_slice {A} (a b c : list A) n : n = length b -> firstn n (skipn (length a) (a ++ b ++ c)) = b /\ skipn n (skipn (length a) (a ++ b ++ c)) = c.
Proof. intros ->. rewrite skipn_app_exact. split; [apply firstn_app_exact|apply skipn_app_exact]. Qed.
Lemma map_split3 {A B} (f : A -> B) l a b c : map f l = a ++ b ++ c ->
  exists x y z, l = x ++ y ++ z /\ map f x = a /\ map f y = b /\ map f z = c.
Proof.
  intros E. apply map_eq_app in E as (x & r & -> & E1 & E2). apply map_eq_app in E2 as (y & z & -> & E2 & E3).
  exists x, y, z. auto.
Qed.
Lemma filter_map_In {A} (f : A -> bool) l : (forall x, In x l -> f x = true) -> filter f l = l.
Proof. induction l; cbn; intros H; auto. rewrite H by auto. rewrite IHl; auto. Qed.

Section Run.
Context (cmp : bytes -> bytes -> comparison) (ok : cmp_ok cmp).
Notation Inv := (Inv cmp).

Notation fu is es := (fold_left (fun e i => upd i e) is es).
Lemma fu_off is es j : off (fu is es) j = off es j.
Proof. revert es. induction is; intros es; cbn [fold_left]; auto. now rewrite IHis, upd_off. Qed.
Lemma fu_km is es j : km (fu is es) j = km es j.
Proof. revert es. induction is; intros es; cbn [fold_left]; auto. now rewrite IHis, upd_km. Qed.
Lemma fu_oks is es : oks es -> oks (fu is es).
Proof. revert es. induction is; intros es O; cbn [fold_left]; auto. apply IHis, upd_oks, O. Qed.
Lemma fu_length is es : length (fu is es) = length es.
Proof. revert es. induction is; intros es; cbn [fold_left]; auto. now rewrite IHis, upd_length. Qed.
Lemma fu_len is es : len (memof (fu is es)) = len (memof es).
Proof. revert es. induction is; intros es; cbn [fold_left]; auto. now rewrite IHis, upd_len. Qed.

Lemma once_spec_apply lbe ubi es j : once_i (spec_apply cmp lbe ubi es) j = once_i es j.
Proof. unfold once_i, spec_apply. rewrite nth_error_map. unfold entry in *. destruct (nth_error es j) as [[]|]; reflexivity. Qed.
Lemma flag_spec_apply lbe ubi es j : flag (spec_apply cmp lbe ubi es) j =
  flag es j && (once_i es j && negb (within_i cmp es lbe ubi j)).
Proof.
  unfold flag, once_i, within_i, km, spec_apply. rewrite nth_error_map. unfold entry in *.
  destruct (nth_error es j) as [[]|]; reflexivity.
Qed.
Lemma idx_bcast_once es : idx Bcast es = filter (fun i => negb (once_i es i)) (seq 0 (length es)).
Proof.
  unfold idx. apply filter_ext_In'. intros i I. apply in_seq in I. unfold once_i, cls.
  destruct (nth_error es i) as [[m f]|] eqn:N; [|apply nth_error_None in N; lia]. cbn [fst snd].
  destruct (once m), f; reflexivity.
Qed.
Lemma existsb_In j l : existsb (Nat.eqb j) l = true <-> In j l.
Proof. rewrite existsb_exists. split; [intros (x & I & E); apply Nat.eqb_eq in E; now subst|intros I; exists j; now rewrite Nat.eqb_refl]. Qed.

Lemma inv_apply b es fi si ls lbe ubi : Inv b es fi si ->
  exists b' fi', bnc_apply cmp ls b lbe ubi = Some b' /\ Inv b' (spec_apply cmp lbe ubi es) fi' si.
Proof.
  intros V. pose proof (fresh_lt _ _ _ _ _ V) as FL. pose proof (stale_lt _ _ _ _ _ V) as SL.
  destruct b as [[num mem z] fr st bc]. destruct V as [V1 V2 V3 V4 V5 O V6 V7 V8 V9 V10 V11 V12].
  cbn [n_buf b_mem b_num n_fresh n_stale n_bcast] in *. subst mem num fr st bc.
  unfold bnc_apply. cbn [n_buf b_mem b_num b_size n_fresh n_stale n_bcast]. cbv zeta.
  assert (MF : map fst (map (fun p : nat * bool => (off es (fst p), snd p)) fi) = map (off es) (map fst fi)) by (now rewrite !map_map).
  rewrite MF.
  assert (ST : exists s1 s2, (if ls then find_bounds cmp (memof es) (map (off es) si) lbe ubi else Some (0%nat, 0%nat)) = Some (s1, s2) /\
     exists SB, firstn (s2 - s1) (skipn s1 (map (off es) si)) = map (off es) SB /\ (forall x, In x SB -> In x si)).
  { destruct ls.
    - destruct (find_bounds_ok cmp ok es lbe ubi si O SL V9) as (i & j & A & B & C & E & S & I & J & _). exists i, j. split; auto.
      exists B. rewrite S, !map_app, I. rewrite <- (map_length (off es) A). rewrite I in J.
      destruct (mid_slice (map (off es) A) (map (off es) B) (map (off es) C) (j - length A)) as (M & _); [rewrite map_length; auto|].
      rewrite map_length in M. rewrite map_length. split; [exact M|]. intros x X. rewrite !in_app_iff. auto.
    - exists 0%nat, 0%nat. split; auto. exists []. split; [reflexivity|]. intros ? []. }
  destruct ST as (s1 & s2 & -> & SB & -> & SBI).
  destruct (find_bounds_ok cmp ok es lbe ubi (map fst fi) O FL V8) as (i & j & A & B & C & E & S & I & J & WB & WAC).
  rewrite E. destruct (map_split3 _ _ _ _ _ S) as (FA & FB & FC & EF & <- & <- & <-).
  rewrite S, !map_app. rewrite I in *. rewrite (map_length fst FA) in E, J. rewrite (map_length fst FB) in J. rewrite ?map_length.
  destruct (mid_slice (map (off es) (map fst FA)) (map (off es) (map fst FB)) (map (off es) (map fst FC)) (j - length FA)) as (M & _).
  { rewrite !map_length. exact J. }
  rewrite !map_length in M. rewrite M. clear M.
  rewrite <- !map_app. set (L := SB ++ map fst FB ++ idx Bcast es).
  assert (LL : forall x, In x L -> (x < length es)%nat).
  { intros x X. unfold L in X. rewrite !in_app_iff in X. destruct X as [X|[X|X]].
    - apply SL, SBI, X.
    - apply FL. rewrite S, !in_app_iff. auto.
    - eapply idx_lt; eauto. }
  rewrite clear_all_ok by exact LL.
  assert (ES : fu L es = spec_apply cmp lbe ubi es).
  { apply nth_ext'. intros k. rewrite fold_upd_nth. unfold spec_apply. rewrite nth_error_map. unfold entry in *.
    destruct (nth_error es k) as [[m f]|] eqn:N; [|reflexivity]. cbn [option_map fst snd]. do 2 f_equal. destruct f; [|reflexivity]. cbn [andb].
    assert (KL : (k < length es)%nat) by (apply nth_error_Some; congruence).
    assert (ONK : once_i es k = once m) by (unfold once_i, entry in *; now rewrite N).
    assert (FLK : flag es k = true) by (unfold flag, entry in *; now rewrite N).
    assert (WK : within cmp lbe ubi (m_key m) = within_i cmp es lbe ubi k) by (unfold within_i, km, entry in *; now rewrite N).
    assert (BK : In k (idx Bcast es) <-> once m = false).
    { rewrite idx_bcast_once, filter_In, in_seq, ONK, negb_true_iff. intuition lia. }
    destruct (once m) eqn:ON; cbn [andb].
    - rewrite WK. f_equal. destruct (within_i cmp es lbe ubi k) eqn:W.
      + apply existsb_In. unfold L. rewrite !in_app_iff. right; left.
        assert (IN : In k (map fst fi ++ si)) by (apply (in_once _ _ _ V10); auto). apply in_app_iff in IN as [IN|IN].
        * rewrite S, !in_app_iff in IN. destruct IN as [IN|[IN|IN]]; auto; exfalso; rewrite WAC in W; try discriminate; apply in_app_iff; auto.
        * exfalso. rewrite V12 in FLK by auto. discriminate.
      + apply not_true_iff_false. rewrite existsb_In. unfold L. rewrite !in_app_iff. intros [X|[X|X]].
        * rewrite V12 in FLK by auto. discriminate.
        * rewrite WB in W by auto. discriminate.
        * apply BK in X. discriminate.
    - apply negb_false_iff. apply existsb_In. unfold L. rewrite !in_app_iff. right; right. apply BK. reflexivity. }
  exists (mkBnc (mkBuf (N.of_nat (length es)) (memof (fu L es)) z)
     (mark_range (length FA) j (map (fun p : nat * bool => (off es (fst p), snd p)) fi)) (map (off es) si) (map (off es) (idx Bcast es))).
  exists (FA ++ map (fun p => (fst p, true)) FB ++ FC). split.
  { rewrite EF. rewrite !map_app. reflexivity. }
  assert (FST : map fst (FA ++ map (fun p : nat * bool => (fst p, true)) FB ++ FC) = map fst fi).
  { rewrite EF, !map_app, map_map. cbn [fst]. reflexivity. }
  assert (ON' : forall k, once_i (fu L es) k = once_i es k) by (intros; rewrite ES; apply once_spec_apply).
  assert (IB : idx Bcast (fu L es) = idx Bcast es).
  { rewrite !idx_bcast_once, fu_length. apply filter_ext_In'. intros. now rewrite ON'. }
  assert (LT' : forall x y, lt_i cmp es x y -> lt_i cmp (fu L es) x y) by (intros x y; unfold lt_i; now rewrite !fu_km).
  rewrite <- ES. constructor; cbn [n_buf b_mem b_num n_fresh n_stale n_bcast].
  - reflexivity.
  - now rewrite fu_length.
  - rewrite EF, !map_app. unfold mark_range.
    replace (length FA) with (length (map (fun p : nat * bool => (off es (fst p), snd p)) FA)) by apply map_length.
    destruct (mid_slice (map (fun p : nat * bool => (off es (fst p), snd p)) FA) (map (fun p : nat * bool => (off es (fst p), snd p)) FB)
      (map (fun p : nat * bool => (off es (fst p), snd p)) FC) (j - length FA)) as (M1 & M2); [now rewrite map_length|].
    rewrite map_length in *. rewrite M1, M2. rewrite <- (map_length (fun p : nat * bool => (off es (fst p), snd p)) FA), firstn_app_exact.
    rewrite !map_map. cbn [fst snd]. f_equal; [|f_equal]; apply map_ext; intros; now rewrite fu_off.
  - apply map_ext. intros. now rewrite fu_off.
  - rewrite IB. apply map_ext. intros. now rewrite fu_off.
  - apply fu_oks, O.
  - rewrite ES. unfold msns, spec_apply. rewrite map_map. cbn [fst]. exact V6.
  - rewrite fu_len. exact V7.
  - rewrite FST. eapply SS_ext; [|exact V8]. auto.
  - eapply SS_ext; [|exact V9]. auto.
  - rewrite FST, fu_length. erewrite filter_ext_In'; [exact V10|]. intros. apply ON'.
  - intros k mk IN. rewrite ES, flag_spec_apply.
    assert (INK : forall q, In q FA \/ In q FC -> snd q = mk -> fst q = k -> In (k, mk) fi).
    { intros [q1 q2] Q <- <-. rewrite EF, !in_app_iff. tauto. }
    assert (ONE : In k (map fst fi) -> once_i es k = true).
    { intros X. apply (in_once _ _ _ V10). apply in_app_iff. auto. }
    rewrite !in_app_iff in IN. destruct IN as [IN|[IN|IN]].
    + rewrite (V11 k mk) by (apply (INK (k, mk)); auto). rewrite ONE, WAC; [destruct mk; reflexivity| |].
      * apply in_app_iff. left. apply (in_map fst) in IN. exact IN.
      * rewrite S, !in_app_iff. left. apply (in_map fst) in IN. exact IN.
    + apply in_map_iff in IN as ([q1 q2] & Q & IN). cbn [fst] in Q. injection Q as <- <-.
      rewrite WB; [rewrite !andb_false_r; reflexivity|]. apply (in_map fst) in IN. exact IN.
    + rewrite (V11 k mk) by (apply (INK (k, mk)); auto). rewrite ONE, WAC; [destruct mk; reflexivity| |].
      * apply in_app_iff. right. apply (in_map fst) in IN. exact IN.
      * rewrite S, !in_app_iff. right; right. apply (in_map fst) in IN. exact IN.
  - intros k IN. rewrite ES, flag_spec_apply, V12 by auto. reflexivity.
Qed.

Lemma copy_to_stale_ok es M si : oks es -> NoDup (msns es) -> NoDup (M ++ si) ->
  (forall i, In i (M ++ si) -> (i < length es)%nat) -> StronglySorted (lt_i cmp es) si ->
  exists si', copy_to_stale cmp (memof es) (map (off es) M) (map (off es) si) = Some (map (off es) si') /\
              Permutation (M ++ si) si' /\ StronglySorted (lt_i cmp es) si'.
Proof.
  intros O ND. revert si. induction M as [|i M IH]; intros si ND2 LT SS; cbn [map copy_to_stale].
  { exists si. auto. }
  rewrite get_key_msn_i by (auto; apply LT; cbn; auto).
  inversion ND2 as [|? ? NI ND3]; subst.
  destruct (tree_insert_ok cmp ok (fun o => o) (off es) (fun i => i) es i si) as (s1 & T & P & SS1); auto.
  { intros j [<-|J]; apply LT; cbn; auto. right. apply in_app_iff. auto. }
  { intros j J. apply km_neq; auto; try (apply LT; cbn; auto; right; apply in_app_iff; auto). intros ->. apply NI, in_app_iff. auto. }
  { now rewrite map_id. }
  rewrite map_id in SS1. cbn beta in T. rewrite T.
  assert (PP : Permutation (M ++ s1) (i :: M ++ si)).
  { etransitivity; [apply Permutation_app_head, Permutation_sym, P|]. apply Permutation_sym, Permutation_middle. }
  destruct (IH s1) as (s2 & E & P2 & SS2); auto.
  { apply (Permutation_NoDup (Permutation_sym PP)). exact ND2. }
  { intros j J. apply LT. apply (Permutation_in _ PP). exact J. }
  exists s2. split; auto. split; auto. etransitivity; [|exact P2]. apply Permutation_sym, PP.
Qed.

Lemma filter_split {A} (f : A -> bool) l : Permutation l (filter f l ++ filter (fun x => negb (f x)) l).
Proof.
  induction l as [|a l IH]; cbn; auto. destruct (f a); cbn.
  - constructor. exact IH.
  - apply Permutation_cons_app. exact IH.
Qed.
Lemma SS_filter {A} (R : A -> A -> Prop) (f : A -> bool) l : StronglySorted R l -> StronglySorted R (filter f l).
Proof.
  induction 1 as [|a l S IH F]; cbn; [constructor|]. destruct (f a); auto. constructor; auto.
  rewrite Forall_forall in *. intros x X. apply filter_In in X as (X & _). auto.
Qed.
Lemma SS_map_filter {A} (R : A -> A -> Prop) {B} (g : B -> A) (f : B -> bool) l : StronglySorted R (map g l) -> StronglySorted R (map g (filter f l)).
Proof.
  induction l as [|a l IH]; cbn; auto. intros S. inversion S as [|? ? S' F]; subst. destruct (f a); cbn; auto. constructor; auto.
  rewrite Forall_forall in *. intros x X. apply in_map_iff in X as (b & <- & X). apply filter_In in X as (X & _). apply F. now apply in_map.
Qed.
Lemma inv_move b es fi si : Inv b es fi si ->
  exists b' fi' si', move_to_stale cmp b = Some b' /\ Inv b' es fi' si' /\ n_buf b' = n_buf b /\ Forall (fun p => snd p = false) fi'.
Proof.
  intros V. pose proof (fresh_lt _ _ _ _ _ V) as FL. pose proof (stale_lt _ _ _ _ _ V) as SL.
  destruct b as [[num mem z] fr st bc]. destruct V as [V1 V2 V3 V4 V5 O V6 V7 V8 V9 V10 V11 V12].
  cbn [n_buf b_mem b_num n_fresh n_stale n_bcast] in *. subst mem num fr st bc.
  unfold move_to_stale. cbn [n_buf b_mem n_fresh n_stale n_bcast].
  set (M := map fst (filter snd fi)).
  assert (MM : map fst (filter snd (map (fun p : nat * bool => (off es (fst p), snd p)) fi)) = map (off es) M).
  { unfold M. clear. induction fi as [|[i mk] l IH]; cbn; auto. destruct mk; cbn; now rewrite IH. }
  assert (UU : filter (fun x : N * bool => negb (snd x)) (map (fun p : nat * bool => (off es (fst p), snd p)) fi) =
     map (fun p => (off es (fst p), snd p)) (filter (fun x => negb (snd x)) fi)).
  { clear. induction fi as [|[i mk] l IH]; cbn; auto. destruct mk; cbn; now rewrite IH. }
  rewrite MM, UU.
  assert (PM : Permutation (map fst fi) (M ++ map fst (filter (fun x => negb (snd x)) fi))).
  { unfold M. rewrite <- map_app. apply Permutation_map, filter_split. }
  assert (PA : Permutation (map fst (filter (fun x => negb (snd x)) fi) ++ M ++ si) (map fst fi ++ si)).
  { rewrite app_assoc. apply Permutation_app_tail. etransitivity; [apply Permutation_app_comm|]. apply Permutation_sym, PM. }
  assert (ND : NoDup (map fst fi ++ si)).
  { apply (Permutation_NoDup (Permutation_sym V10)). apply NoDup_filter, seq_NoDup. }
  destruct (copy_to_stale_ok es M si O V6) as (si' & E & P & SS).
  { apply (Permutation_NoDup (Permutation_sym PA)) in ND. clear - ND.
    induction (map fst (filter (fun x => negb (snd x)) fi)); auto. inversion ND; auto. }
  { intros i I. apply in_app_iff in I as [I|I]; auto. apply FL. apply (Permutation_in _ (Permutation_sym PM)), in_app_iff. auto. }
  { exact V9. }
  rewrite E. eexists _, (filter (fun x => negb (snd x)) fi), si'. split; [reflexivity|]. cbn [n_buf].
  assert (MIN : forall i, In i M -> In (i, true) fi).
  { intros i I. unfold M in I. apply in_map_iff in I as ([a mk] & <- & I). apply filter_In in I as (I & X). cbn in *. now subst. }
  split; [|split; [reflexivity|]].
  - constructor; cbn [n_buf b_mem b_num n_fresh n_stale n_bcast]; auto.
    + apply SS_map_filter. exact V8.
    + etransitivity; [apply Permutation_app_head, Permutation_sym, P|]. etransitivity; [exact PA|exact V10].
    + intros i mk I. apply filter_In in I as (I & _). auto.
    + intros i I. apply (Permutation_in _ (Permutation_sym P)) in I. apply in_app_iff in I as [I|I]; auto.
      apply (V11 i true). auto.
  - apply Forall_forall. intros p I. apply filter_In in I as (_ & I). destruct (snd p); [discriminate|reflexivity].
Qed.

(** ** Round trips *)
Lemma length19 es : oks es -> (19 * length es <= length (memof es))%nat.
Proof.
  induction 1 as [|e l H _ IH]; cbn [length]; auto. rewrite memof_cons, app_length.
  pose proof (len_entry (fst e) (snd e) H) as L. unfold memsize_in_buffer, sizeof_buffer_entry, xids_size, len, enc in *. lia.
Qed.
Lemma off_le es i : off es i <= len (memof es).
Proof.
  unfold off. rewrite <- (firstn_skipn i es) at 2. rewrite memof_app, len_app. lia.
Qed.
Lemma count_all es l : Permutation l (filter (once_i es) (seq 0 (length es))) -> (length l + length (idx Bcast es) = length es)%nat.
Proof.
  intros P. rewrite (Permutation_length P), idx_bcast_once.
  pose proof (Permutation_length (filter_split (once_i es) (seq 0 (length es)))) as L. rewrite seq_length, app_length in L. lia.
Qed.
Definition enc_tree (l : list N) : bytes := le_enc 4 (N.of_nat (length l)) ++ concat (map (le_enc 4) l).
Lemma len_offs l : len (concat (map (le_enc 4) l)) = 4 * N.of_nat (length l).
Proof. induction l; cbn [map concat length]; [reflexivity|]. rewrite len_app, len_le_enc, IHl. lia. Qed.
Lemma len_tree l : len (enc_tree l) = 4 + 4 * N.of_nat (length l).
Proof. unfold enc_tree. now rewrite len_app, len_le_enc, len_offs. Qed.
Lemma write_offsets_ok l w : room w (4 * N.of_nat (length l)) ->
  exists w', write_offsets w l = Some w' /\ w_size w' = w_size w /\ w_out w' = w_out w ++ concat (map (le_enc 4) l).
Proof.
  revert w. induction l as [|o l IH]; intros w R; cbn [write_offsets map concat].
  { exists w. rewrite app_nil_r. auto. }
  unfold wbuf_nocrc_uint, room in *. cbn [length] in R.
  destruct (wput_nocrc_ok w (le_enc 4 o)) as (w1 & E1 & S1 & O1); [unfold room; rewrite len_le_enc; lia|]. rewrite E1.
  destruct (IH w1) as (w2 & E2 & S2 & O2); [rewrite S1, O1, len_app, len_le_enc; lia|].
  exists w2. split; auto. split; [congruence|]. now rewrite O2, O1, <- app_assoc.
Qed.
Lemma write_tree_ok l w : room w (4 + 4 * N.of_nat (length l)) ->
  exists w', write_tree w l = Some w' /\ w_size w' = w_size w /\ w_out w' = w_out w ++ enc_tree l.
Proof.
  intros R. unfold write_tree, wbuf_nocrc_uint, room in *.
  destruct (wput_nocrc_ok w (le_enc 4 (N.of_nat (length l)))) as (w1 & E1 & S1 & O1); [unfold room; rewrite len_le_enc; lia|]. rewrite E1.
  destruct (write_offsets_ok l w1) as (w2 & E2 & S2 & O2); [unfold room; rewrite S1, O1, len_app, len_le_enc; lia|].
  exists w2. split; auto. split; [congruence|]. unfold enc_tree. now rewrite O2, O1, <- app_assoc.
Qed.
Lemma read_ints_ok l r : Forall (fun x => x < 2 ^ 32) l -> read_ints (length l) (concat (map (le_enc 4) l) ++ r) = Some (l, r).
Proof.
  induction 1 as [|x l H _ IH]; cbn [length read_ints map concat app]; auto.
  rewrite <- app_assoc, rbuf_int_app by auto. now rewrite IH.
Qed.
Lemma read_tree_ok l r : Forall (fun x => x < 2 ^ 32) l -> N.of_nat (length l) < 2 ^ 31 -> read_tree (enc_tree l ++ r) = Some (l, r).
Proof.
  intros F L. unfold read_tree, enc_tree. assert (P : 2 ^ 32 = 2 * 2 ^ 31) by reflexivity.
  rewrite <- app_assoc, rbuf_int_app by lia. destruct (N.ltb_spec (N.of_nat (length l)) (2 ^ 31)); [|lia].
  rewrite Nat2N.id. apply read_ints_ok. exact F.
Qed.
Definition same (a b : bnc) : Prop :=
  b_num (n_buf a) = b_num (n_buf b) /\ b_mem (n_buf a) = b_mem (n_buf b) /\
  n_fresh a = n_fresh b /\ n_stale a = n_stale b /\ n_bcast a = n_bcast b.
Lemma offs_small es l : len (memof es) <= 2 ^ 30 -> Forall (fun x => x < 2 ^ 32) (map (off es) l).
Proof.
  intros L. apply Forall_forall. intros x X. apply in_map_iff in X as (i & <- & _). pose proof (off_le es i).
  assert (P : 2 ^ 32 = 4 * 2 ^ 30) by reflexivity. assert (P0 : 0 < 2 ^ 30) by reflexivity. lia.
Qed.
Lemma le_enc4_back x : x < 2 ^ 32 -> le_val (le_enc 4 x) = x.
Proof. intros H. apply le_val_enc_small. exact H. Qed.
Lemma x1764_memory_lt bs : x1764_memory bs < 2 ^ 32.
Proof.
  unfold x1764_memory. destruct (words4_loop 0 0 0 0 bs) as [[[[? ?] ?] ?] rest]. destruct (words_loop _ rest) as [s t].
  assert (LX : forall a b, a < 2 ^ 32 -> b < 2 ^ 32 -> N.lxor a b < 2 ^ 32).
  { intros a b A B. destruct (N.eq_dec (N.lxor a b) 0) as [->|NZ]; [reflexivity|].
    apply N.log2_lt_pow2; [lia|]. eapply N.le_lt_trans; [apply N.log2_lxor|].
    apply N.max_lub_lt.
    - destruct (N.eq_dec a 0) as [->|]; [reflexivity|]. apply N.log2_lt_pow2; [lia|exact A].
    - destruct (N.eq_dec b 0) as [->|]; [reflexivity|]. apply N.log2_lt_pow2; [lia|exact B]. }
  unfold fold32. apply LX; [reflexivity|]. apply N.mod_lt. discriminate.
Qed.

Definition no_marks (fi : list (nat * bool)) : Prop := Forall (fun p => snd p = false) fi.
Lemma no_marks_map es fi : no_marks fi ->
  map (fun o => (o, false)) (map (off es) (map fst fi)) = map (fun p : nat * bool => (off es (fst p), snd p)) fi.
Proof. intros F. rewrite !map_map. apply map_ext_in. intros p P. rewrite (proj1 (Forall_forall _ _) F p P). reflexivity. Qed.

Lemma roundtrip b es fi si : Inv b es fi si -> no_marks fi ->
  exists bs b', partition_write b = Some bs /\ len bs = partition_size b /\ partition_read bs = Some (Read b') /\ same b' b.
Proof.
  intros V NM. pose proof (length19 es (v_oks _ _ _ _ _ V)) as L19.
  destruct b as [[num mem z] fr st bc]. destruct V as [V1 V2 V3 V4 V5 O V6 V7 V8 V9 V10 V11 V12].
  cbn [n_buf b_mem b_num n_fresh n_stale n_bcast] in *. subst mem num fr st bc.
  pose proof (count_all es _ V10) as CA. rewrite app_length, map_length in CA.
  assert (P1 : 2 ^ 32 = 4 * 2 ^ 30) by reflexivity. assert (P2 : 2 ^ 31 = 2 * 2 ^ 30) by reflexivity.
  assert (P0 : 1000 < 2 ^ 30) by reflexivity.
  set (F := map (off es) (map fst fi)). set (S := map (off es) si). set (B := map (off es) (idx Bcast es)).
  assert (LF : length F = length fi) by (unfold F; now rewrite !map_length).
  assert (LS : length S = length si) by (unfold S; now rewrite !map_length).
  assert (LB : length B = length (idx Bcast es)) by (unfold B; now rewrite !map_length).
  pose proof (len_wire es O) as LW. unfold len in V7.
  set (sz := 1 + (4 + len (memof es)) + (4 + 4 * N.of_nat (length F)) + (4 + 4 * N.of_nat (length S)) + (4 + 4 * N.of_nat (length B)) + 4).
  assert (SZ : sz < 2 ^ 32) by (unfold sz, len; lia).
  unfold partition_write, partition_size. cbn [n_buf b_mem n_fresh n_stale n_bcast].
  replace (length (map (fun p : nat * bool => (off es (fst p), snd p)) fi)) with (length F) by (now rewrite LF, map_length).
  fold S B. change (1 + (4 + len (memof es)) + (4 + 4 * N.of_nat (length F)) + (4 + 4 * N.of_nat (length S)) + (4 + 4 * N.of_nat (length B)) + 4) with sz.
  rewrite (N.mod_small sz) by exact SZ. set (w := wbuf_init sz).
  assert (SW : w_size w = sz) by (unfold w, wbuf_init; cbn [w_size]; apply N.mod_small, SZ).
  assert (OW : w_out w = []) by reflexivity.
  unfold child_buffer_write. cbn [n_buf n_fresh n_stale n_bcast].
  replace (map fst (map (fun p : nat * bool => (off es (fst p), snd p)) fi)) with F by (unfold F; now rewrite !map_map).
  unfold wbuf_nocrc_char.
  destruct (wput_nocrc_ok w [FTNODE_PARTITION_MSG_BUFFER]) as (w1 & E1 & S1 & O1).
  { unfold room. rewrite SW, OW. change (len []) with 0. change (len [_]) with 1. unfold sz. lia. }
  rewrite E1.
  assert (A1 : len (w_out w1) = 1) by (rewrite O1, OW; reflexivity).
  destruct (mbuf_write_ok es z w1 O) as (w2 & E2 & S2 & O2).
  { unfold room. rewrite S1, SW, A1, LW. unfold sz. lia. }
  rewrite E2.
  assert (A2 : len (w_out w2) = 5 + len (memof es)) by (rewrite O2, !len_app, A1, len_le_enc, LW; lia).
  destruct (write_tree_ok F w2) as (w3 & E3 & S3 & O3); [unfold room; rewrite S2, S1, SW, A2; unfold sz; lia|]. rewrite E3.
  assert (A3 : len (w_out w3) = 5 + len (memof es) + (4 + 4 * N.of_nat (length F))) by (rewrite O3, len_app, A2, len_tree; lia).
  destruct (write_tree_ok S w3) as (w4 & E4 & S4 & O4); [unfold room; rewrite S3, S2, S1, SW, A3; unfold sz; lia|]. rewrite E4.
  assert (A4 : len (w_out w4) = 5 + len (memof es) + (4 + 4 * N.of_nat (length F)) + (4 + 4 * N.of_nat (length S))) by (rewrite O4, len_app, A3, len_tree; lia).
  destruct (write_tree_ok B w4) as (w5 & E5 & S5 & O5); [unfold room; rewrite S4, S3, S2, S1, SW, A4; unfold sz; lia|]. rewrite E5.
  assert (A5 : len (w_out w5) + 4 = sz) by (rewrite O5, len_app, A4, len_tree; unfold sz; lia).
  unfold wbuf_nocrc_uint.
  destruct (wput_nocrc_ok w5 (le_enc 4 (x1764_memory (w_out w5)))) as (w6 & E6 & S6 & O6).
  { unfold room. rewrite S5, S4, S3, S2, S1, SW, len_le_enc. lia. }
  rewrite E6.
  assert (A6 : len (w_out w6) = sz) by (rewrite O6, len_app, len_le_enc; lia).
  assert (S6' : w_size w6 = sz) by congruence.
  rewrite S6', A6, N.eqb_refl. exists (w_out w6).
  assert (D1 : firstn (length (w_out w6) - 4) (w_out w6) = w_out w5).
  { rewrite O6, app_length, le_enc_length, Nat.add_sub. apply firstn_app_exact. }
  assert (D2 : skipn (length (w_out w6) - 4) (w_out w6) = le_enc 4 (x1764_memory (w_out w5))).
  { rewrite O6, app_length, le_enc_length, Nat.add_sub. apply skipn_app_exact. }
  assert (DATA : w_out w5 = FTNODE_PARTITION_MSG_BUFFER :: (le_enc 4 (N.of_nat (length es)) ++ wire es ++ enc_tree F ++ enc_tree S ++ enc_tree B)).
  { rewrite O5, O4, O3, O2, O1, OW. cbn [app]. now rewrite <- !app_assoc. }
  destruct (mbuf_read_ok es (len (w_out w5)) (enc_tree F ++ enc_tree S ++ enc_tree B) O V7) as (z' & R).
  eexists. split; [reflexivity|]. split; [exact A6|].
  unfold partition_read. cbv zeta. rewrite A6. destruct (N.leb_spec 4 sz); [|unfold sz in *; lia].
  rewrite D1, D2, le_enc4_back by apply x1764_memory_lt. rewrite N.eqb_refl. cbn [negb].
  rewrite DATA at 1. cbn [rbuf_char]. rewrite N.eqb_refl. unfold child_buffer_read. rewrite R.
  rewrite !read_tree_ok by (try (apply offs_small; unfold len; lia); lia).
  rewrite <- (app_nil_r (enc_tree B)), read_tree_ok by (try (apply offs_small; unfold len; lia); lia).
  cbn [is_nil]. split; [reflexivity|]. unfold same. cbn [n_buf b_num b_mem n_fresh n_stale n_bcast].
  repeat split. unfold F. apply no_marks_map. exact NM.
Qed.

(** *** The reader for older versions sorts the offsets itself. *)
Lemma sort_insert_ok es x l : oks es -> (forall i, In i (x :: l) -> (i < length es)%nat) ->
  (forall i, In i l -> key_msn_cmp cmp (km es i) (km es x) <> Eq) -> StronglySorted (lt_i cmp es) l ->
  exists l', sort_insert cmp (memof es) (km es x) (off es x) (map (off es) l) = Some (map (off es) l') /\
             Permutation (x :: l) l' /\ StronglySorted (lt_i cmp es) l'.
Proof.
  intros O LT. induction l as [|y l IH]; intros NE SS; cbn [map sort_insert].
  { exists [x]. split; [reflexivity|]. split; [auto|]. repeat constructor. }
  rewrite get_key_msn_i by (auto; apply LT; cbn; auto).
  inversion SS as [|? ? SS' FA]; subst.
  destruct (key_msn_cmp cmp (km es y) (km es x)) eqn:C.
  - exfalso. apply (NE y); cbn; auto.
  - destruct IH as (l' & E & P & S'); auto.
    { intros b I. apply LT. cbn in *. tauto. }
    { intros b I. apply NE. cbn; auto. }
    rewrite E. exists (y :: l'). split; [reflexivity|]. split.
    + etransitivity; [apply perm_swap|]. constructor. exact P.
    + constructor; auto. rewrite Forall_forall in *. intros i I.
      apply (Permutation_in _ (Permutation_sym P)) in I as [<-|I]; [|auto]. apply kmlt_Lt in C. exact C.
  - exists (x :: y :: l). split; [reflexivity|]. split; [auto|]. constructor; [exact SS|].
    apply (kmlt_Gt cmp ok) in C. constructor; [exact C|]. rewrite Forall_forall in *. intros i I. eapply kmlt_trans; [exact ok|exact C|]. apply FA, I.
Qed.
Lemma sort_offsets_ok es l acc : oks es -> NoDup (msns es) -> NoDup (l ++ acc) ->
  (forall i, In i (l ++ acc) -> (i < length es)%nat) -> StronglySorted (lt_i cmp es) acc ->
  exists l', sort_offsets cmp (memof es) (map (off es) l) (map (off es) acc) = Some (map (off es) l') /\
             Permutation (l ++ acc) l' /\ StronglySorted (lt_i cmp es) l'.
Proof.
  intros O ND. revert acc. induction l as [|i M IH]; intros si ND2 LT SS; cbn [map sort_offsets].
  { exists si. auto. }
  rewrite get_key_msn_i by (auto; apply LT; cbn; auto).
  inversion ND2 as [|? ? NI ND3]; subst.
  destruct (sort_insert_ok es i si) as (s1 & T & P & SS1); auto.
  { intros j [<-|J]; apply LT; cbn; auto. right. apply in_app_iff. auto. }
  { intros j J. apply km_neq; auto; try (apply LT; cbn; auto; right; apply in_app_iff; auto). intros ->. apply NI, in_app_iff. auto. }
  rewrite T.
  assert (PP : Permutation (M ++ s1) (i :: M ++ si)).
  { etransitivity; [apply Permutation_app_head, Permutation_sym, P|]. apply Permutation_sym, Permutation_middle. }
  destruct (IH s1) as (s2 & E & P2 & SS2); auto.
  { apply (Permutation_NoDup (Permutation_sym PP)). exact ND2. }
  { intros j J. apply LT. apply (Permutation_in _ PP). exact J. }
  exists s2. split; auto. split; auto. etransitivity; [|exact P2]. apply Permutation_sym, PP.
Qed.
Lemma SS_unique es a b : StronglySorted (lt_i cmp es) a -> StronglySorted (lt_i cmp es) b -> Permutation a b -> a = b.
Proof.
  intros SA. revert b. induction SA as [|x a SA IH FA]; intros b SB P.
  { apply Permutation_nil in P. now subst. }
  destruct SB as [|y b SB FB]; [apply Permutation_sym, Permutation_nil in P; discriminate|].
  assert (x = y).
  { destruct (Permutation_in x P (or_introl eq_refl)) as [->|I]; auto.
    destruct (Permutation_in y (Permutation_sym P) (or_introl eq_refl)) as [->|J]; auto.
    rewrite Forall_forall in *. exfalso. apply (kmlt_irrefl cmp ok (km es x)). eapply kmlt_trans; [exact ok|apply (FA y J)|apply (FB x I)]. }
  subst y. f_equal. apply IH; auto. eapply Permutation_cons_inv; eauto.
Qed.
Lemma idx_perm_fresh b es fi si : Inv b es fi si -> no_marks fi ->
  Permutation (idx Fresh es) (map fst fi) /\ Permutation (idx Stale es) si.
Proof.
  intros V NM. assert (ND : NoDup (map fst fi ++ si)).
  { apply (Permutation_NoDup (Permutation_sym (v_perm _ _ _ _ _ V))). apply NoDup_filter, seq_NoDup. }
  assert (FF : forall i, In i (map fst fi) -> flag es i = true).
  { intros i I. apply in_map_iff in I as ([a mk] & <- & I). cbn [fst]. rewrite (v_fflag _ _ _ _ _ V a mk I).
    pose proof (proj1 (Forall_forall _ _) NM _ I) as X. cbn in X. now subst. }
  assert (CL : forall i, (i < length es)%nat -> exists e, nth_error es i = Some e /\ once_i es i = once (fst e) /\ flag es i = snd e).
  { intros i I. unfold once_i, flag. destruct (nth_error es i) as [e|] eqn:N; [eauto|apply nth_error_None in N; lia]. }
  pose proof (v_sflag _ _ _ _ _ V) as SF. pose proof (v_perm _ _ _ _ _ V) as VP.
  split; apply NoDup_Permutation; try (apply NoDup_filter, seq_NoDup).
  - clear - ND. induction (map fst fi); cbn in *; [constructor|]. inversion ND; subst. constructor; auto. rewrite in_app_iff in *. tauto.
  - intros i. unfold idx. rewrite filter_In, in_seq. split.
    + intros (I & C). destruct (CL i) as (e & N & E1 & E2); [lia|]. rewrite N in C. unfold cls in C.
      assert (IN : In i (map fst fi ++ si)).
      { apply (in_once _ _ _ VP). split; [lia|]. destruct (once (fst e)); auto. destruct (snd e); discriminate. }
      apply in_app_iff in IN as [IN|IN]; auto. rewrite (SF i IN) in E2. rewrite <- E2 in C. destruct (once (fst e)); discriminate.
    + intros I. assert (IN : In i (map fst fi ++ si)) by (apply in_app_iff; auto). apply (in_once _ _ _ VP) in IN as (L & ON).
      destruct (CL i L) as (e & N & E1 & E2). rewrite N. unfold cls. rewrite <- E1, ON, <- E2, (FF i I). split; [lia|reflexivity].
  - clear - ND. induction (map fst fi); cbn in *; auto. inversion ND; subst. auto.
  - intros i. unfold idx. rewrite filter_In, in_seq. split.
    + intros (I & C). destruct (CL i) as (e & N & E1 & E2); [lia|]. rewrite N in C. unfold cls in C.
      assert (IN : In i (map fst fi ++ si)).
      { apply (in_once _ _ _ VP). split; [lia|]. destruct (once (fst e)); auto. discriminate. }
      apply in_app_iff in IN as [IN|IN]; auto. rewrite (FF i IN) in E2. rewrite <- E2 in C. destruct (once (fst e)); discriminate.
    + intros I. assert (IN : In i (map fst fi ++ si)) by (apply in_app_iff; auto). apply (in_once _ _ _ VP) in IN as (L & ON).
      destruct (CL i L) as (e & N & E1 & E2). rewrite N. unfold cls. rewrite <- E1, ON, <- E2, (SF i I). split; [lia|reflexivity].
Qed.
Lemma roundtrip_v26 b es fi si w r rsize : Inv b es fi si -> no_marks fi -> room w (4 + len (b_mem (n_buf b))) ->
  exists w' bs b', mbuf_write w (n_buf b) = Some w' /\ w_out w' = w_out w ++ bs /\
    child_buffer_read_v26 cmp (bs ++ r) rsize = Some (b', r) /\ same b' b.
Proof.
  intros V NM R. destruct (idx_perm_fresh _ _ _ _ V NM) as (PF & PS).
  pose proof (fresh_lt _ _ _ _ _ V) as FL. pose proof (stale_lt _ _ _ _ _ V) as SL.
  destruct b as [[num mem z] fr st bc]. destruct V as [V1 V2 V3 V4 V5 O V6 V7 V8 V9 V10 V11 V12].
  cbn [n_buf b_mem b_num n_fresh n_stale n_bcast] in *. subst mem num fr st bc.
  destruct (mbuf_write_ok es z w O) as (w' & E & S' & OW); [unfold room in *; rewrite len_wire by auto; exact R|].
  destruct (mbuf_read_ok es rsize r O V7) as (z' & RD).
  assert (NDI : forall c, NoDup (idx c es ++ [])) by (intros; rewrite app_nil_r; apply NoDup_filter, seq_NoDup).
  assert (LTI : forall c i, In i (idx c es ++ []) -> (i < length es)%nat) by (intros c i; rewrite app_nil_r; apply idx_lt).
  destruct (sort_offsets_ok es (idx Fresh es) [] O V6 (NDI Fresh) (LTI Fresh)) as (f' & SF & PF' & SSF); [constructor|].
  destruct (sort_offsets_ok es (idx Stale es) [] O V6 (NDI Stale) (LTI Stale)) as (s' & SS & PS' & SSS); [constructor|].
  rewrite app_nil_r in PF', PS'.
  assert (f' = map fst fi).
  { apply (SS_unique es); auto. etransitivity; [apply Permutation_sym, PF'|exact PF]. }
  assert (s' = si).
  { apply (SS_unique es); auto. etransitivity; [apply Permutation_sym, PS'|exact PS]. }
  subst f' s'. exists w', (le_enc 4 (N.of_nat (length es)) ++ wire es). eexists. split; [exact E|]. split; [exact OW|].
  unfold child_buffer_read_v26. rewrite <- app_assoc, RD. cbn [b_mem offs o_fresh o_stale o_bcast map] in *. rewrite SF, SS.
  split; [reflexivity|]. unfold same. cbn [n_buf b_num b_mem n_fresh n_stale n_bcast]. repeat split.
  apply no_marks_map. exact NM.
Qed.
End Run.
