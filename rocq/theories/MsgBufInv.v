(** The message trees over the buffer: invariant, every operation keeps it, round trip. *)
From Verif Require Import Base Bytes X1764Model WbufModel WbufProofs XidsModel XidsProofs MsgBufModel MsgBufSpec MsgBufProofs LtSpec KOrd.
From Coq Require Import Sorted Permutation.
Open Scope N_scope.

Section Inv.
Context (cmp : bytes -> bytes -> comparison) (ok : cmp_ok cmp).

Definition kmlt (a b : bytes * N) : Prop := klt cmp (fst a) (fst b) \/ keq cmp (fst a) (fst b) /\ snd a < snd b.
Lemma kmlt_Lt a b : key_msn_cmp cmp a b = Lt <-> kmlt a b.
Proof.
  unfold key_msn_cmp, kmlt, klt, keq. destruct (cmp (fst a) (fst b)) eqn:E; rewrite ?N.compare_lt_iff; intuition congruence.
Qed.
Lemma kmlt_Gt a b : key_msn_cmp cmp a b = Gt <-> kmlt b a.
Proof.
  unfold key_msn_cmp, kmlt, klt, keq. rewrite (cmp_sym _ ok (fst a) (fst b)).
  destruct (cmp (fst a) (fst b)) eqn:E; cbn; rewrite ?N.compare_gt_iff; intuition congruence.
Qed.
Lemma kmlt_trans a b c : kmlt a b -> kmlt b c -> kmlt a c.
Proof.
  unfold kmlt. intros [H|(H & L)] [H'|(H' & L')].
  - left. kord ok.
  - left. kord ok.
  - left. kord ok.
  - right. split; [kord ok|lia].
Qed.
Lemma kmlt_irrefl a : ~ kmlt a a.
Proof. unfold kmlt. intros [H|(_ & H)]; [exact (klt_irrefl ok _ H)|lia]. Qed.

Definition lt_i (es : list entry) (i j : nat) : Prop := kmlt (km es i) (km es j).
Definition flag (es : list entry) (i : nat) : bool := match nth_error es i with Some e => snd e | None => false end.
Definition once_i (es : list entry) (i : nat) : bool := match nth_error es i with Some e => once (fst e) | None => false end.
Definition msns (es : list entry) : list N := map (fun e => m_msn (fst e)) es.

(** ** Inserting into a tree *)

Lemma tree_insert_ok {A B} (off_of : A -> N) (g : B -> A) (ix : B -> nat) es x l :
  (forall b, off_of (g b) = off es (ix b)) -> oks es ->
  (forall b, In b (x :: l) -> (ix b < length es)%nat) ->
  (forall b, In b l -> key_msn_cmp cmp (km es (ix b)) (km es (ix x)) <> Eq) ->
  StronglySorted (lt_i es) (map ix l) ->
  exists l', tree_insert cmp off_of (memof es) (km es (ix x)) (g x) (map g l) = Some (map g l') /\
             Permutation (x :: l) l' /\ StronglySorted (lt_i es) (map ix l').
Proof.
  intros G O LT. induction l as [|y l IH]; intros NE SS; cbn [map tree_insert].
  { exists [x]. split; [reflexivity|]. split; [auto|]. repeat constructor. }
  rewrite G, get_key_msn_i by (auto; apply LT; cbn; auto).
  inversion SS as [|? ? SS' FA]; subst.
  destruct (key_msn_cmp cmp (km es (ix y)) (km es (ix x))) eqn:C.
  - exfalso. apply (NE y); cbn; auto.
  - destruct IH as (l' & E & P & S'); auto.
    { intros b I. apply LT. cbn in *. tauto. }
    { intros b I. apply NE. cbn; auto. }
    rewrite E. exists (y :: l'). split; [reflexivity|]. split.
    + etransitivity; [apply perm_swap|]. constructor. exact P.
    + cbn [map]. constructor; auto. rewrite Forall_forall in *. intros i I. apply in_map_iff in I as (b & <- & I).
      apply (Permutation_in _ (Permutation_sym P)) in I as [<-|I].
      * apply kmlt_Lt in C. exact C.
      * apply FA. apply in_map. exact I.
  - exists (x :: y :: l). split; [reflexivity|]. split; [auto|]. cbn [map]. constructor; [exact SS|].
    apply kmlt_Gt in C. constructor; [exact C|]. rewrite Forall_forall in *. intros i I. eapply kmlt_trans; [exact C|]. apply FA, I.
Qed.

(** ** Finding the bounds *)
Definition beyond (es : list entry) (u : bytes) (i : nat) : bool := kltb cmp u (fst (km es i)).
Lemma gt_max es u i : oks es -> (i < length es)%nat ->
  key_msn_cmp cmp (km es i) (u, MAX_MSN) = Gt <-> beyond es u i = true.
Proof.
  intros O L. rewrite kmlt_Gt. unfold beyond. rewrite kltb_true. unfold kmlt. cbn [fst snd]. split; [|auto].
  intros [H|(_ & H)]; auto. exfalso. unfold km in H. destruct (nth_error es i) as [[m f]|] eqn:N.
  - pose proof (oks_nth _ _ _ O N) as (_ & _ & MS & _). cbn [fst snd] in *. unfold MAX_MSN in H.
    assert (0 < 2 ^ 64) by reflexivity. lia.
  - cbn [snd] in H. lia.
Qed.
Lemma find_larger_ok es u is : oks es -> (forall i, In i is -> (i < length es)%nat) -> StronglySorted (lt_i es) is ->
  exists A C, is = A ++ C /\ (forall i, In i A -> beyond es u i = false) /\ (forall i, In i C -> beyond es u i = true) /\
    find_larger cmp (memof es) (u, MAX_MSN) (map (off es) is) =
      Some match C with [] => None | i :: _ => Some (length A, off es i) end.
Proof.
  intros O. induction is as [|i is IH]; intros LT SS; cbn [map find_larger].
  { exists [], []. cbn. repeat split; auto; intros ? []. }
  inversion SS as [|? ? SS' FA]; subst. rewrite get_key_msn_i by (auto; apply LT; cbn; auto).
  pose proof (gt_max es u i O (LT i (or_introl eq_refl))) as GM.
  destruct (beyond es u i) eqn:B.
  - rewrite (proj2 GM eq_refl). exists [], (i :: is). split; [reflexivity|]. split; [intros ? []|]. split; [|reflexivity].
    intros j [<-|J]; auto. unfold beyond in *. rewrite kltb_true in *. rewrite Forall_forall in FA. specialize (FA j J).
    unfold lt_i, kmlt in FA. destruct FA as [FA|(FA & _)]; kord ok.
  - destruct (IH (fun j J => LT j (or_intror J)) SS') as (A & C & -> & HA & HC & E). rewrite E.
    exists (i :: A), C. split; [reflexivity|]. split; [intros j [<-|J]; auto|]. split; [exact HC|].
    destruct (key_msn_cmp cmp (km es i) (u, MAX_MSN)) eqn:K; try (destruct C; reflexivity). exfalso. destruct GM as (GM & _).
    specialize (GM eq_refl). discriminate.
Qed.
Definition within_i (es : list entry) (lbe ubi : option bytes) (i : nat) : bool := within cmp lbe ubi (fst (km es i)).
Lemma find_bounds_ok es lbe ubi is : oks es -> (forall i, In i is -> (i < length es)%nat) -> StronglySorted (lt_i es) is ->
  exists i j A B C, find_bounds cmp (memof es) (map (off es) is) lbe ubi = Some (i, j) /\
    is = A ++ B ++ C /\ i = length A /\ (j - i)%nat = length B /\
    (forall x, In x B -> within_i es lbe ubi x = true) /\ (forall x, In x (A ++ C) -> within_i es lbe ubi x = false).
Proof.
  intros O LT SS. unfold find_bounds, within_i, within. rewrite map_length.
  assert (UP : exists U V u, is = U ++ V /\ u = length U /\
     (forall x, In x U -> match ubi with None => true | Some u => kleb cmp (fst (km es x)) u end = true) /\
     (forall x, In x V -> match ubi with None => true | Some u => kleb cmp (fst (km es x)) u end = false) /\
     match ubi with None => Some (length is) | Some u => do r <- find_larger cmp (memof es) (u, MAX_MSN) (map (off es) is);
        Some match r with None => length is | Some (i, _) => i end end = Some u).
  { destruct ubi as [u|].
    - destruct (find_larger_ok es u is O LT SS) as (A & C & E & HA & HC & F). exists A, C, (length A).
      split; auto. split; auto. rewrite F. unfold beyond in *. split; [|split].
      + intros x I. specialize (HA x I). apply kleb_true. apply (proj1 (kltb_false ok _ _)) in HA. exact HA.
      + intros x I. specialize (HC x I). apply (kleb_false ok). apply kltb_true in HC. exact HC.
      + destruct C; [rewrite E, app_nil_r|]; reflexivity.
    - exists is, [], (length is). rewrite app_nil_r. repeat split; auto. intros ? []. }
  destruct UP as (U & V & u & EU & -> & HU & HV & ->).
  destruct lbe as [l|].
  2:{ exists 0%nat, (length U), [], U, V. split; [reflexivity|]. split; [exact EU|]. split; [reflexivity|]. split; [lia|].
      split; intros x I; cbn [andb app] in *; auto. }
  destruct (find_larger_ok es l is O LT SS) as (A & C & E & HA & HC & F). rewrite F. unfold beyond in *.
  destruct C as [|o C].
  { exists 0%nat, 0%nat, [], [], is. rewrite app_nil_r in E. split; [reflexivity|]. repeat split; try reflexivity; [intros ? []|].
    intros x I. cbn [app] in I. rewrite E in I. now rewrite (HA x I). }
  assert (EMPTY : match ubi with Some u => cmp (fst (km es o)) u = Gt | None => False end ->
     exists i j A0 B C0, Some (0%nat, 0%nat) = Some (i, j) /\ is = A0 ++ B ++ C0 /\ i = length A0 /\ (j - i)%nat = length B /\
       (forall x, In x B -> kltb cmp l (fst (km es x)) && match ubi with None => true | Some u => kleb cmp (fst (km es x)) u end = true) /\
       (forall x, In x (A0 ++ C0) -> kltb cmp l (fst (km es x)) && match ubi with None => true | Some u => kleb cmp (fst (km es x)) u end = false)).
  { intros G. destruct ubi as [u|]; [|contradiction]. exists 0%nat, 0%nat, [], [], is. split; [reflexivity|]. repeat split; [intros ? []|].
    intros x I. cbn [app] in I. rewrite E in I. apply in_app_iff in I as [I|I]; [now rewrite (HA x I)|].
    assert (kltb cmp u (fst (km es x)) = true) as K.
    { apply kltb_true. apply (gt_klt ok) in G. destruct I as [<-|I]; [exact G|].
      assert (S2 : StronglySorted (lt_i es) (o :: C)).
      { clear - SS E. rewrite E in SS. clear E. induction A; cbn in SS; auto. inversion SS; auto. }
      inversion S2 as [|? ? _ FA]; subst. rewrite Forall_forall in FA. specialize (FA x I). unfold lt_i, kmlt in FA.
      destruct FA as [FA|(FA & _)]; kord ok. }
    apply kltb_true in K. replace (kleb cmp (fst (km es x)) u) with false; [apply andb_false_r|]. symmetry. now apply (kleb_false ok). }
  assert (NORM : match ubi with Some u => cmp (fst (km es o)) u <> Gt | None => True end ->
     exists i j A0 B C0, Some (length A, length U) = Some (i, j) /\ is = A0 ++ B ++ C0 /\ i = length A0 /\ (j - i)%nat = length B /\
       (forall x, In x B -> kltb cmp l (fst (km es x)) && match ubi with None => true | Some u => kleb cmp (fst (km es x)) u end = true) /\
       (forall x, In x (A0 ++ C0) -> kltb cmp l (fst (km es x)) && match ubi with None => true | Some u => kleb cmp (fst (km es x)) u end = false)).
  { intros NG. assert (IO : In o U).
    { assert (I : In o is) by (rewrite E; apply in_app_iff; cbn; auto). rewrite EU in I. apply in_app_iff in I as [I|I]; auto.
      exfalso. specialize (HV o I). destruct ubi as [u|]; [|discriminate]. apply (kleb_false ok) in HV. apply NG.
      unfold klt in HV. rewrite (cmp_sym _ ok), HV. reflexivity. }
    assert (DI : exists B, U = A ++ o :: B /\ C = B ++ V).
    { clear - E EU IO HA HC ok. rewrite EU in E. clear EU.
      assert (NA : In o U -> exists B, U = A ++ B /\ o :: C = B ++ V).
      { clear IO. revert A E HA. induction U as [|y U IH]; intros A E HA I; [destruct I|].
        destruct A as [|a A].
        - exists (y :: U). cbn in *. split; auto.
        - cbn in E. injection E as <- E. destruct I as [<-|I].
          + exfalso. specialize (HA y (or_introl eq_refl)). specialize (HC y (or_introl eq_refl)). congruence.
          + destruct (IH A E) as (B & E1 & E2); [intros; apply HA; right; assumption|exact I|]. exists B. cbn. rewrite <- E1. auto. }
      destruct (NA IO) as (B & E1 & E2). destruct B as [|b B].
      - exfalso. cbn in E2. rewrite app_nil_r in E1. subst. specialize (HA o IO). specialize (HC o (or_introl eq_refl)). congruence.
      - cbn in E2. injection E2 as <- E2. eauto. }
    destruct DI as (B & EU' & EC). exists (length A), (length U), A, (o :: B), V.
    split; [reflexivity|]. split; [rewrite EU, EU', <- app_assoc; reflexivity|]. split; [reflexivity|].
    split; [rewrite EU', app_length; cbn; lia|]. split.
    - intros x I. rewrite HC, HU; auto; [rewrite EU'; apply in_app_iff; auto|]. rewrite EC. destruct I as [<-|I]; cbn; auto.
      right. apply in_app_iff. auto.
    - intros x I. apply in_app_iff in I as [I|I]; [now rewrite HA|]. rewrite HV by auto. apply andb_false_r. }
  assert (LO : (o < length es)%nat) by (apply LT; rewrite E; apply in_app_iff; cbn; auto).
  destruct ubi as [u|]; [|apply NORM; auto].
  rewrite get_key_msn_i by auto. destruct (km es o) as [k n] eqn:KM. cbn [fst] in *.
  destruct (cmp k u) eqn:CK; [apply NORM; congruence|apply NORM; congruence|apply EMPTY; reflexivity].
Qed.

(** ** Clearing freshness *)
Fixpoint upd (i : nat) (es : list entry) : list entry :=
  match es, i with
  | [], _ => []
  | e :: l, O => (fst e, false) :: l
  | e :: l, S i' => e :: upd i' l
  end.
Lemma upd_length i es : length (upd i es) = length es.
Proof. revert i. induction es; intros []; cbn; auto. Qed.
Lemma upd_nth i es j : nth_error (upd i es) j =
  match nth_error es j with Some e => Some (fst e, snd e && negb (Nat.eqb i j)) | None => None end.
Proof.
  revert i j. induction es as [|e l IH]; intros i j; [destruct i, j; reflexivity|].
  destruct i, j; cbn; try rewrite andb_false_r; auto.
  - destruct (nth_error l j) as [[]|]; auto. cbn. now rewrite andb_true_r.
  - destruct e. cbn. now rewrite andb_true_r.
Qed.
Lemma upd_oks i es : oks es -> oks (upd i es).
Proof. intros O. revert i. induction O; intros []; cbn; constructor; auto. apply IHO. Qed.
Lemma upd_km i es j : km (upd i es) j = km es j.
Proof. unfold km. rewrite upd_nth. destruct (nth_error es j) as [[]|]; reflexivity. Qed.
Lemma upd_split i es e : nth_error es i = Some e -> upd i es = firstn i es ++ (fst e, false) :: skipn (S i) es.
Proof.
  revert i. induction es as [|a l IH]; intros [|i] H; try discriminate; cbn in *.
  - injection H as ->. reflexivity.
  - now rewrite IH.
Qed.
Lemma nth_split' (es : list entry) i e : nth_error es i = Some e -> es = firstn i es ++ e :: skipn (S i) es.
Proof.
  revert i. induction es as [|a l IH]; intros [|i] H; try discriminate; cbn in *.
  - injection H as ->. reflexivity.
  - f_equal. auto.
Qed.
Lemma set_freshness_i es i : (i < length es)%nat -> set_freshness (memof es) (off es i) false = Some (memof (upd i es)).
Proof.
  intros L. destruct (nth_error es i) as [e|] eqn:N; [|apply nth_error_None in N; lia].
  rewrite (upd_split _ _ _ N). rewrite (nth_split' _ _ _ N) at 1. rewrite !memof_app, !memof_cons. unfold off. apply set_freshness_at.
Qed.
Lemma len_enc_flag m f g : len (entry_bytes m f) = len (entry_bytes m g).
Proof. rewrite !entry_fields. unfold fields. cbn [concat]. rewrite !len_app. destruct f, g; reflexivity. Qed.
Lemma upd_off i es j : off (upd i es) j = off es j.
Proof.
  unfold off. revert i j. induction es as [|e l IH]; intros i j; [destruct i; reflexivity|].
  destruct i, j; cbn [upd firstn]; auto; rewrite !memof_cons, !len_app.
  all: unfold enc; cbn [fst snd]; rewrite ?IH, ?(len_enc_flag (fst e) false (snd e)); reflexivity.
Qed.
Lemma upd_len i es : len (memof (upd i es)) = len (memof es).
Proof. rewrite <- !off_end, upd_length. apply upd_off. Qed.
Lemma clear_all_ok is es : (forall i, In i is -> (i < length es)%nat) ->
  clear_all (memof es) (map (off es) is) = Some (memof (fold_left (fun e i => upd i e) is es)).
Proof.
  revert es. induction is as [|i is IH]; intros es H; cbn [map clear_all fold_left]; auto.
  rewrite set_freshness_i by (apply H; cbn; auto).
  rewrite (map_ext (off es) (off (upd i es))) by (intros; symmetry; apply upd_off).
  apply IH. intros j J. rewrite upd_length. apply H. cbn; auto.
Qed.
Lemma fold_upd_nth is es j : nth_error (fold_left (fun e i => upd i e) is es) j =
  match nth_error es j with Some e => Some (fst e, snd e && negb (existsb (Nat.eqb j) is)) | None => None end.
Proof.
  revert es. induction is as [|i is IH]; intros es; cbn [fold_left existsb].
  { destruct (nth_error es j) as [[]|]; auto. cbn. now rewrite andb_true_r. }
  rewrite IH, upd_nth. destruct (nth_error es j) as [[m f]|]; auto. cbn [fst snd].
  rewrite negb_orb, andb_assoc, (Nat.eqb_sym j i). reflexivity.
Qed.

(** ** The invariant *)
Record Inv (b : bnc) (es : list entry) (fi : list (nat * bool)) (si : list nat) : Prop := {
  v_mem : b_mem (n_buf b) = memof es;
  v_num : b_num (n_buf b) = N.of_nat (length es);
  v_fresh : n_fresh b = map (fun p => (off es (fst p), snd p)) fi;
  v_stale : n_stale b = map (off es) si;
  v_bcast : n_bcast b = map (off es) (idx Bcast es);
  v_oks : oks es;
  v_msns : NoDup (msns es);
  v_len : len (memof es) <= 2 ^ 30;
  v_fsort : StronglySorted (lt_i es) (map fst fi);
  v_ssort : StronglySorted (lt_i es) si;
  v_perm : Permutation (map fst fi ++ si) (filter (once_i es) (seq 0 (length es)));
  v_fflag : forall i mk, In (i, mk) fi -> flag es i = negb mk;
  v_sflag : forall i, In i si -> flag es i = false }.

Lemma in_once es l i : Permutation l (filter (once_i es) (seq 0 (length es))) -> In i l <-> (i < length es)%nat /\ once_i es i = true.
Proof.
  intros P. split; intros I.
  - apply (Permutation_in _ P) in I. rewrite filter_In, in_seq in I. intuition lia.
  - apply (Permutation_in _ (Permutation_sym P)). rewrite filter_In, in_seq. intuition lia.
Qed.
Lemma fresh_lt b es fi si : Inv b es fi si -> forall i, In i (map fst fi) -> (i < length es)%nat.
Proof. intros V i I. apply (in_once _ _ _ (v_perm _ _ _ _ V)). apply in_app_iff. auto. Qed.
Lemma stale_lt b es fi si : Inv b es fi si -> forall i, In i si -> (i < length es)%nat.
Proof. intros V i I. apply (in_once _ _ _ (v_perm _ _ _ _ V)). apply in_app_iff. auto. Qed.

Lemma inv_empty : Inv bnc_empty [] [] [].
Proof. constructor; try reflexivity; try constructor; cbn; try discriminate; intuition. Qed.

Lemma km_neq es i j : NoDup (msns es) -> (i < length es)%nat -> (j < length es)%nat -> i <> j ->
  key_msn_cmp cmp (km es i) (km es j) <> Eq.
Proof.
  intros ND LI LJ NE E. unfold key_msn_cmp in E. destruct (cmp (fst (km es i)) (fst (km es j))); try discriminate.
  apply N.compare_eq_iff in E. apply NE. apply (proj1 (NoDup_nth_error (msns es)) ND); [unfold msns; rewrite map_length; auto|].
  unfold msns. rewrite !nth_error_map. unfold km in E.
  destruct (nth_error es i) as [[? ?]|] eqn:N1; [|apply nth_error_None in N1; lia].
  destruct (nth_error es j) as [[? ?]|] eqn:N2; [|apply nth_error_None in N2; lia].
  unfold entry in *. rewrite N1, N2. cbn in *. now rewrite E.
Qed.
Lemma SS_ext {A} (R R' : A -> A -> Prop) l : (forall x y, In x l -> In y l -> R x y -> R' x y) -> StronglySorted R l -> StronglySorted R' l.
Proof.
  intros H S. induction S as [|x l S IH F]; constructor.
  - apply IH. intros; apply H; cbn; auto.
  - rewrite Forall_forall in *. intros y Y. apply H; cbn; auto.
Qed.
Lemma SS_grow es e l : (forall i, In i l -> (i < length es)%nat) -> StronglySorted (lt_i es) l -> StronglySorted (lt_i (es ++ [e])) l.
Proof. intros L. apply SS_ext. intros x y X Y. unfold lt_i. rewrite !km_app by auto. auto. Qed.
Lemma once_filter_app es e : filter (once_i (es ++ [e])) (seq 0 (length (es ++ [e]))) =
  filter (once_i es) (seq 0 (length es)) ++ (if once (fst e) then [length es] else []).
Proof.
  rewrite app_length. cbn [length]. rewrite seq_app, filter_app. f_equal.
  - apply filter_ext_In'. intros i I. apply in_seq in I. unfold once_i. rewrite nth_error_app1 by lia. reflexivity.
  - cbn [seq filter]. unfold once_i. rewrite Nat.add_0_l, nth_error_app2, Nat.sub_diag by lia. cbn [nth_error]. reflexivity.
Qed.
Lemma flag_app es e i : (i < length es)%nat -> flag (es ++ [e]) i = flag es i.
Proof. intros L. unfold flag. now rewrite nth_error_app1. Qed.
Lemma flag_last es e : flag (es ++ [e]) (length es) = snd e.
Proof. unfold flag. rewrite nth_error_app2, Nat.sub_diag by lia. reflexivity. Qed.
Lemma km_last es e : km (es ++ [e]) (length es) = (m_key (fst e), m_msn (fst e)).
Proof. unfold km. rewrite nth_error_app2, Nat.sub_diag by lia. cbn. destruct e; reflexivity. Qed.

Lemma inv_insert b es fi si m f : Inv b es fi si -> msg_ok m -> ~ In (m_msn m) (msns es) ->
  len (memof es) + memsize_in_buffer m <= 2 ^ 30 ->
  exists b' fi' si', bnc_insert_msg cmp b m f = Some b' /\ Inv b' (es ++ [(m, f)]) fi' si'.
Proof.
  intros V OM NI L. destruct b as [[num mem z] fr st bc]. destruct V as [V1 V2 V3 V4 V5 O V6 V7 V8 V9 V10 V11 V12].
  cbn [n_buf b_mem b_num n_fresh n_stale n_bcast] in *. subst mem num fr st bc.
  unfold bnc_insert_msg. cbn [n_buf n_fresh n_stale n_bcast].
  destruct (enqueue_ok (N.of_nat (length es)) es z m f O OM L) as (z' & E). rewrite E.
  pose proof (classify_ok (m, f) OM) as CL. cbn [fst snd] in CL. rewrite CL. cbv zeta. cbn [b_mem].
  set (es' := es ++ [(m, f)]) in *.
  assert (O' : oks es') by (apply Forall_app; split; auto; constructor; auto; constructor).
  assert (ND' : NoDup (msns es')).
  { unfold es', msns. rewrite map_app. cbn [map]. apply (Permutation_NoDup (Permutation_cons_append _ _)). constructor; auto. }
  assert (LE' : len (memof es') <= 2 ^ 30).
  { unfold es'. rewrite memof_app, memof_one, len_app. unfold enc. cbn [fst snd]. rewrite len_entry by auto. exact L. }
  assert (LEN' : length es' = S (length es)) by (unfold es'; rewrite app_length; cbn; lia).
  assert (NUM : N.of_nat (length es) + 1 = N.of_nat (length es')) by lia.
  assert (FL : forall i, In i (map fst fi) -> (i < length es)%nat).
  { intros i I. apply (in_once _ _ _ V10). apply in_app_iff. auto. }
  assert (SL : forall i, In i si -> (i < length es)%nat).
  { intros i I. apply (in_once _ _ _ V10). apply in_app_iff. auto. }
  assert (MF : map (fun p : nat * bool => (off es (fst p), snd p)) fi = map (fun p => (off es' (fst p), snd p)) fi).
  { apply map_ext_in. intros p P. unfold es'. rewrite off_app; auto. apply (in_map fst) in P. specialize (FL _ P). lia. }
  assert (MS : map (off es) si = map (off es') si) by (symmetry; apply map_off_app; auto).
  assert (MB : map (off es) (idx Bcast es) = map (off es') (idx Bcast es)) by (symmetry; apply map_off_app; intros; eapply idx_lt; eauto).
  assert (KL : (m_key m, m_msn m) = km es' (length es)) by (unfold es'; now rewrite km_last).
  assert (FF' : forall i mk, In (i, mk) fi -> flag es' i = negb mk).
  { intros i mk I. unfold es'. rewrite flag_app; auto. apply FL. apply (in_map fst) in I. exact I. }
  assert (SF' : forall i, In i si -> flag es' i = false).
  { intros i I. unfold es'. rewrite flag_app; auto. }
  rewrite MF, MS, MB, KL. unfold cls in *. cbn [fst snd] in *.
  destruct (once m) eqn:ON; [destruct f|].
  - destruct (tree_insert_ok fst (fun p : nat * bool => (off es' (fst p), snd p)) fst es' (length es, false) fi) as (fi' & T & P & SS).
    + reflexivity.
    + exact O'.
    + intros p [<-|I]; cbn [fst]; [lia|]. apply (in_map fst) in I. specialize (FL _ I). lia.
    + intros p I. apply (in_map fst) in I. specialize (FL _ I). apply km_neq; auto; cbn [fst]; lia.
    + apply SS_grow; auto.
    + cbn [fst snd] in T. rewrite T. exists (mkBnc (mkBuf (N.of_nat (length es) + 1) (memof es') z') (map (fun p : nat * bool => (off es' (fst p), snd p)) fi') (map (off es') si) (map (off es') (idx Bcast es))), fi', si. split; [reflexivity|].
      constructor; cbn [n_buf b_mem b_num n_fresh n_stale n_bcast]; auto.
      * unfold es'. rewrite idx_app. unfold cls. cbn [fst snd]. rewrite ON. cbn [class_eqb]. now rewrite app_nil_r.
      * apply SS_grow; auto.
      * unfold es'. rewrite once_filter_app. cbn [fst]. rewrite ON. etransitivity; [apply Permutation_app_tail, Permutation_map, Permutation_sym, P|].
        cbn [map fst app]. etransitivity; [apply Permutation_cons_append|]. apply Permutation_app_tail. exact V10.
      * intros i mk I. apply (Permutation_in _ (Permutation_sym P)) in I as [I|I]; [|auto]. injection I as <- <-.
        unfold es'. rewrite flag_last. reflexivity.
  - destruct (tree_insert_ok (fun o => o) (off es') (fun i => i) es' (length es) si) as (si' & T & P & SS).
    + reflexivity.
    + exact O'.
    + intros p [<-|I]; [lia|]. specialize (SL _ I). lia.
    + intros p I. specialize (SL _ I). apply km_neq; auto; lia.
    + rewrite map_id. apply SS_grow; auto.
    + rewrite map_id in SS. rewrite T. exists (mkBnc (mkBuf (N.of_nat (length es) + 1) (memof es') z') (map (fun p : nat * bool => (off es' (fst p), snd p)) fi) (map (off es') si') (map (off es') (idx Bcast es))), fi, si'. split; [reflexivity|].
      constructor; cbn [n_buf b_mem b_num n_fresh n_stale n_bcast]; auto.
      * unfold es'. rewrite idx_app. unfold cls. cbn [fst snd]. rewrite ON. cbn [class_eqb]. now rewrite app_nil_r.
      * apply SS_grow; auto.
      * unfold es'. rewrite once_filter_app. cbn [fst]. rewrite ON. etransitivity; [apply Permutation_app_head, Permutation_sym, P|].
        etransitivity; [apply Permutation_sym, Permutation_middle|]. etransitivity; [apply Permutation_cons_append|]. apply Permutation_app_tail. exact V10.
      * intros i I. apply (Permutation_in _ (Permutation_sym P)) in I as [I|I]; [|auto]. subst i.
        unfold es'. rewrite flag_last. reflexivity.
  - eexists _, fi, si. split; [reflexivity|].
    constructor; cbn [n_buf b_mem b_num n_fresh n_stale n_bcast]; auto.
    * unfold es'. rewrite idx_app. unfold cls. cbn [fst snd]. rewrite ON. cbn [class_eqb]. rewrite map_app. reflexivity.
    * apply SS_grow; auto.
    * apply SS_grow; auto.
    * unfold es'. rewrite once_filter_app. cbn [fst]. rewrite ON, app_nil_r. exact V10.
Qed.
End Inv.
