(** One attempt of a search: the leaf and the tree. *)
From Verif Require Import Base Bytes LtSpec KOrd PivotModel PivotProofs PropsPivot FtModel FtSpec FtSeg FtRows FtInv FtPut FtOps FtOps3 FtQuery FtSys CurModel CurSpec CurProofs.
From Coq Require Import Sorted.
Open Scope nat_scope.

Section T.
Context {E : env} {TM : timing E} (ok : cmp_ok (kcmp E)).
Local Notation c := (kcmp E).
Local Notation L := (L E).
Local Notation G := (G E).
Local Notation rows := (rows E).
Local Notation leaf := (leaf E).
Local Notation tree := (tree E).
Local Notation ancs := (ancs E).
Variable del : L -> bool.
Variable q : srch.
Hypothesis legal : sf_dir (q_dir q) (q_fun q) = true.
Local Notation d := (q_dir q).
Local Notation W := (wants (E:=E) (q_fun q) (q_key q)).
Local Notation B := (comes_before (E:=E) (q_dir q)).

(** The keys a search that has saved [b] has left behind. *)
Definition passed (b : bound) (y : bytes) : Prop :=
  match b with None => False | Some p => match d with SLeft => kle c y p | SRight => klt c p y end end.
Definition near (lo hi : bound) : bound := match d with SLeft => lo | SRight => hi end.
Definition far (lo hi : bound) : bound := match d with SLeft => hi | SRight => lo end.
Definition ahead (b : bound) (p : bytes) : Prop := match b with None => True | Some b => B b p end.

Lemma rng_dir lo hi y : ~ passed (near lo hi) y -> (far lo hi = None \/ passed (far lo hi) y) -> in_rng c lo hi y.
Proof.
  unfold near, far, passed, in_rng. destruct d; intros N [F|F].
  - subst hi. split; [|exact Logic.I]. destruct lo as [l|]; [|exact Logic.I]. kord ok.
  - destruct hi as [h|]; [|contradiction]. split; [|exact F]. destruct lo as [l|]; [|exact Logic.I]. kord ok.
  - subst lo. split; [exact Logic.I|]. destruct hi as [l|]; [|exact Logic.I]. kord ok.
  - destruct lo as [h|]; [|contradiction]. split; [exact F|]. destruct hi as [l|]; [|exact Logic.I]. kord ok.
Qed.
Lemma rng_far lo hi y : in_rng c lo hi y -> far lo hi = None \/ passed (far lo hi) y.
Proof. unfold far, passed, in_rng. destruct d; destruct lo, hi; cbn; intuition. Qed.
Lemma passed_dec b y : {passed b y} + {~ passed b y}.
Proof.
  unfold passed. destruct b as [p|]; [|right; tauto]. destruct d.
  - destruct (klt_or_kle ok p y); [right; apply (klt_not ok); auto|left; auto].
  - destruct (klt_or_kle ok p y); [left; auto|right; apply (kle_not ok); auto].
Qed.
Lemma passed_na lo hi y x : not_after (E:=E) d y x -> in_rng c lo hi x -> far lo hi = None \/ passed (far lo hi) y.
Proof.
  unfold far, passed, in_rng. destruct d; cbn; intros N (R1 & R2).
  - destruct hi; [right|auto]. kord ok.
  - destruct lo; [right|auto]. kord ok.
Qed.

Definition pre (b : bound) (lo hi : bound) : Prop :=
  (forall y, W y -> passed (near lo hi) y -> passed b y) /\
  (forall p, far lo hi = Some p -> W p /\ ahead b p).

Section Attempt.
Variables (bulk : bool) (rst : restr) (dir : option sdir) (cbk : cb E) (b : bound).

Definition Kn (O : bytes -> option L -> Prop) (y : bytes) : Prop := passed b y \/ unseen_in del O y.
(** The bound of the search is reached. *)
Definition past (p : bytes) : Prop := match d, q_kbound q with SLeft, Some kb => kltb c p kb = false | _, _ => False end.
Definition known_after (O : bytes -> option L -> Prop) (fr : bound) (r : sres E) : Prop :=
  match r with
  | RRows out cur rf => rows_good del q rst bulk O (Kn O) out cur rf
  | RStop x true _ => W x /\ forall y, W y -> within_kb (E:=E) q y -> passed (Some x) y -> Kn O y
  | RStop x false _ => stop_good del q O (Kn O) x
  | RNotFound => (forall p, fr = Some p -> cb_pivot cbk p = AOk \/ past p) /\ forall y, W y -> within_kb (E:=E) q y -> fr = None \/ passed fr y -> Kn O y
  | RAgain b' => (W b' /\ cb_pivot cbk b' = AOk) /\ ahead b b' /\ forall y, W y -> passed (Some b') y -> Kn O y
  end.
Definition post (O : bytes -> option L -> Prop) (fr : bound) (r : sres E) : Prop := known_after O fr r /\ why rst dir cbk r.

Section H.
(** What the messages may have left is among [O]. *)
Variables (H : hist (E:=E)) (O : bytes -> option L -> Prop).
Hypothesis HM : forall k r, made H k r -> O k r.

Lemma bn_step_ok lo hi rs : pre b lo hi -> bn_seen H lo hi rs -> post O (far lo hi) (bn_step del q bulk rst dir cbk lo hi rs).
Proof.
  intros (P1 & P2) (S1 & S2 & S3). split; [|apply bn_step_why]. unfold bn_step. pose proof (bn_search_ok ok del q legal O lo hi rs bulk rst dir cbk S1 S2 (fun k R => HM _ _ (S3 k R))) as K.
  assert (CV : forall y, W y -> far lo hi = None \/ passed (far lo hi) y -> known del O lo hi y -> Kn O y).
  { intros y Wy F Z. destruct (passed_dec (near lo hi) y) as [p|p]; [left; auto|]. right. apply Z. apply rng_dir; auto. }
  assert (NF : bn_search del q bulk rst dir cbk rs = None -> forall y, W y -> within_kb (E:=E) q y -> far lo hi = None \/ passed (far lo hi) y -> Kn O y).
  { intros Q y Wy KB F. rewrite Q in K. apply CV; auto. }
  destruct (bn_search del q bulk rst dir cbk rs) as [[out cur rf|x pv j| |b']|] eqn:Q; cbn [known_after].
  - destruct K as (K & R). eapply rows_good_impl; [|exact K]. intros y Wy N Z. apply CV; auto. eapply passed_na; eauto.
  - destruct K as (-> & K & R). cbn [known_after]. eapply stop_good_impl; [|exact K]. intros y Wy N Z. apply CV; auto. eapply passed_na; [apply (cb_na ok); exact N|exact R].
  - contradiction.
  - contradiction.
  - change (match d with SLeft => hi | SRight => lo end) with (far lo hi). specialize (NF eq_refl). destruct (far lo hi) as [p|] eqn:F; [|split; [discriminate|exact NF]].
    destruct (P2 p eq_refl) as (Wp & _).
    destruct (cb_pivot cbk p) eqn:CP; cbn [known_after]; [split; [intros p' [= <-]; auto|exact NF]| | |]; (split; [exact Wp|intros y Wy KB Z; apply NF; auto]).
Qed.

(** The child that is chosen. *)
Lemma choose_ok pv lo hi : psorted (c:=c) pv -> pre b lo hi ->
  exists i, search_which_child c pv d (q_fun q) (q_key q) b = Some i /\ i <= length pv /\
    pre b (rng_lo pv lo i) (rng_hi pv hi i) /\
    match saved q pv i with None => far (rng_lo pv lo i) (rng_hi pv hi i) = far lo hi | Some p => far (rng_lo pv lo i) (rng_hi pv hi i) = Some p end.
Proof.
  intros PS (P1 & P2). pose proof legal as LG. unfold saved, pre, near, far, passed, ahead in *. destruct d eqn:D.
  - destruct (C22_forward_search_child c ok pv (q_fun q) (q_key q) b PS LG) as (i & Q & LE & BE & OWN). exists i. split; [exact Q|]. split; [exact LE|]. split; [split|].
    + intros y Wy. destruct i as [|j]; [apply P1; exact Wy|]. cbn [rng_lo]. destruct (nth_error pv j) as [p|] eqn:N; [|contradiction]. intros Py.
      destruct (C22_point_child_is_the_unique_interval c ok pv y PS) as (i' & _ & IC & _).
      assert (LT : i' < Datatypes.S j).
      { destruct (Nat.lt_ge_cases i' (Datatypes.S j)) as [|GE]; [assumption|exfalso]. destruct IC as (I1 & I2 & _).
        destruct (nth_error pv (i' - 1)) as [p'|] eqn:N'; [|apply nth_error_None in N'; lia]. specialize (I2 p' ltac:(lia) eq_refl).
        pose proof (psorted_nth_le ok pv j (i' - 1) p p' PS ltac:(lia) N N'). kord ok. }
      pose proof (BE i' y LT IC Wy) as F. destruct b as [b0|]; cbn [todo_left] in F; [|exfalso; apply F; exact Logic.I]. apply (kle_not ok). exact F.
    + intros p. unfold rng_hi. destruct (nth_error pv i) as [p'|] eqn:N; [|apply P2]. intros [= <-]. destruct (OWN p' eq_refl) as (_ & O1 & O2). split; [exact O1|]. destruct b; [exact O2|exact Logic.I].
    + unfold rng_hi. destruct (nth_error pv i); reflexivity.
  - destruct (C22_backward_search_child c ok pv (q_fun q) (q_key q) b PS LG) as (i & Q & LE & BE & OWN). exists i. split; [exact Q|]. split; [exact LE|]. split; [split|].
    + intros y Wy. unfold rng_hi. destruct (nth_error pv i) as [p|] eqn:N; [|apply P1; exact Wy]. intros Py.
      destruct (C22_point_child_is_the_unique_interval c ok pv y PS) as (i' & _ & IC & _).
      assert (LT : i < i').
      { destruct (Nat.lt_ge_cases i i') as [|GE]; [assumption|exfalso]. destruct IC as (I1 & _ & I3).
        destruct (nth_error pv i') as [p'|] eqn:N'; [|apply nth_error_None in N'; assert (i < length pv) by (apply nth_error_Some; congruence); lia]. specialize (I3 p' eq_refl).
        pose proof (psorted_nth_le ok pv i' i p' p PS ltac:(lia) N' N). kord ok. }
      pose proof (BE i' y LT IC Wy) as F. destruct b as [b0|]; cbn [todo_right] in F; [|exfalso; apply F; exact Logic.I]. apply (klt_not ok). exact F.
    + intros p. destruct i as [|j]; cbn [rng_lo]; [apply P2|]. intros N. destruct (OWN p ltac:(lia)) as (O1 & O2); [replace (Datatypes.S j - 1) with j by lia; exact N|]. split; [exact O1|]. destruct b; [exact O2|exact Logic.I].
    + destruct i as [|j]; cbn [rng_lo]; [reflexivity|]. destruct (nth_error pv j) eqn:N; [reflexivity|]. apply nth_error_None in N. lia.
Qed.

Lemma after_ok pv i lo hi lo0 hi0 r : pre b lo hi -> blt c lo hi -> sub c lo hi lo0 hi0 -> match saved q pv i with None => far lo hi = far lo0 hi0 | Some p => far lo hi = Some p end ->
  post O (far lo hi) r -> post O (far lo0 hi0) (after q pv i r).
Proof.
  intros (_ & P2) BL SU SV (K & KW). split; [|apply after_why; exact KW]. destruct r as [out cur rf|x j| |b']; cbn [after]; try exact K.
  destruct (saved q pv i) as [p|]; [|rewrite SV in K; exact K]. rewrite SV in K, P2. destruct (P2 p eq_refl) as (Wp & Ap). cbn [known_after] in K. destruct K as (CP & K). specialize (CP p eq_refl).
  assert (AG : (forall y, passed (Some p) y -> within_kb (E:=E) q y) -> ~ past p -> known_after O (far lo0 hi0) (RAgain p)).
  { intros KB NP. cbn [known_after]. split; [split; [exact Wp|tauto]|]. split; [exact Ap|]. intros y Wy Py. apply K; auto. }
  unfold within_kb, passed, past, far in *. destruct d eqn:D; [|apply AG; auto]. destruct (q_kbound q) as [kb|] eqn:KQ; [|apply AG; auto].
  destruct (kltb c p kb) eqn:LT.
  - apply AG; [|discriminate]. intros y Py. kord ok.
  - cbn [known_after]. split.
    + intros p' ->. right. unfold past. rewrite D, KQ. subst hi.
      assert (IP : in_rng c lo (Some p) p) by (split; [destruct lo; [exact BL|exact Logic.I]|apply (kle_refl ok)]). apply SU in IP. destruct IP as (_ & IP). cbn in IP.
      destruct (kltb c p' kb) eqn:L2; [|reflexivity]. exfalso. kord ok.
    + intros y Wy KB _. unfold within_kb in KB. rewrite D, KQ in KB. apply K; auto. right. kord ok.
Qed.

Lemma leaf_search_ok top lo hi (g : G) an (l : leaf) : hist_ok H top -> anc_ok H top lo hi an -> leaf_ok H top lo hi (pend_of an) (pend_of an) l ->
  (forall e, In e (pend_of an) -> fits g (e_msn e)) -> pre b lo hi ->
  exists l' an' r, leaf_search del g q b bulk rst dir cbk lo hi an l = Ok (l', an', r) /\ marks lo hi an an' /\ leaf_ok H top lo hi (pend_of an') (pend_of an') l' /\ post O (far lo hi) r.
Proof.
  intros HO AO LO FT P. unfold leaf_search. pose proof LO as (_ & _ & SA & _).
  destruct (seg_all_psorted ok _ _ _ _ SA) as (SS & _). destruct (choose_ok _ lo hi SS P) as (i & W & LE & Pi & SV). rewrite W. cbn [must].
  destruct (leaf_pin_ok ok H top lo hi g i (bn_step del q bulk rst dir cbk) an l HO AO LO FT LE) as (l' & an' & rs & Q & M & LO' & BL & SU & SEE). cbv zeta in *. rewrite Q.
  exists l', an', (after q (seg_pivots (l_parts l)) i (bn_step del q bulk rst dir cbk (rng_lo (seg_pivots (l_parts l)) lo i) (rng_hi (seg_pivots (l_parts l)) hi i) rs)).
  split; [reflexivity|]. split; [exact M|]. split; [exact LO'|]. eapply after_ok; [exact Pi|exact BL|exact SU|exact SV|]. apply bn_step_ok; auto.
Qed.

Definition tried (top : N) (h : nat) (lo hi : bound) (an : ancs) (t : tree) (x : tree * ancs * sres E) : Prop :=
  let '(u, an', r) := x in
  marks lo hi an an' /\ wf H top h lo hi (pend_of an') u /\ (forall B, mx_lt B t -> mx_lt B u) /\ post O (far lo hi) r.

Lemma search_ok top (g : G) : hist_ok H top -> forall h lo hi an t, anc_ok H top lo hi an -> wf H top h lo hi (pend_of an) t ->
  (forall pend u, node_at (search_path h q b t) (pend_of an) t = Some (pend, u) -> forall e, In e pend -> fits g (e_msn e)) -> pre b lo hi ->
  outc (search del h g q b bulk rst dir cbk lo hi an t) (tried top h lo hi an t).
Proof.
  intros HO. induction h as [|h IH]; intros lo hi an [l|mx lk ch] AO W FT P; try contradiction.
  - cbn [search]. cbn [wf] in W. destruct (leaf_search_ok top lo hi g an l HO AO W (FT _ _ eq_refl) P) as (l' & an' & r & -> & Q1 & Q2 & Q3). cbn. auto.
  - cbn [search]. pose proof W as (T & IP & M & _ & SA). destruct (free lk) eqn:FR; [|exact Logic.I]. apply (seg_all_with_In ok) in SA.
    destruct (seg_all_psorted ok _ _ _ _ SA) as (SS & _). destruct (choose_ok _ lo hi SS P) as (i & WC & LE & Pi & SV). rewrite WC. cbn [must].
    destruct (seg_at ok _ _ _ _ i SA LE) as (x & Nx & ((BO & Wx) & Ix) & B1 & S1 & AC). cbv zeta in *.
    set (lo1 := rng_lo (seg_pivots ch) lo i) in *. set (hi1 := rng_hi (seg_pivots ch) hi i) in *.
    match goal with |- context [seg_upd lo hi i ?f ch] => specialize (AC _ f) end. cbn beta in AC.
    destruct (node_child H top h lo hi (pend_of an) mx lk ch lo1 hi1 x W Ix S1) as (NC & _).
    assert (AO1 : anc_ok H top lo1 hi1 ((mx, fst x) :: an)).
    { destruct BO as (BO1 & BO2). cbn [anc_ok]. split; [exact BO1|]. split; [intros e Ie; apply BO2; auto|]. split; [intros e Ie; apply BO2; auto|].
      split; [exact T|]. split; [intros e Ie R; apply NC; auto|]. eapply anc_sub; eauto. }
    assert (FT1 : forall pend u, node_at (search_path h q b (snd x)) (pend_of ((mx, fst x) :: an)) (snd x) = Some (pend, u) -> forall e, In e pend -> fits g (e_msn e)).
    { intros pend u Q. apply (FT pend u). cbn [search_path]. rewrite WC, Nx. cbn [node_at]. rewrite Nx. exact Q. }
    specialize (IH lo1 hi1 ((mx, fst x) :: an) (snd x) AO1 Wx FT1 Pi).
    destruct (search del h g q b bulk rst dir cbk lo1 hi1 ((mx, fst x) :: an) (snd x)) as [[[u an1] r]| |]; cbn [outc tried] in IH; [|cbn in AC; rewrite AC; exact Logic.I|contradiction].
    destruct IH as (MK & Wu & MX & OUT). inversion MK as [|? [mx' buf'] ? an' (Q & F) MK' E1 E2]; subst an1. cbn [fst snd] in Q, F. subst mx'.
    destruct AC as (ch' & U & IN & K). rewrite U. cbn [outc tried].
    split; [eapply marks_sub; eauto|].
    assert (IP' : in_hist H (pend_of an')) by (eapply mks_hist; [apply (mks_of _ _ _ _ MK')|exact IP]).
    assert (MX' : forall B, mx_lt B (TNode mx lk ch) -> mx_lt B (TNode mx lk ch')).
    { intros B0. rewrite !mx_lt_node. intros (Z1 & Z2). split; [exact Z1|]. intros y Iy. destruct (IN y Iy) as [Iy'|[<-|[]]]; auto. }
    split; [|split; [exact MX'|]].
    2:{ eapply after_ok; [exact Pi|exact B1|exact S1|exact SV|exact OUT]. }
    cbn [wf]. split; [exact T|]. split; [exact IP'|]. split.
    { intros e' Ie' R. destruct (mks_In _ _ _ _ (mks_of _ _ _ _ MK') e' Ie') as (e & Ie & Q1 & Q2 & _). rewrite Q1. apply MX'. apply M; auto. rewrite <- Q2. auto. }
    split; [intros ->; discriminate|]. apply K.
    + intros lo2 hi2 y ((By & Wy) & Iy) Sy D. split; [exact By|]. eapply (wf_pend ok); [exact HO|exact Wy| |].
      * apply peq_app. eapply mks_peq; [exact D|]. apply mks_of; auto.
      * intros e Ie. apply in_app_or in Ie. destruct Ie as [Ie|Ie]; [apply By; auto|auto].
    + cbn [seg_all fst snd]. split; [exact B1|]. split; [|exact Wu]. destruct BO as (BO1 & BO2). split; [rewrite (mks_msn _ _ _ _ F); exact BO1|].
      intros e' Ie'. destruct (mks_In _ _ _ _ F e' Ie') as (e & Ie & -> & -> & _). auto.
Qed.

End H.

Lemma attempt_law h s (g : G) (O : bytes -> option L -> Prop) : LInv h s -> in_time_at g (search_path (height (s_tree s)) q b (s_tree s)) s ->
  (forall k r, made (numbered MIN_MSN h) k r -> O k r) ->
  outc (attempt del g q b bulk rst dir cbk s) (fun x => LInv h (fst x) /\ post O None (snd x)).
Proof.
  intros IV LW HM. pose proof (linv_hist _ _ IV) as HO. destruct IV as (T & hh & W). unfold attempt. unfold in_time_at in LW. rewrite (wf_height _ _ _ _ _ _ _ W) in *.
  assert (P : pre b None None). { split; unfold near, far, passed; destruct d; try tauto; discriminate. }
  pose proof (search_ok _ O HM (s_top s) g HO hh None None [] (s_tree s) Logic.I W LW P) as K.
  destruct (search del hh g q b bulk rst dir cbk None None [] (s_tree s)) as [[[t an] r]| |]; cbn [outc tried fst snd] in *; auto. destruct K as (MK & K & _ & Q). inversion MK; subst an.
  split; [split; [exact T|exists hh; exact K]|]. unfold far in Q. destruct d; exact Q.
Qed.
End Attempt.
End T.

(** With any information. *)
Section A.
Context {E : env} (ok : cmp_ok (kcmp E)).
#[local] Existing Instance any_time.
Lemma attempt_ok del q (legal : sf_dir (q_dir q) (q_fun q) = true) bulk rst dir cbk b h s (g : G E) : Inv h s ->
  outc (attempt del g q b bulk rst dir cbk s) (fun x => Inv h (fst x) /\ post del q bulk rst dir cbk b (after_msgs h) None (snd x)).
Proof.
  intros (H & hh & EH & HO & W). unfold attempt. rewrite (wf_height _ _ _ _ _ _ _ W).
  assert (P : pre (E:=E) q b None None). { split; unfold near, far, passed; destruct (q_dir q); try tauto; discriminate. }
  assert (HM : forall k r, made H k r -> after_msgs h k r) by (intros k r M; unfold after_msgs; rewrite <- EH; apply made_outcome; exact M).
  pose proof (search_ok ok del q legal bulk rst dir cbk b H (after_msgs h) HM (s_top s) g HO hh None None [] (s_tree s) Logic.I W ltac:(intros; apply any_fits) P) as K.
  destruct (search del hh g q b bulk rst dir cbk None None [] (s_tree s)) as [[[t an] r]| |]; cbn [outc tried fst snd] in *; auto. destruct K as (MK & K & _ & Q). inversion MK; subst an.
  split; [exists H, hh; auto|]. unfold far in Q. destruct (q_dir q); exact Q.
Qed.
End A.
