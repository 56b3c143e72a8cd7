(** Searches in the dictionary: what they find out. *)
From Verif Require Import Base Bytes LtSpec KOrd PivotModel UleModel MgrModel MgrProofs MvccModel MvccSpec MvccSys MvccRead PropsMvcc.
From Verif Require Import FtModel FtSpec FtSeg FtRows FtInv FtQuery FtOps FtSys OrkModel OrkProofs DbModel DbSpec DbSpecProofs DbProj DbInv DbReplay.
From Verif Require Import CurModel CurSpec CurProofs CurTree PropsCur DbCurModel.
From Coq Require Import Sorted.
Open Scope nat_scope.

(** ** A search leaves the bounds in the nodes in order *)
Section O.
Context {E : env} {X : Type} (n0 : X -> N).
Lemma search_okt del g q b bulk rst dir cbk h : forall lo hi an (t t' : tree E) an' r, search (E:=E) del h g q b bulk rst dir cbk lo hi an t = Ok (t', an', r) ->
  amsns an' = amsns an /\ forall top pm o, okt n0 top pm o t -> okt n0 top pm o t'.
Proof.
  induction h as [|h IH]; intros lo hi an [l|mx lk ch] t' an' r; cbn [search]; try discriminate.
  1,2: unfold leaf_search; destruct (search_which_child (kcmp E) (seg_pivots (l_parts l)) (q_dir q) (q_fun q) (q_key q) b) as [i|]; cbn [must]; [|discriminate];
    destruct (leaf_pin g i (bn_step del q bulk rst dir cbk) lo hi an l) as [[[l' an1] r1]| |] eqn:P; try discriminate; intros Q; injection Q as <- <- _;
    split; [eapply leaf_pin_msns; exact P|intros top pm o; apply okt_like_leaf].
  destruct (free lk); [|discriminate]. destruct (search_which_child (kcmp E) (seg_pivots ch) (q_dir q) (q_fun q) (q_key q) b) as [i|]; cbn [must]; [|discriminate].
  match goal with |- context [seg_upd lo hi i ?f ?s] => destruct (seg_upd lo hi i f s) as [[ch' [an1 r1]]| |] eqn:U; try discriminate end.
  intros Q. injection Q as <- <- _. destruct (seg_upd_list _ _ _ _ _ _ _ U) as (l1 & x & l2 & lo' & hi' & sa & E1 & E2 & E3 & E4).
  destruct (search del h g q b bulk rst dir cbk lo' hi' ((mx, fst x) :: an) (snd x)) as [[[tx an2] rx]| |] eqn:QX; try discriminate.
  destruct (IH _ _ _ _ _ _ _ QX) as (I1 & I2). destruct an2 as [|[mx2 buf2] an3]; [discriminate|]. injection E3 as <- <- _.
  unfold amsns in *. cbn [map snd] in I1. injection I1 as I1 I3. split; [exact I3|].
  intros top pm [v os]. rewrite !okt_node. intros (H & K). split; [exact H|]. rewrite E1 in K. rewrite E4.
  destruct (F2_mid _ _ _ _ _ K) as (o1 & ox & o2 & -> & EL & K1 & Kx & K2). apply Forall2_app; [exact K1|]. cbn [seg_list app].
  constructor; [|exact K2]. unfold kid in *. cbn [fst snd]. rewrite I1. apply I2. exact Kx.
Qed.
End O.

Section P.
Context {c : bytes -> bytes -> comparison} (ok : cmp_ok c) (last : txnid).
Local Notation db := (db c).
Local Notation E := (EV c).
Implicit Types (k y : bytes) (d : db).

(** [r] may be what is stored for [y] in the dictionary [d]. *)
Definition stored_at d (y : bytes) (r : option stored) : Prop := exists gs, course (TM:=TM (c:=c) (d_looks d)) y (numbered MIN_MSN (map fst (d_sent d))) r gs.

Lemma dtry_ok d z del q b bulk rst dir cbk : dinv (c:=c) last d -> tree_inv (c:=c) d -> ids_left (d_ms d) -> sf_dir (q_dir q) (q_fun q) = true ->
  outc (dtry c d z del q b bulk rst dir cbk)
    (fun x => dinv (c:=c) last (fst x) /\ tree_inv (fst x) /\ post (E:=E) del q bulk rst dir cbk b (stored_at (fst x)) None (snd x) /\ exists t, fst x = looked d t (d_ork d)).
Proof.
  intros I T LI LG. unfold dtry. pose proof (info_nofail (c:=c) d z (search_path (height (s_tree (d_tree d))) q b (s_tree (d_tree d)))) as NF.
  destruct (info c d z _) as [g| |] eqn:Q; [|exact Logic.I|congruence]. pose proof T as [T1 T2 T3 T4 T5]. set (l := now (length (d_sent d)) (d_ms d)).
  assert (LS : forall LK, incl (d_looks d ++ [l]) LK -> outc (attempt (E:=E) del g q b bulk rst dir cbk (d_tree d)) (fun x => LInv (TM:=TM LK) (map fst (d_sent d)) (fst x)
    /\ post (E:=E) del q bulk rst dir cbk b (fun y r => made (TM:=TM LK) (numbered MIN_MSN (map fst (d_sent d))) y r) None (snd x))).
  { intros LK IN. apply attempt_law; auto.
    - apply T1. intros u Iu. apply IN, in_or_app. auto.
    - eapply info_time; eauto. }
  destruct (attempt (E:=E) del g q b bulk rst dir cbk (d_tree d)) as [[t r]| |] eqn:AT; cbn [outc fst snd] in *; [|exact Logic.I|apply (LS _ (incl_refl _))].
  split; [apply (looked_inv last d); auto|]. split; [|split; [apply (LS _ (incl_refl _))|exists t; reflexivity]].
  eapply (tree_inv_looks d t (d_ork d)); [exact T| | | |reflexivity].
  - intros LK IN. apply (LS LK IN).
  - unfold attempt in AT. destruct (search _ _ _ _ _ _ _ _ _ _ _ _ _) as [[[t' an] r']| |] eqn:S1; try discriminate AT. injection AT as <- _. cbn [s_top s_tree].
    eapply search_okt; eauto.
  - eapply oall_weak with (P := fun v => In v (d_looks d)); [intros u Iu; apply in_or_app; auto|exact T3].
Qed.

(** ** Runs *)
Definition dgood d : Prop := dinv (c:=c) last d /\ tree_inv d.
Lemma qstep_ok may d d' : dgood d -> qstep c may d d' -> dgood d'.
Proof.
  intros (I & T) [o r _ LG LI ST|z del q b bulk rst dir cbk r LG LI ST].
  - pose proof (dstep_ok ok last d o I T LG LI) as K. rewrite ST in K. cbn [outc fst] in K. split; tauto.
  - pose proof (dtry_ok d z del q b bulk rst dir cbk I T LI LG) as K. rewrite ST in K. cbn [outc fst] in K. split; tauto.
Qed.
Lemma qsteps_ok may d d' : qsteps c may d d' -> dgood d -> dgood d'.
Proof. induction 1 as [|d d1 d' S _ IH]; intros G; [exact G|]. apply IH. eapply qstep_ok; eauto. Qed.
Lemma qreach_ok d : qreach c last d -> dgood d.
Proof. intros (L & S). eapply qsteps_ok; [exact S|]. apply dinit_ok. exact L. Qed.
Lemma qsteps_trans may d d1 d2 : qsteps c may d d1 -> qsteps c may d1 d2 -> qsteps c may d d2.
Proof. induction 1; [auto|]. intros. econstructor; eauto. Qed.
Lemma qsteps_any may d d' : qsteps c may d d' -> qsteps c anything d d'.
Proof.
  induction 1 as [|d d1 d' S _ IH]; [constructor|]. econstructor; [|exact IH]. destruct S as [o r _ LG LI ST|z del q b bulk rst dir cbk r LG LI ST]; [eapply q_op|eapply q_try]; eauto.
  exact Logic.I.
Qed.
Lemma dreach_qreach d : dreach c last d -> qreach c last d.
Proof.
  induction 1 as [L|d o d' r D (L & IH) LG LI ST]; [split; [exact L|constructor]|]. split; [exact L|]. eapply qsteps_trans; [exact IH|]. econstructor; [|constructor]. eapply q_op; eauto. exact Logic.I.
Qed.

Section S.
Variables (may : dop -> Prop) (del : stored -> bool) (q : srch).
Hypothesis legal : sf_dir (q_dir q) (q_fun q) = true.
Local Notation W := (wants (E:=E) (q_fun q) (q_key q)).

(** [y] was not visible in one of the dictionaries [ds]. *)
Definition dunseen (ds : list db) (y : bytes) : Prop := exists d1, In d1 ds /\ unseen_in (E:=E) del (stored_at d1) y.

Definition dfound (rst : restr) (dir : option sdir) (bulk : bool) (cbs : db -> cb E -> Prop) (K : bytes -> Prop) (d' : db) (o : sout E) : Prop :=
  match o with
  | ERows out cur rf => rows_good (E:=E) del q rst bulk (stored_at d') K out cur rf /\ exists cbk d0, cbs d0 cbk /\ (forall x v, In (x, v) out -> took cbk x v) /\ (rf = true -> exists x v, cb_row cbk [] x v = AMore)
  | ENotFound => forall y, W y -> within_kb (E:=E) q y -> K y
  | ERejected x false => stop_good (E:=E) del q (stored_at d') K x /\ (in_restr (E:=E) rst dir x = false \/ exists cbk d0 v, cbs d0 cbk /\ cb_row cbk [] x v = AReject)
  | ERejected x true => W x /\ (forall y, W y -> within_kb (E:=E) q y -> passed (E:=E) q (Some x) y -> K y) /\ exists cbk d0, cbs d0 cbk /\ cb_pivot cbk x = AReject
  | EErr => True
  end.
Lemma dfound_impl rst dir bulk cbs (K K' : bytes -> Prop) d' o : (forall y, W y -> K y -> K' y) -> dfound rst dir bulk cbs K d' o -> dfound rst dir bulk cbs K' d' o.
Proof.
  intros I. destruct o as [out cur rf| |x []|]; cbn [dfound]; auto.
  - intros (F & T). split; [|exact T]. eapply rows_good_impl; [|exact F]. auto.
  - intros (F1 & F2 & F3). auto.
  - intros (F & T). split; [|exact T]. eapply stop_good_impl; [|exact F]. auto.
Qed.

Lemma dsearch_steps rst dir bulk cbs b d ds o d' : dsearch c may del q bulk rst dir cbs b d ds o d' -> qsteps c may d d' /\ In d' ds /\ forall d1, In d1 ds -> qsteps c may d d1 /\ qsteps c may d1 d'.
Proof.
  induction 1 as [b d d1 ds o d2 S R (IH & I & A)|b d z cbk d1 b' ds o d2 CB LI AT R (IH & I & A)|b d z cbk d1 r o CB LI AT FI].
  - split; [eapply qsteps_trans; eauto|]. split; [exact I|]. intros d3 I3. destruct (A d3 I3). split; [eapply qsteps_trans; eauto|auto].
  - assert (S1 : qsteps c may d d1) by (econstructor; [eapply q_try; eauto|constructor]).
    split; [eapply qsteps_trans; eauto|]. split; [right; exact I|]. intros d3 [<-|I3]; [auto|]. destruct (A d3 I3). split; [eapply qsteps_trans; eauto|auto].
  - assert (S1 : qsteps c may d d1) by (econstructor; [eapply q_try; eauto|constructor]). split; [exact S1|]. split; [left; reflexivity|]. intros d3 [<-|[]]. split; [exact S1|constructor].
Qed.

Lemma dsearch_ok rst dir bulk cbs b d ds o d' : dsearch c may del q bulk rst dir cbs b d ds o d' -> dgood d ->
  dfound rst dir bulk cbs (fun y => passed (E:=E) q b y \/ dunseen ds y) d' o.
Proof.
  induction 1 as [b d d1 ds o d2 S R IH|b d z cbk d1 b' ds o d2 CB LI AT R IH|b d z cbk d1 r o CB LI AT FI]; intros G.
  - apply IH. eapply qsteps_ok; eauto.
  - destruct G as (I & T). pose proof (dtry_ok d z del q b bulk rst dir cbk I T LI legal) as K. rewrite AT in K. cbn [outc fst snd] in K. destruct K as (I1 & T1 & (((Wb & CPb) & Ab & KN) & _) & _).
    eapply dfound_impl; [|apply IH; split; assumption].
    intros y Wy [P|(h1 & I3 & U)]; [destruct (KN y Wy P) as [Z|Z]; [auto|right; exists d1; split; [left; reflexivity|exact Z]]|]. right. exists h1. split; [right; exact I3|exact U].
  - destruct G as (I & T). pose proof (dtry_ok d z del q b bulk rst dir cbk I T LI legal) as K. rewrite AT in K. cbn [outc fst snd] in K. destruct K as (I1 & T1 & (KN & WH) & _).
    assert (UN : forall y, Kn (E:=E) del q b (stored_at d1) y -> passed (E:=E) q b y \/ dunseen [d1] y). { intros y [Z|Z]; [auto|]. right. exists d1. split; [left; reflexivity|exact Z]. }
    destruct r as [out cur rf|x pv j| |b']; cbn [finish] in FI; try discriminate; injection FI as <-; cbn [known_after why] in *.
    + cbn [dfound]. split; [eapply rows_good_impl; [|exact KN]; auto|]. exists cbk, d. destruct WH. auto.
    + destruct pv.
      * destruct KN as (Wx & KN). destruct j; cbn [dfound]; [|exact Logic.I]. split; [exact Wx|]. split; [intros; apply UN; auto|]. eauto.
      * destruct j; cbn [dfound]; [|exact Logic.I]. split; [eapply stop_good_impl; [|exact KN]; auto|]. destruct WH as [WH|(v & WH)]; [auto|]. right. eauto.
    + destruct KN as (_ & KN). destruct (cb_end cbk); cbn [dfound]; auto.
Qed.
End S.

(** ** Cursor operations and scans *)
Section C.
Variables (may : dop -> Prop) (del : stored -> bool) (P : db -> cb E -> Prop).
Local Notation klt := (klt c).

Lemma dcursor_steps key rst o d ds r d' : dcursor c may del P key rst o d ds r d' -> qsteps c may d d' /\ In d' ds /\ forall d1, In d1 ds -> qsteps c may d d1 /\ qsteps c may d1 d'.
Proof. intros (q & bulk & dir & Q & R). destruct (op_search (E:=E) ok _ _ _ _ _ Q) as (LG & _). eapply dsearch_steps; eauto. Qed.

Lemma dcursor_rows key rst o d ds out cur rf d' : dgood d -> dcursor c may del P key rst o d ds (ERows out cur rf) d' ->
  out <> [] /\ StronglySorted (comes_before (E:=E) (op_dir o)) (map fst out) /\
  (forall x v, In (x, v) out -> op_wants (E:=E) key o x /\ sees_in (E:=E) del (stored_at d') x v /\ not_after (E:=E) (op_dir o) x cur) /\
  (forall y, op_wants (E:=E) key o y -> not_after (E:=E) (op_dir o) y cur -> has_key (E:=E) out y \/ keq c y cur \/ dunseen del ds y) /\
  (rf = false -> in_range (E:=E) rst cur -> exists o v, out = o ++ [(cur, v)]).
Proof.
  intros X (q & bulk & dir & Q & R). destruct (op_search (E:=E) ok _ _ _ _ _ Q) as (LG & QD & WT & _ & _).
  destruct (dsearch_ok may del q LG _ _ _ _ _ _ _ _ _ R X) as (F & cbk & d0 & (c0 & PR & PH & ->) & TK & _).
  destruct F as (F1 & F2 & F3 & F4 & F5 & F6). rewrite <- QD.
  split; [exact F1|]. split; [exact F2|]. split; [|split].
  - intros x v I. destruct (F3 x v I) as (Wx & S & N). split; [|auto]. eapply (op_took (E:=E)); eauto.
  - intros y OW N. destruct (F4 y (WT y OW) N) as [[Z|Z]|[Z|Z]]; auto. destruct Z.
  - intros -> IR. destruct F5 as [(v & ->)|(_ & [F5|[F5|F5]])]; [exists [], v; reflexivity|exact F5|discriminate|]. exfalso. eapply (in_restr_out (E:=E)); eauto.
Qed.

Lemma dcursor_nothing key o d ds r d' : dgood d -> dcursor c may del P key None o d ds r d' -> r = ENotFound \/ (exists x p, r = ERejected x p) ->
  forall y, op_wants (E:=E) key o y -> op_upto (E:=E) o y -> dunseen del ds y.
Proof.
  intros X (q & bulk & dir & Q & R) RR y OW UP. destruct (op_search (E:=E) ok _ _ _ _ _ Q) as (LG & QD & WT & KB & _).
  pose proof (dsearch_ok may del q LG _ _ _ _ _ _ _ _ _ R X) as F.
  specialize (WT y OW). specialize (KB y UP).
  destruct RR as [->|(x & p & ->)]; cbn [dfound] in F; [destruct (F y WT KB) as [[]|Z]; exact Z|]. destruct p.
  - destruct F as (Wx & F & cbk & d0 & (c0 & PR & PH & ->) & CB). destruct (op_reject (E:=E) key o q bulk dir c0 x Q PR (or_intror CB)) as (k & OK & -> & -> & NK).
    assert (KE : keq c y k) by (destruct OK as [->|(-> & ->)]; exact OW). destruct (F y WT KB) as [[]|Z]; [|exact Z]. cbn in Wx |- *. assert (klt k x) by (destruct (cb_total (E:=E) ok SLeft k x) as [Z|[Z|Z]]; [exact Z|contradiction|exfalso; cbn in Z; kord ok]). kord ok.
  - destruct F as (F & [IR|(cbk & d0 & v & (c0 & PR & PH & ->) & CB)]); [discriminate|]. destruct (op_reject (E:=E) key o q bulk dir c0 x Q PR (or_introl (ex_intro _ v CB))) as (k & OK & -> & -> & NK).
    assert (KE : keq c y k) by (destruct OK as [->|(-> & ->)]; exact OW). destruct F as (Wx & F & _). destruct (F y WT) as [[]|Z]; [|exact Z]. cbn in Wx |- *. assert (klt k x) by (destruct (cb_total (E:=E) ok SLeft k x) as [Z|[Z|Z]]; [exact Z|contradiction|exfalso; cbn in Z; kord ok]). kord ok.
Qed.

Lemma dcursor_nothing_in_range k rst o d ds r d' : dgood d -> o = CNext \/ o = CPrev -> dcursor c may del P (Some k) rst o d ds r d' -> r = ENotFound \/ (exists x p, r = ERejected x p) ->
  forall y, op_wants (E:=E) (Some k) o y -> in_range (E:=E) rst y -> dunseen del ds y.
Proof.
  intros X OO (q & bulk & dir & Q & R) RR y OW IR. destruct (op_search (E:=E) ok _ _ _ _ _ Q) as (LG & QD & WT & KB & _).
  pose proof (dsearch_ok may del q LG _ _ _ _ _ _ _ _ _ R X) as F.
  specialize (WT y OW). assert (KBy : within_kb (E:=E) q y) by (apply KB; destruct OO as [-> | ->]; exact Logic.I).
  assert (NR : forall c0 x, proper (E:=E) c0 -> (exists v, cb_row (cop_cb (Some k) o c0) [] x v = AReject) \/ cb_pivot (cop_cb (Some k) o c0) x = AReject -> False).
  { intros c0 x PR Z. destruct (op_reject (E:=E) (Some k) o q bulk dir c0 x Q PR Z) as (k0 & [OK|(OK & _)] & _); destruct OO; subst; discriminate. }
  assert (DI : dir = Some (q_dir q)) by (destruct OO as [-> | ->]; cbn in Q; injection Q as <- <- <-; reflexivity).
  destruct RR as [->|(x & p & ->)]; cbn [dfound] in F; [destruct (F y WT KBy) as [[]|Z]; exact Z|]. destruct p.
  - destruct F as (Wx & F & cbk & d0 & (c0 & PR & PH & ->) & CB). exfalso. eapply NR; eauto.
  - destruct F as ((Wx & F & _) & [OUT|(cbk & d0 & v & (c0 & PR & PH & ->) & CB)]); [|exfalso; eapply NR; eauto].
    rewrite DI in OUT. destruct (F y WT) as [[]|Z]; [|exact Z]. eapply (in_restr_far (E:=E)); eauto.
Qed.

Lemma dunseen_l ds1 ds2 y : dunseen del ds1 y -> dunseen del (ds1 ++ ds2) y.
Proof. intros (h & I & U). exists h. split; [apply in_or_app; auto|exact U]. Qed.
Lemma dunseen_r ds1 ds2 y : dunseen del ds2 y -> dunseen del (ds1 ++ ds2) y.
Proof. intros (h & I & U). exists h. split; [apply in_or_app; auto|exact U]. Qed.

Lemma dscan_steps rst o key d ds rs d' : dscan c may del P rst o key d ds rs d' -> qsteps c may d d' /\ forall d1, In d1 ds -> qsteps c may d d1 /\ qsteps c may d1 d'.
Proof.
  induction 1 as [key d d1 ds rs d2 S SC (IH & A)|key d ds1 d1 ds rs d2 OP SC (IH & A)|key d ds1 out cur d1 ds rs d2 OP SC (IH & A)|key d ds r d1 OP RR].
  - split; [eapply qsteps_trans; eauto|]. intros d3 I3. destruct (A d3 I3). split; [eapply qsteps_trans; eauto|auto].
  - destruct (dcursor_steps _ _ _ _ _ _ _ OP) as (S1 & _ & A1). split; [eapply qsteps_trans; eauto|]. intros d3 I3. apply in_app_or in I3. destruct I3 as [I3|I3].
    + destruct (A1 d3 I3). split; [auto|eapply qsteps_trans; eauto].
    + destruct (A d3 I3). split; [eapply qsteps_trans; eauto|auto].
  - destruct (dcursor_steps _ _ _ _ _ _ _ OP) as (S1 & _ & A1). split; [eapply qsteps_trans; eauto|]. intros d3 I3. apply in_app_or in I3. destruct I3 as [I3|I3].
    + destruct (A1 d3 I3). split; [auto|eapply qsteps_trans; eauto].
    + destruct (A d3 I3). split; [eapply qsteps_trans; eauto|auto].
  - destruct (dcursor_steps _ _ _ _ _ _ _ OP) as (S1 & _ & A1). auto.
Qed.

Lemma dscan_ok rst o key d ds rs d' : dgood d -> o = CNext \/ o = CPrev -> rst = None \/ key <> None -> dscan c may del P rst o key d ds rs d' ->
  StronglySorted (comes_before (E:=E) (op_dir o)) (map fst rs) /\
  (forall x v, In (x, v) rs -> op_wants (E:=E) key o x /\ exists d1, In d1 ds /\ sees_in (E:=E) del (stored_at d1) x v) /\
  (forall y, op_wants (E:=E) key o y -> in_range (E:=E) rst y -> has_key (E:=E) rs y \/ dunseen del ds y).
Proof.
  intros X OO RK SC. revert X RK. induction SC as [key d d1 ds rs d2 XS SC IH|key d ds1 d1 ds rs d2 OP SC IH|key d ds1 out cur d1 ds rs d2 OP SC IH|key d ds r d1 OP RR]; intros X RK.
  - apply IH; [|exact RK]. eapply qsteps_ok; eauto.
  - destruct (dcursor_steps _ _ _ _ _ _ _ OP) as (X1 & _). pose proof (qsteps_ok _ _ _ X1 X) as G1. destruct (IH G1 RK) as (S & PR & C). split; [exact S|]. split.
    + intros x v I. destruct (PR x v I) as (P1 & h3 & P2 & P3). split; [exact P1|]. exists h3. split; [apply in_or_app; auto|exact P3].
    + intros y Wy R. destruct (C y Wy R); [auto|right; apply dunseen_r; auto].
  - destruct (dcursor_steps _ _ _ _ _ _ _ OP) as (X1 & I1 & _). pose proof (qsteps_ok _ _ _ X1 X) as G1. destruct (IH G1) as (S & PR & C); [right; discriminate|].
    destruct (dcursor_rows _ _ _ _ _ _ _ _ _ X OP) as (NE & S0 & P0 & C0 & EN).
    assert (WB : forall x, op_wants (E:=E) (Some cur) o x <-> comes_before (E:=E) (op_dir o) cur x) by (intros x; destruct OO as [-> | ->]; reflexivity).
    assert (WC : forall x, op_wants (E:=E) (Some cur) o x -> op_wants (E:=E) key o x).
    { intros x Bx. destruct out as [|[x0 v0] out]; [congruence|]. destruct (P0 x0 v0 (or_introl eq_refl)) as (W0 & _ & N0). apply WB in Bx. destruct OO as [-> | ->]; destruct key as [k|]; cbn in *; auto; kord ok. }
    split; [|split].
    + rewrite map_app. apply SS_app. split; [exact S0|]. split; [exact S|]. intros x y Ix Iy. apply in_map_iff in Ix, Iy. destruct Ix as ([x' v] & <- & Ix), Iy as ([y' w] & <- & Iy). cbn.
      destruct (P0 _ _ Ix) as (_ & _ & N). destruct (PR _ _ Iy) as (Wy & _). apply WB in Wy. clear - N Wy ok. destruct (op_dir o); cbn in *; kord ok.
    + intros x v I. apply in_app_or in I. destruct I as [I|I].
      * destruct (P0 x v I) as (P1 & P2 & _). split; [exact P1|]. exists d1. split; [apply in_or_app; auto|exact P2].
      * destruct (PR x v I) as (P1 & h3 & P2 & P3). split; [auto|]. exists h3. split; [apply in_or_app; auto|exact P3].
    + intros y Wy R. assert (HK : has_key (E:=E) out y -> has_key (E:=E) (out ++ rs) y) by (intros (z & w & Iz & K); exists z, w; split; [apply in_or_app; auto|exact K]).
      assert (NA : not_after (E:=E) (op_dir o) y cur -> has_key (E:=E) (out ++ rs) y \/ dunseen del (ds1 ++ ds) y).
      { intros N. destruct (C0 y Wy N) as [Z|[Z|Z]]; [auto| |right; apply dunseen_l; exact Z]. left. apply HK.
        destruct (EN eq_refl) as (o0 & w & ->); [eapply (in_range_keq (E:=E)); eauto|]. exists cur, w. split; [apply in_or_app; right; left; reflexivity|apply (keq_sym ok); exact Z]. }
      destruct (cb_total (E:=E) ok (op_dir o) y cur) as [Z|[Z|Z]].
      * apply NA. apply (cb_na (E:=E) ok). exact Z.
      * apply NA. clear - Z ok. cbn [kcmp EV] in Z. destruct (op_dir o); cbn; kord ok.
      * destruct (C y) as [HKr|U]; [apply WB; exact Z|exact R| |right; apply dunseen_r; exact U].
        left. destruct HKr as (z & w & Iz & K). exists z, w. split; [apply in_or_app; auto|exact K].
  - split; [constructor|]. split; [intros ? ? []|]. intros y Wy R. right. destruct key as [k|].
    + eapply dcursor_nothing_in_range; eauto.
    + destruct RK as [->|RK]; [|congruence]. eapply dcursor_nothing; eauto. destruct OO as [-> | ->]; exact Logic.I.
Qed.
End C.
End P.
