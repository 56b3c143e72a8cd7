(** C44: cursors and lookups through the tree; C45: a row that a bulk fetch
    could not deliver. *)
From Verif Require Import Base Bytes LtSpec KOrd KeyCmp PivotModel PivotProofs FtModel FtSpec FtSeg FtRows FtInv FtPut FtOps FtOps3 FtQuery FtSys PropsFt CurModel CurSpec CurProofs CurTree CurRun.
From Coq Require Import Sorted.
Open Scope nat_scope.
#[local] Existing Instance any_time.

Section Main.
Context {E : env} (ok : cmp_ok (kcmp E)).
Local Notation c := (kcmp E).
Local Notation L := (L E).
Local Notation msg := (gmsg (A E)).

Lemma op_search key o q bulk dir : cop_search key o = Some (q, bulk, dir) ->
  sf_dir (q_dir q) (q_fun q) = true /\ q_dir q = op_dir o /\
  (forall y, op_wants (E:=E) key o y -> wants (E:=E) (q_fun q) (q_key q) y) /\
  (forall y, op_upto (E:=E) o y -> within_kb (E:=E) q y) /\
  (dir = None \/ dir = Some (op_dir o) /\ (o = CNext \/ o = CPrev) /\ exists k, key = Some k).
Proof.
  unfold cop_search. destruct o, key; intros Q; try discriminate; injection Q as <- <- <-; cbn; (split; [reflexivity|]; split; [reflexivity|]; split; [|split]); auto;
    try (right; split; [reflexivity|]; split; [auto|eauto]); try (intros y Z; kord ok).
Qed.
(** The rows that pass the wrapped callback are the ones the operation is about. *)
Lemma op_took key o q bulk dir c0 x v : cop_search key o = Some (q, bulk, dir) -> proper (E:=E) c0 -> took (cop_cb key o c0) x v -> wants (E:=E) (q_fun q) (q_key q) x -> op_wants (E:=E) key o x.
Proof.
  intros Q (P1 & P2 & P3 & P4) (hd & T) W.
  assert (OK : forall k, cb_row (only_key k c0) hd x v = AOk \/ cb_row (only_key k c0) hd x v = AMore -> keq c x k).
  { intros k. cbn. destruct (keqb c k x) eqn:K; [intros _; kord ok|]. destruct (cb_end c0); intros [Z|Z]; congruence. }
  unfold cop_search in Q. destruct o, key; try discriminate; injection Q as <- <- <-; cbn in *; auto.
Qed.
Lemma op_reject key o q bulk dir c0 x : cop_search key o = Some (q, bulk, dir) -> proper (E:=E) c0 -> (exists v, cb_row (cop_cb key o c0) [] x v = AReject) \/ cb_pivot (cop_cb key o c0) x = AReject ->
  (exists k, (o = CSet k \/ o = CCurrent /\ key = Some k) /\ q = Srch SLeft CmpSet k None /\ dir = None /\ ~ keq c k x).
Proof.
  intros Q (P1 & P2 & P3 & P4) R.
  assert (NO : ~ ((exists v, cb_row c0 [] x v = AReject) \/ cb_pivot c0 x = AReject)) by (intros [(v & Z)|Z]; [eapply P1|eapply P2]; exact Z).
  assert (NK : forall k, (exists v, cb_row (only_key k c0) [] x v = AReject) \/ cb_pivot (only_key k c0) x = AReject -> ~ keq c k x).
  { intros k Z KE. apply NO. cbn in Z. apply keqb_true in KE. rewrite KE in Z. exact Z. }
  unfold cop_search in Q. destruct o, key; try discriminate; injection Q as <- <- <-; cbn [cop_cb] in R; try (exfalso; apply NO; exact R);
    (eexists; split; [auto|split; [reflexivity|split; [reflexivity|apply NK; exact R]]]).
Qed.

Lemma in_restr_out rst dir x : in_restr (E:=E) rst dir x = false -> ~ in_range (E:=E) rst x.
Proof.
  destruct rst as [[[l r] j]|]; [|discriminate]. cbn. intros Q (R1 & R2). apply negb_false_iff in Q. apply orb_true_iff in Q. destruct Q as [Q|Q].
  - destruct l as [l|]; [|discriminate]. assert (kltb c x l = true) by (destruct dir as [[]|]; congruence). kord ok.
  - destruct r as [r|]; [|discriminate]. assert (kltb c r x = true) by (destruct dir as [[]|]; congruence). kord ok.
Qed.
(** Out of the range, and in the direction of the search: everything in the
    range comes before. *)
Lemma in_restr_far rst d x y : in_restr (E:=E) rst (Some d) x = false -> in_range (E:=E) rst y -> comes_before (E:=E) d y x.
Proof.
  destruct rst as [[[l r] j]|]; [|discriminate]. cbn. intros Q (R1 & R2). apply negb_false_iff in Q. apply orb_true_iff in Q. destruct Q as [Q|Q].
  - destruct l as [l|]; [|discriminate]. destruct d; [discriminate|]. cbn. kord ok.
  - destruct r as [r|]; [|discriminate]. destruct d; [|discriminate]. cbn. kord ok.
Qed.

Lemma in_range_keq rst x y : keq c x y -> in_range (E:=E) rst x -> in_range (E:=E) rst y.
Proof. intros K. destruct rst as [[[[l|] [r|]] j]|]; cbn; intros; repeat split; try exact Logic.I; intuition; kord ok. Qed.
Lemma outcome_keq x y h (r : option L) : keq c x y -> outcome x h r -> outcome y h r.
Proof.
  intros K. assert (CC : forall m : msg, concerns x m <-> concerns y m).
  { intros m. unfold concerns. split; intros Z KM; specialize (Z KM); kord ok. }
  induction 1; [constructor|apply out_skip; [auto|rewrite <- CC; auto]|apply out_msg; [auto|apply CC; auto]|apply out_gc; auto].
Qed.

(** C44.  A cursor operation that answers rows: they are in order, they are rows
    the operation is about, the reader sees each one (when the search ends), and
    up to the row the cursor then rests on nothing has been left out: a key not
    returned was not visible at one of the moments [hs] when the search looked,
    all of them during the operation.  Anything may happen in between:
    injections, flushes, splits, merges, other searches. *)
Theorem C44_rows (del : L -> bool) (P : list msg -> cb E -> Prop) (key : option bytes) (rst : restr) (o : cop) (h : list msg) (s : state E) (hs : list (list msg)) (out : list (bytes * L)) (cur : bytes) (rf : bool) (h' : list msg) (s' : state E) :
  xreach h s -> cursor_op del P key rst o h s hs (ERows out cur rf) h' s' ->
  out <> [] /\ StronglySorted (comes_before (E:=E) (op_dir o)) (map fst out) /\
  (forall x v, In (x, v) out -> op_wants (E:=E) key o x /\ sees del h' x v /\ not_after (E:=E) (op_dir o) x cur) /\
  (forall y, op_wants (E:=E) key o y -> not_after (E:=E) (op_dir o) y cur -> has_key out y \/ keq c y cur \/ unseen_at del hs y) /\
  (rf = false -> in_range (E:=E) rst cur -> exists o v, out = o ++ [(cur, v)]).
Proof.
  intros X (q & bulk & dir & Q & R). destruct (op_search _ _ _ _ _ Q) as (LG & QD & WT & _ & _).
  destruct (search_run_ok ok del q LG _ _ _ _ _ _ _ _ _ _ _ R (xreach_ok ok _ _ X)) as (_ & _ & _ & F & cbk & (c0 & PR & PH & ->) & TK & _).
  destruct F as (F1 & F2 & F3 & F4 & F5 & F6). rewrite <- QD.
  split; [exact F1|]. split; [exact F2|]. split; [|split].
  - intros x v I. destruct (F3 x v I) as (Wx & S & N). split; [|auto]. eapply op_took; eauto.
  - intros y OW N. destruct (F4 y (WT y OW) N) as [[Z|Z]|[Z|Z]]; auto. destruct Z.
  - intros -> IR. destruct F5 as [(v & ->)|(_ & [F5|[F5|F5]])]; [exists [], v; reflexivity|exact F5|discriminate|]. exfalso. eapply in_restr_out; eauto.
Qed.

(** The moments at which a search looks are moments during the operation. *)
Theorem C44_moments (del : L -> bool) (P : list msg -> cb E -> Prop) (key : option bytes) (rst : restr) (o : cop) (h : list msg) (s : state E) (hs : list (list msg)) (r : sout E) (h' : list msg) (s' : state E) :
  xreach h s -> cursor_op del P key rst o h s hs r h' s' -> forall h1, In h1 hs -> exists l1 l2, h1 = h ++ l1 /\ h' = h1 ++ l2.
Proof.
  intros X (q & bulk & dir & Q & R). destruct (op_search _ _ _ _ _ Q) as (LG & _).
  destruct (search_run_ok ok del q LG _ _ _ _ _ _ _ _ _ _ _ R (xreach_ok ok _ _ X)) as (_ & _ & HH & _). exact HH.
Qed.

(** A cursor operation that finds nothing: no row it is about was visible. *)
Theorem C44_nothing (del : L -> bool) (P : list msg -> cb E -> Prop) (key : option bytes) (o : cop) (h : list msg) (s : state E) (hs : list (list msg)) (r : sout E) (h' : list msg) (s' : state E) :
  xreach h s -> cursor_op del P key None o h s hs r h' s' -> r = ENotFound \/ (exists x p, r = ERejected x p) ->
  forall y, op_wants (E:=E) key o y -> op_upto (E:=E) o y -> unseen_at del hs y.
Proof.
  intros X (q & bulk & dir & Q & R) RR y OW UP. destruct (op_search _ _ _ _ _ Q) as (LG & QD & WT & KB & _).
  destruct (search_run_ok ok del q LG _ _ _ _ _ _ _ _ _ _ _ R (xreach_ok ok _ _ X)) as (_ & _ & _ & F).
  specialize (WT y OW). specialize (KB y UP).
  destruct RR as [->|(x & p & ->)]; cbn [found] in F; [destruct (F y WT KB) as [[]|Z]; exact Z|]. destruct p.
  - destruct F as (Wx & F & cbk & (c0 & PR & PH & ->) & CB). destruct (op_reject key o q bulk dir c0 x Q PR (or_intror CB)) as (k & OK & -> & -> & NK).
    assert (KE : keq c y k) by (destruct OK as [->|(-> & ->)]; exact OW). destruct (F y WT KB) as [[]|Z]; [|exact Z]. cbn in Wx |- *. assert (klt c k x) by (destruct (cb_total ok SLeft k x) as [Z|[Z|Z]]; [exact Z|contradiction|exfalso; cbn in Z; kord ok]). kord ok.
  - destruct F as (F & [IR|(cbk & v & (c0 & PR & PH & ->) & CB)]); [discriminate|]. destruct (op_reject key o q bulk dir c0 x Q PR (or_introl (ex_intro _ v CB))) as (k & OK & -> & -> & NK).
    assert (KE : keq c y k) by (destruct OK as [->|(-> & ->)]; exact OW). destruct F as (Wx & F & _). destruct (F y WT) as [[]|Z]; [|exact Z]. cbn in Wx |- *. assert (klt c k x) by (destruct (cb_total ok SLeft k x) as [Z|[Z|Z]]; [exact Z|contradiction|exfalso; cbn in Z; kord ok]). kord ok.
Qed.

(** The same for next and prev of a cursor that is restricted to a range: no row
    of the range was visible. *)
Theorem C44_nothing_in_range (del : L -> bool) (P : list msg -> cb E -> Prop) (k : bytes) (rst : restr) (o : cop) (h : list msg) (s : state E) (hs : list (list msg)) (r : sout E) (h' : list msg) (s' : state E) :
  xreach h s -> o = CNext \/ o = CPrev -> cursor_op del P (Some k) rst o h s hs r h' s' -> r = ENotFound \/ (exists x p, r = ERejected x p) ->
  forall y, op_wants (E:=E) (Some k) o y -> in_range (E:=E) rst y -> unseen_at del hs y.
Proof.
  intros X OO (q & bulk & dir & Q & R) RR y OW IR. destruct (op_search _ _ _ _ _ Q) as (LG & QD & WT & KB & _).
  destruct (search_run_ok ok del q LG _ _ _ _ _ _ _ _ _ _ _ R (xreach_ok ok _ _ X)) as (_ & _ & _ & F).
  specialize (WT y OW). assert (KBy : within_kb (E:=E) q y) by (apply KB; destruct OO as [-> | ->]; exact Logic.I).
  assert (NR : forall c0 x, proper (E:=E) c0 -> (exists v, cb_row (cop_cb (Some k) o c0) [] x v = AReject) \/ cb_pivot (cop_cb (Some k) o c0) x = AReject -> False).
  { intros c0 x PR Z. destruct (op_reject (Some k) o q bulk dir c0 x Q PR Z) as (k0 & [OK|(OK & _)] & _); destruct OO; subst; discriminate. }
  assert (DI : dir = Some (q_dir q)) by (destruct OO as [-> | ->]; cbn in Q; injection Q as <- <- <-; reflexivity).
  destruct RR as [->|(x & p & ->)]; cbn [found] in F; [destruct (F y WT KBy) as [[]|Z]; exact Z|]. destruct p.
  - destruct F as (Wx & F & cbk & (c0 & PR & PH & ->) & CB). exfalso. eapply NR; eauto.
  - destruct F as ((Wx & F & _) & [OUT|(cbk & v & (c0 & PR & PH & ->) & CB)]); [|exfalso; eapply NR; eauto].
    rewrite DI in OUT. destruct (F y WT) as [[]|Z]; [|exact Z]. eapply in_restr_far; eauto.
Qed.

(** No assertion of the modelled code fails in a search. *)
Theorem C44_no_assertion_fails (del : L -> bool) (g : G E) (q : srch) (b : bound) (bulk : bool) (rst : restr) (dir : option sdir) (cbk : cb E) (h : list msg) (s : state E) :
  xreach h s -> sf_dir (q_dir q) (q_fun q) = true -> attempt del g q b bulk rst dir cbk s <> Fail.
Proof. intros X LG Q. pose proof (attempt_ok ok del q LG bulk rst dir cbk b h s g (xreach_ok ok _ _ X)) as K. rewrite Q in K. exact K. Qed.

(** A search that tries again has made progress: the new bound is a key it
    looks for and lies strictly beyond the old one. *)
Theorem C44_progress (del : L -> bool) (g : G E) (q : srch) (b b' : bytes) (bulk : bool) (rst : restr) (dir : option sdir) (cbk : cb E) (h : list msg) (s s' : state E) :
  xreach h s -> sf_dir (q_dir q) (q_fun q) = true -> attempt del g q (Some b) bulk rst dir cbk s = Ok (s', RAgain b') ->
  wants (E:=E) (q_fun q) (q_key q) b' /\ comes_before (E:=E) (q_dir q) b b'.
Proof. intros X LG Q. pose proof (attempt_ok ok del q LG bulk rst dir cbk (Some b) h s g (xreach_ok ok _ _ X)) as K. rewrite Q in K. destruct K as (_ & ((K1 & _) & K2 & _) & _). split; [exact K1|exact K2]. Qed.

(** ** A scan: next after next, or prev after prev, until there is nothing more.
    An operation that fails (a lock not granted, say) is repeated. *)
Inductive scan (del : L -> bool) (P : list msg -> cb E -> Prop) (rst : restr) (o : cop) : option bytes -> list msg -> state E -> list (list msg) -> list (bytes * L) -> list msg -> state E -> Prop :=
| sc_other key h s h1 s1 hs rs h2 s2 : xsteps h s h1 s1 -> scan del P rst o key h1 s1 hs rs h2 s2 -> scan del P rst o key h s hs rs h2 s2
| sc_err key h s hs1 h1 s1 hs rs h2 s2 : cursor_op del P key rst o h s hs1 EErr h1 s1 -> scan del P rst o key h1 s1 hs rs h2 s2 -> scan del P rst o key h s (hs1 ++ hs) rs h2 s2
| sc_rows key h s hs1 out cur h1 s1 hs rs h2 s2 :
    cursor_op del P key rst o h s hs1 (ERows out cur false) h1 s1 -> scan del P rst o (Some cur) h1 s1 hs rs h2 s2 -> scan del P rst o key h s (hs1 ++ hs) (out ++ rs) h2 s2
| sc_end key h s hs r h1 s1 : cursor_op del P key rst o h s hs r h1 s1 -> r = ENotFound \/ (exists x p, r = ERejected x p) -> scan del P rst o key h s hs [] h1 s1.

Lemma cursor_op_xreach del P key rst o h s hs r h' s' : xreach (E:=E) h s -> cursor_op del P key rst o h s hs r h' s' -> xreach h' s' /\ In h' hs.
Proof.
  intros X (q & bulk & dir & Q & R). destruct (op_search _ _ _ _ _ Q) as (LG & _). destruct (search_run_xsteps del q LG _ _ _ _ _ _ _ _ _ _ _ R) as (Z & I). split; [|exact I]. eapply xsteps_trans; eauto.
Qed.
Lemma unseen_at_l del hs1 hs2 y : unseen_at (E:=E) del hs1 y -> unseen_at del (hs1 ++ hs2) y.
Proof. intros (h & I & U). exists h. split; [apply in_or_app; auto|exact U]. Qed.
Lemma unseen_at_r del hs1 hs2 y : unseen_at (E:=E) del hs2 y -> unseen_at del (hs1 ++ hs2) y.
Proof. intros (h & I & U). exists h. split; [apply in_or_app; auto|exact U]. Qed.

(** C44, scans.  The rows come out in order and each key at most once; each row
    was visible at one of the moments when the scan looked; a key of the range
    that did not come out was invisible at one of those moments. *)
Theorem C44_scan (del : L -> bool) (P : list msg -> cb E -> Prop) (rst : restr) (o : cop) (key : option bytes) (h : list msg) (s : state E) (hs : list (list msg)) (rs : list (bytes * L)) (h' : list msg) (s' : state E) :
  xreach h s -> o = CNext \/ o = CPrev -> rst = None \/ key <> None -> scan del P rst o key h s hs rs h' s' ->
  StronglySorted (comes_before (E:=E) (op_dir o)) (map fst rs) /\
  (forall x v, In (x, v) rs -> op_wants (E:=E) key o x /\ exists h1, In h1 hs /\ sees del h1 x v) /\
  (forall y, op_wants (E:=E) key o y -> in_range (E:=E) rst y -> has_key rs y \/ unseen_at del hs y).
Proof.
  intros X OO RK SC. revert X RK. induction SC as [key h s h1 s1 hs rs h2 s2 XS SC IH|key h s hs1 h1 s1 hs rs h2 s2 OP SC IH|key h s hs1 out cur h1 s1 hs rs h2 s2 OP SC IH|key h s hs r h1 s1 OP RR]; intros X RK.
  - apply IH; [|exact RK]. eapply xsteps_trans; eauto.
  - destruct (cursor_op_xreach _ _ _ _ _ _ _ _ _ _ _ X OP) as (X1 & _). destruct (IH X1 RK) as (S & PR & C). split; [exact S|]. split.
    + intros x v I. destruct (PR x v I) as (P1 & h3 & P2 & P3). split; [exact P1|]. exists h3. split; [apply in_or_app; auto|exact P3].
    + intros y Wy R. destruct (C y Wy R); [auto|right; apply unseen_at_r; auto].
  - destruct (cursor_op_xreach _ _ _ _ _ _ _ _ _ _ _ X OP) as (X1 & I1). destruct (IH X1) as (S & PR & C); [right; discriminate|].
    destruct (C44_rows _ _ _ _ _ _ _ _ _ _ _ _ _ X OP) as (NE & S0 & P0 & C0 & EN).
    assert (WB : forall x, op_wants (E:=E) (Some cur) o x <-> comes_before (E:=E) (op_dir o) cur x) by (intros x; destruct OO as [-> | ->]; reflexivity).
    (* the cursor rests on a row the operation is about *)
    assert (WC : forall x, op_wants (E:=E) (Some cur) o x -> op_wants (E:=E) key o x).
    { intros x Bx. destruct out as [|[x0 v0] out]; [congruence|]. destruct (P0 x0 v0 (or_introl eq_refl)) as (W0 & _ & N0). apply WB in Bx. destruct OO as [-> | ->]; destruct key as [k|]; cbn in *; auto; kord ok. }
    split; [|split].
    + rewrite map_app. apply SS_app. split; [exact S0|]. split; [exact S|]. intros x y Ix Iy. apply in_map_iff in Ix, Iy. destruct Ix as ([x' v] & <- & Ix), Iy as ([y' w] & <- & Iy). cbn.
      destruct (P0 _ _ Ix) as (_ & _ & N). destruct (PR _ _ Iy) as (Wy & _). apply WB in Wy. clear - N Wy ok. destruct (op_dir o); cbn in *; kord ok.
    + intros x v I. apply in_app_or in I. destruct I as [I|I].
      * destruct (P0 x v I) as (P1 & P2 & _). split; [exact P1|]. exists h1. split; [apply in_or_app; auto|exact P2].
      * destruct (PR x v I) as (P1 & h3 & P2 & P3). split; [auto|]. exists h3. split; [apply in_or_app; auto|exact P3].
    + intros y Wy R. assert (HK : has_key out y -> has_key (out ++ rs) y) by (intros (z & w & Iz & K); exists z, w; split; [apply in_or_app; auto|exact K]).
      assert (NA : not_after (E:=E) (op_dir o) y cur -> has_key (out ++ rs) y \/ unseen_at del (hs1 ++ hs) y).
      { intros N. destruct (C0 y Wy N) as [Z|[Z|Z]]; [auto| |right; apply unseen_at_l; exact Z]. left. apply HK.
        destruct (EN eq_refl) as (o0 & w & ->); [eapply in_range_keq; eauto|]. exists cur, w. split; [apply in_or_app; right; left; reflexivity|apply (keq_sym ok); exact Z]. }
      destruct (cb_total ok (op_dir o) y cur) as [Z|[Z|Z]].
      * apply NA. apply (cb_na ok). exact Z.
      * apply NA. clear - Z ok. destruct (op_dir o); cbn; kord ok.
      * destruct (C y) as [HKr|U]; [apply WB; exact Z|exact R| |right; apply unseen_at_r; exact U].
        left. destruct HKr as (z & w & Iz & K). exists z, w. split; [apply in_or_app; auto|exact K].
  - split; [constructor|]. split; [intros ? ? []|]. intros y Wy R. right. destruct key as [k|].
    + eapply C44_nothing_in_range; eauto.
    + destruct RK as [->|RK]; [|congruence]. eapply C44_nothing; eauto. destruct OO as [-> | ->]; exact Logic.I.
Qed.

(** The rows that come out of a scan are exactly what a reader sees for whom
    nothing changes while the scan runs: every look at a key, at any of the
    moments, gives what [view] says.  A snapshot transaction is such a reader
    even while others write (C01), a transaction that holds the locks is another
    (C05). *)
Theorem C44_scan_view {V} (val : L -> V) (view : bytes -> option V) (del : L -> bool) (P : list msg -> cb E -> Prop) (rst : restr) (o : cop) (key : option bytes) (h : list msg) (s : state E) (hs : list (list msg)) (rs : list (bytes * L)) (h' : list msg) (s' : state E) :
  xreach h s -> o = CNext \/ o = CPrev -> rst = None \/ key <> None -> scan del P rst o key h s hs rs h' s' ->
  (forall h1 y r, In h1 hs -> outcome y h1 r -> view y = match r with Some v => if del v then None else Some (val v) | None => None end) ->
  StronglySorted (comes_before (E:=E) (op_dir o)) (map fst rs) /\
  forall y u, op_wants (E:=E) key o y -> in_range (E:=E) rst y -> (view y = Some u <-> exists x v, In (x, v) rs /\ keq c x y /\ val v = u).
Proof.
  intros X OO RK SC VW. destruct (C44_scan _ _ _ _ _ _ _ _ _ _ _ X OO RK SC) as (S & PR & C). split; [exact S|]. intros y u Wy R.
  assert (SV : forall x v, In (x, v) rs -> keq c x y -> view y = Some (val v)).
  { intros x v I K. destruct (PR x v I) as (_ & h1 & I1 & O & D). rewrite (VW h1 y (Some v) I1); [rewrite D; reflexivity|]. eapply outcome_keq; eauto. }
  split.
  - intros Q. destruct (C y Wy R) as [(x & v & I & K)|(h1 & I1 & r & O & D)].
    + exists x, v. split; [exact I|]. split; [exact K|]. rewrite (SV x v I K) in Q. congruence.
    + exfalso. rewrite (VW h1 y r I1 O) in Q. destruct r as [v|]; [rewrite D in Q|]; discriminate.
  - intros (x & v & I & K & <-). eauto.
Qed.


(** The moments at which a scan looks are moments during the scan. *)
Lemma scan_ext (del : L -> bool) P rst o key h s hs rs h' s' : xreach h s -> scan del P rst o key h s hs rs h' s' -> exists l, h' = h ++ l.
Proof.
  intros X SC. induction SC as [key h s h1 s1 hs rs h2 s2 XS SC IH|key h s hs1 h1 s1 hs rs h2 s2 OP SC IH|key h s hs1 out cur h1 s1 hs rs h2 s2 OP SC IH|key h s hs r h1 s1 OP RR].
  - destruct (xsteps_ok ok _ _ _ _ XS (xreach_ok ok _ _ X)) as (_ & l & ->). destruct IH as (l2 & ->); [eapply xsteps_trans; eauto|]. exists (l ++ l2). symmetry. apply app_assoc.
  - destruct (cursor_op_xreach _ _ _ _ _ _ _ _ _ _ _ X OP) as (X1 & I1). destruct (C44_moments _ _ _ _ _ _ _ _ _ _ _ X OP h1 I1) as (l1 & l2 & -> & _). destruct (IH X1) as (l3 & ->). exists (l1 ++ l3). symmetry. apply app_assoc.
  - destruct (cursor_op_xreach _ _ _ _ _ _ _ _ _ _ _ X OP) as (X1 & I1). destruct (C44_moments _ _ _ _ _ _ _ _ _ _ _ X OP h1 I1) as (l1 & l2 & -> & _). destruct (IH X1) as (l3 & ->). exists (l1 ++ l3). symmetry. apply app_assoc.
  - destruct (cursor_op_xreach _ _ _ _ _ _ _ _ _ _ _ X OP) as (X1 & I1). destruct (C44_moments _ _ _ _ _ _ _ _ _ _ _ X OP h1 I1) as (l1 & l2 & -> & _). eauto.
Qed.
Theorem C44_scan_moments (del : L -> bool) (P : list msg -> cb E -> Prop) (rst : restr) (o : cop) (key : option bytes) (h : list msg) (s : state E) (hs : list (list msg)) (rs : list (bytes * L)) (h' : list msg) (s' : state E) :
  xreach h s -> scan del P rst o key h s hs rs h' s' -> forall h1, In h1 hs -> exists l1 l2, h1 = h ++ l1 /\ h' = h1 ++ l2.
Proof.
  intros X SC. induction SC as [key h s h1 s1 hs rs h2 s2 XS SC IH|key h s hs1 h1 s1 hs rs h2 s2 OP SC IH|key h s hs1 out cur h1 s1 hs rs h2 s2 OP SC IH|key h s hs r h1 s1 OP RR]; intros h3 I3.
  - destruct (xsteps_ok ok _ _ _ _ XS (xreach_ok ok _ _ X)) as (_ & l & ->). destruct (IH (xsteps_trans _ _ _ _ _ _ X XS) h3 I3) as (l1 & l2 & -> & ->). exists (l ++ l1), l2. rewrite app_assoc. auto.
  - destruct (cursor_op_xreach _ _ _ _ _ _ _ _ _ _ _ X OP) as (X1 & I1). pose proof (C44_moments _ _ _ _ _ _ _ _ _ _ _ X OP) as M. destruct (scan_ext _ _ _ _ _ _ _ _ _ _ _ X1 SC) as (l3 & ->).
    apply in_app_or in I3. destruct I3 as [I3|I3].
    + destruct (M h3 I3) as (l1 & l2 & -> & ->). exists l1, (l2 ++ l3). rewrite !app_assoc. auto.
    + destruct (M h1 I1) as (l1 & l2 & -> & _). destruct (IH X1 h3 I3) as (l4 & l5 & -> & Q). exists (l1 ++ l4), l5. rewrite !app_assoc in *. auto.
  - destruct (cursor_op_xreach _ _ _ _ _ _ _ _ _ _ _ X OP) as (X1 & I1). pose proof (C44_moments _ _ _ _ _ _ _ _ _ _ _ X OP) as M. destruct (scan_ext _ _ _ _ _ _ _ _ _ _ _ X1 SC) as (l3 & ->).
    apply in_app_or in I3. destruct I3 as [I3|I3].
    + destruct (M h3 I3) as (l1 & l2 & -> & ->). exists l1, (l2 ++ l3). rewrite !app_assoc. auto.
    + destruct (M h1 I1) as (l1 & l2 & -> & _). destruct (IH X1 h3 I3) as (l4 & l5 & -> & Q). exists (l1 ++ l4), l5. rewrite !app_assoc in *. auto.
  - eapply C44_moments; eauto.
Qed.

Lemma outcome_dict (g0 : G E) h k (v : option L) :
  (forall g1 m x, le_apply E g1 m x = le_apply E g0 m x) -> (forall g1 v, le_gc E g1 v = Some v) -> outcome k h v -> v = dict g0 k h None.
Proof.
  intros GA GG O.
  assert (DA : forall h1 m x, dict g0 k (h1 ++ [m]) x = dict g0 k [m] (dict g0 k h1 x)).
  { induction h1 as [|a h1 IH]; intros m x; [reflexivity|]. cbn [app dict]. rewrite IH. reflexivity. }
  induction O as [|h m r O IH NC|h m r g1 O IH C|h v g1 O IH].
  - reflexivity.
  - rewrite DA, <- IH. cbn [dict]. rewrite concerns_iff in NC. unfold once in NC.
    destruct (m_type m) eqn:T; try (exfalso; apply NC; left; reflexivity);
      (destruct (keqb (kcmp E) k (m_key m)) eqn:Q; [exfalso; apply NC; right; apply keqb_true; exact Q|reflexivity]).
  - rewrite DA, <- IH. cbn [dict].
    assert (EF : effect g1 m r = effect g0 m r). { unfold effect. destruct (m_type m), r; rewrite ?GA; reflexivity. }
    rewrite concerns_iff in C. unfold once in C. rewrite EF.
    destruct (m_type m) eqn:T; try reflexivity;
      (destruct C as [C|C]; [discriminate|]; apply keqb_true in C; rewrite C; reflexivity).
  - rewrite GG. exact IH.
Qed.

(** Without writes during the scan: exactly the dictionary's visible rows. *)
Theorem C44_scan_dictionary (g0 : G E) (del : L -> bool) (P : list msg -> cb E -> Prop) (rst : restr) (o : cop) (key : option bytes) (h : list msg) (s : state E) (hs : list (list msg)) (rs : list (bytes * L)) (s' : state E) :
  (forall g1 m x, le_apply E g1 m x = le_apply E g0 m x) -> (forall g1 v, le_gc E g1 v = Some v) ->
  xreach h s -> o = CNext \/ o = CPrev -> rst = None \/ key <> None -> scan del P rst o key h s hs rs h s' ->
  StronglySorted (comes_before (E:=E) (op_dir o)) (map fst rs) /\
  forall y v, op_wants (E:=E) key o y -> in_range (E:=E) rst y ->
    (dict g0 y h None = Some v /\ del v = false <-> exists x, In (x, v) rs /\ keq c x y).
Proof.
  intros GA GG X OO RK SC.
  destruct (C44_scan_view (fun v => v) (fun y => match dict g0 y h None with Some v => if del v then None else Some v | None => None end) _ _ _ _ _ _ _ _ _ _ _ X OO RK SC) as (S & PV).
  { intros h1 y r I O. assert (h1 = h) as ->. { destruct (C44_scan_moments _ _ _ _ _ _ _ _ _ _ _ X SC h1 I) as (l1 & l2 & -> & Q). rewrite <- app_assoc in Q. rewrite <- (app_nil_r h) in Q at 1. apply app_inv_head in Q. symmetry in Q. apply app_eq_nil in Q. destruct Q as (-> & _). apply app_nil_r. }
    rewrite (outcome_dict g0 h y r GA GG O). reflexivity. }
  split; [exact S|]. intros y v Wy R. specialize (PV y v Wy R). split.
  - intros (Q & D). apply proj1 in PV. rewrite Q, D in PV. destruct (PV eq_refl) as (x & w & I & K & <-). eauto.
  - intros (x & I & K). apply proj2 in PV. specialize (PV (ex_intro _ x (ex_intro _ v (conj I (conj K eq_refl))))). destruct (dict g0 y h None) as [w|]; [|discriminate]. destruct (del w) eqn:D; [discriminate|]. injection PV as ->. auto.
Qed.

(** A row is refused in the middle of a fetch only if the callback had asked for
    more: a cursor whose callback takes one row at a time has no C45 problem. *)
Theorem C45_one_row_at_a_time (del : L -> bool) (key : option bytes) (rst : restr) (q : srch) (bulk : bool) (dir : option sdir) (cbs : list msg -> cb E -> Prop) (h : list msg) (s : state E) (hs : list (list msg)) (out : list (bytes * L)) (cur : bytes) (rf : bool) (h' : list msg) (s' : state E) :
  xreach h s -> sf_dir (q_dir q) (q_fun q) = true -> (forall h1 cbk hd x v, cbs h1 cbk -> cb_row cbk hd x v <> AMore) ->
  search_run del q bulk rst dir cbs None h s hs (ERows out cur rf) h' s' -> rf = false.
Proof.
  intros X LG NM R. destruct (search_run_ok ok del q LG _ _ _ _ _ _ _ _ _ _ _ R (xreach_ok ok _ _ X)) as (_ & _ & _ & _ & cbk & CB & _ & RF).
  destruct rf; [|reflexivity]. destruct (RF eq_refl) as (x & v & Z). exfalso. eapply NM; eauto.
Qed.

(** ** C46: locks.  [P h cbk]: at the time when [h] had been injected the locks
    were such that [cbk] is what the callback answered. *)
Lemma covers_grants key o q bulk dir c0 y : cop_search key o = Some (q, bulk, dir) -> proper (E:=E) c0 -> covers q (cop_cb key o c0) y -> grants (E:=E) (op_dir o) c0 y.
Proof.
  intros Q (P1 & P2 & P3 & P4) C. destruct (op_search _ _ _ _ _ Q) as (_ & <- & _).
  assert (OK : forall k, covers q (only_key k c0) y -> grants (E:=E) (q_dir q) c0 y).
  { intros k [(u & v & (hd & T) & N)|[(p & T & N)|T]].
    - left. exists hd, u, v. split; [|exact N]. cbn in T. destruct (keqb c k u); [exact T|]. destruct (cb_end c0); destruct T; congruence.
    - cbn in T. destruct (keqb c k p); [right; left; eauto|]. destruct (cb_end c0); discriminate.
    - right. right. exact T. }
  assert (ID : covers q c0 y -> grants (E:=E) (q_dir q) c0 y).
  { intros [(u & v & (hd & T) & N)|[(p & T & N)|T]]; [left; eauto 7|right; left; eauto|right; right; exact T]. }
  destruct o, key; cbn [cop_cb] in C; eauto.
Qed.

(** The rows that come out are rows the callback agreed to when they were read,
    and so are the keys passed over before them: they were found invisible at a
    moment when the callback agreed to a range reaching over them. *)
Theorem C46_rows (del : L -> bool) (P : list msg -> cb E -> Prop) (key : option bytes) (rst : restr) (o : cop) (h : list msg) (s : state E) (hs : list (list msg)) (out : list (bytes * L)) (cur : bytes) (rf : bool) (h' : list msg) (s' : state E) :
  xreach h s -> cursor_op del P key rst o h s hs (ERows out cur rf) h' s' ->
  forall x v, In (x, v) out -> seen_granted del P h' x v /\
    forall y, op_wants (E:=E) key o y -> not_after (E:=E) (op_dir o) y x -> has_key out y \/ unseen_granted del P (op_dir o) hs y.
Proof.
  intros X OP x v I. destruct (C44_rows _ _ _ _ _ _ _ _ _ _ _ _ _ X OP) as (_ & _ & SE & _). destruct OP as (q & bulk & dir & Q & R). destruct (op_search _ _ _ _ _ Q) as (LG & QD & WT & _ & _).
  pose proof (search_run_locked ok del q LG _ _ _ _ _ _ _ _ _ _ _ R (xreach_ok ok _ _ X)) as F. cbn [lfound] in F. destruct (F x v I) as ((cbk & (c0 & PR & PH & ->) & TK) & F2). split.
  - split; [apply SE; exact I|]. destruct TK as (hd & TK). exists c0, hd. split; [exact PH|].
    destruct PR as (P1 & P2 & P3 & P4).
    assert (OK : forall k, cb_row (only_key k c0) hd x v = AOk \/ cb_row (only_key k c0) hd x v = AMore -> cb_row c0 hd x v = AOk \/ cb_row c0 hd x v = AMore).
    { intros k T. cbn in T. destruct (keqb c k x); [exact T|]. destruct (cb_end c0); destruct T; congruence. }
    destruct o, key; cbn [cop_cb] in TK; eauto.
  - intros y OW N. rewrite <- QD in N. destruct (F2 y (WT y OW) N) as [[[]|(h1 & cb1 & I1 & (c1 & PR1 & PH1 & ->) & U & C)]|Z]; [|auto]. right. exists h1, c1. split; [exact I1|]. split; [exact PH1|]. split; [exact U|]. eapply covers_grants; eauto.
Qed.

Theorem C46_nothing (del : L -> bool) (P : list msg -> cb E -> Prop) (key : option bytes) (o : cop) (h : list msg) (s : state E) (hs : list (list msg)) (r : sout E) (h' : list msg) (s' : state E) :
  xreach h s -> cursor_op del P key None o h s hs r h' s' -> r = ENotFound \/ (exists x p, r = ERejected x p) ->
  forall y, op_wants (E:=E) key o y -> op_upto (E:=E) o y -> unseen_granted del P (op_dir o) hs y.
Proof.
  intros X OP RR y OW UP. destruct (cursor_op_xreach _ _ _ _ _ _ _ _ _ _ _ X OP) as (_ & IH). destruct OP as (q & bulk & dir & Q & R). destruct (op_search _ _ _ _ _ Q) as (LG & QD & WT & KB & _).
  pose proof (search_run_locked ok del q LG _ _ _ _ _ _ _ _ _ _ _ R (xreach_ok ok _ _ X)) as F.
  specialize (WT y OW). specialize (KB y UP).
  assert (CV : forall cbs' : list msg -> cb E -> Prop, (forall h1 c1, cbs' h1 c1 -> exists c0, proper c0 /\ P h1 c0 /\ c1 = cop_cb key o c0) -> passed (E:=E) q None y \/ locked del q cbs' hs y -> unseen_granted del P (op_dir o) hs y).
  { intros cbs' CC [[]|(h1 & cb1 & I1 & CB & U & C)]. destruct (CC _ _ CB) as (c1 & PR1 & PH1 & ->). exists h1, c1. split; [exact I1|]. split; [exact PH1|]. split; [exact U|]. eapply covers_grants; eauto. }
  (* a rejection of the wrapper means that the callback agreed to the range of the key *)
  assert (RJ : forall c0 x, proper (E:=E) c0 -> P h' c0 -> (exists v, cb_row (cop_cb key o c0) [] x v = AReject) \/ cb_pivot (cop_cb key o c0) x = AReject -> unseen del h' y -> unseen_granted del P (op_dir o) hs y).
  { intros c0 x PR PH Z U. destruct (op_reject key o q bulk dir c0 x Q PR Z) as (k & OK & _ & _ & NK). exists h', c0. split; [exact IH|]. split; [exact PH|]. split; [exact U|]. right. right.
    assert (E1 : cop_cb key o c0 = only_key k c0) by (destruct OK as [->|(-> & ->)]; [destruct key|]; reflexivity). rewrite E1 in Z. cbn in Z.
    destruct (keqb c k x) eqn:KE; [exfalso; apply NK; apply keqb_true; exact KE|]. destruct PR as (_ & _ & _ & P4). destruct (cb_end c0); [reflexivity| | |]; destruct Z as [(v & Z)|Z]; congruence. }
  destruct RR as [->|(x & p & ->)]; cbn [lfound] in F; [eapply CV; [|apply F; auto]; auto|]. destruct p.
  - destruct F as (cbk & (c0 & PR & PH & ->) & CB & F). destruct (op_reject key o q bulk dir c0 x Q PR (or_intror CB)) as (k & OK & Eq & _ & NK).
    destruct (F y WT KB) as [Z|Z]; [|eapply CV; [|exact Z]; auto|eapply RJ; eauto].
    assert (KE : keq c y k) by (destruct OK as [->|(-> & ->)]; exact OW).
    pose proof (search_run_ok ok del q LG _ _ _ _ _ _ _ _ _ _ _ R (xreach_ok ok _ _ X)) as (_ & _ & _ & Wx & _). subst q. cbn in Wx |- *.
    assert (klt c k x) by (destruct (cb_total ok SLeft k x) as [Z|[Z|Z]]; [exact Z|contradiction|exfalso; cbn in Z; kord ok]). kord ok.
  - destruct F as [IR|(cbk & v & (c0 & PR & PH & ->) & CB & F)]; [discriminate|]. destruct (op_reject key o q bulk dir c0 x Q PR (or_introl (ex_intro _ v CB))) as (k & OK & Eq & _ & NK).
    destruct (F y WT) as [Z|Z]; [|eapply CV; [|exact Z]; auto|eapply RJ; eauto].
    assert (KE : keq c y k) by (destruct OK as [->|(-> & ->)]; exact OW).
    pose proof (search_run_ok ok del q LG _ _ _ _ _ _ _ _ _ _ _ R (xreach_ok ok _ _ X)) as (_ & _ & _ & (Wx & _) & _). subst q. cbn in Wx |- *.
    assert (klt c k x) by (destruct (cb_total ok SLeft k x) as [Z|[Z|Z]]; [exact Z|contradiction|exfalso; cbn in Z; kord ok]). kord ok.
Qed.

(** A whole scan: what it says about any key of the dictionary, present or
    absent, was so at a moment when the callback agreed to a range with that
    key. *)
Theorem C46_scan (del : L -> bool) (P : list msg -> cb E -> Prop) (o : cop) (key : option bytes) (h : list msg) (s : state E) (hs : list (list msg)) (rs : list (bytes * L)) (h' : list msg) (s' : state E) :
  xreach h s -> o = CNext \/ o = CPrev -> scan del P None o key h s hs rs h' s' ->
  (forall x v, In (x, v) rs -> exists h1, In h1 hs /\ seen_granted del P h1 x v) /\
  (forall y, op_wants (E:=E) key o y -> has_key rs y \/ unseen_granted del P (op_dir o) hs y).
Proof.
  intros X OO SC. remember None as rst eqn:ER in SC. revert ER X.
  assert (UL : forall hs1 hs2 y, unseen_granted del P (op_dir o) hs1 y -> unseen_granted del P (op_dir o) (hs1 ++ hs2) y) by (intros hs1 hs2 y (h1 & c1 & I1 & Z); exists h1, c1; split; [apply in_or_app; auto|exact Z]).
  assert (UR : forall hs1 hs2 y, unseen_granted del P (op_dir o) hs2 y -> unseen_granted del P (op_dir o) (hs1 ++ hs2) y) by (intros hs1 hs2 y (h1 & c1 & I1 & Z); exists h1, c1; split; [apply in_or_app; auto|exact Z]).
  induction SC as [key h s h1 s1 hs rs h2 s2 XS SC IH|key h s hs1 h1 s1 hs rs h2 s2 OP SC IH|key h s hs1 out cur h1 s1 hs rs h2 s2 OP SC IH|key h s hs r h1 s1 OP RR]; intros -> X.
  - apply IH; [reflexivity|]. eapply xsteps_trans; eauto.
  - destruct (cursor_op_xreach _ _ _ _ _ _ _ _ _ _ _ X OP) as (X1 & _). destruct (IH eq_refl X1) as (PR & C). split.
    + intros x v I. destruct (PR x v I) as (h3 & P2 & P3). exists h3. split; [apply in_or_app; auto|exact P3].
    + intros y Wy. destruct (C y Wy); auto.
  - destruct (cursor_op_xreach _ _ _ _ _ _ _ _ _ _ _ X OP) as (X1 & I1). destruct (IH eq_refl X1) as (PR & C).
    pose proof (C46_rows _ _ _ _ _ _ _ _ _ _ _ _ _ X OP) as LK. destruct (C44_rows _ _ _ _ _ _ _ _ _ _ _ _ _ X OP) as (NE & S0 & P0 & C0 & EN).
    destruct (EN eq_refl Logic.I) as (o0 & w & ->). destruct (LK cur w) as (_ & LKc); [apply in_or_app; right; left; reflexivity|].
    assert (WB : forall x, op_wants (E:=E) (Some cur) o x <-> comes_before (E:=E) (op_dir o) cur x) by (intros x; destruct OO as [-> | ->]; reflexivity).
    split.
    + intros x v I. apply in_app_or in I. destruct I as [I|I].
      * exists h1. split; [apply in_or_app; auto|]. apply (LK x v I).
      * destruct (PR x v I) as (h3 & P2 & P3). exists h3. split; [apply in_or_app; auto|exact P3].
    + intros y Wy. assert (HL : forall a b z, has_key a z -> has_key (E:=E) (a ++ b) z) by (intros a b z (x1 & w1 & Ix & KE); exists x1, w1; split; [apply in_or_app; auto|exact KE]).
      assert (HR : forall a b z, has_key b z -> has_key (E:=E) (a ++ b) z) by (intros a b z (x1 & w1 & Ix & KE); exists x1, w1; split; [apply in_or_app; auto|exact KE]).
      destruct (cb_total ok (op_dir o) y cur) as [Z|[Z|Z]].
      * destruct (LKc y Wy (cb_na ok _ _ _ Z)); auto.
      * left. apply HL. exists cur, w. split; [apply in_or_app; right; left; reflexivity|apply (keq_sym ok); exact Z].
      * destruct (C y); [apply WB; exact Z|auto|auto].
  - split; [intros ? ? []|]. intros y Wy. right. eapply C46_nothing; eauto. destruct OO as [-> | ->]; exact Logic.I.
Qed.
End Main.
Print Assumptions C44_rows.
Print Assumptions C44_moments.
Print Assumptions C44_nothing.
Print Assumptions C44_nothing_in_range.
Print Assumptions C44_no_assertion_fails.
Print Assumptions C44_progress.
Print Assumptions C44_scan.
Print Assumptions C44_scan_view.
Print Assumptions C44_scan_moments.
Print Assumptions C44_scan_dictionary.
Print Assumptions C45_one_row_at_a_time.
Print Assumptions C46_rows.
Print Assumptions C46_nothing.
Print Assumptions C46_scan.

(** ** Examples, by running the model *)
Section Exec.
Context {E : env} (del : L E -> bool) (g : G E) (rst : restr).

Fixpoint do_search (n : nat) (q : srch) (bulk : bool) (dir : option sdir) (cbk : cb E) (b : bound) (s : state E) : option (state E * sout E * nat) :=
  match n with
  | O => None
  | S n =>
    match attempt del g q b bulk rst dir cbk s with
    | Ok (s1, RAgain b') => match do_search n q bulk dir cbk (Some b') s1 with Some (s2, o, k) => Some (s2, o, S k) | None => None end
    | Ok (s1, r) => match finish cbk r with Some o => Some (s1, o, 1) | None => None end
    | _ => None
    end
  end.
Lemma do_search_run (cbs : list (gmsg (A E)) -> cb E -> Prop) q bulk dir cbk h : cbs h cbk -> forall n b s s' o k, do_search n q bulk dir cbk b s = Some (s', o, k) ->
  search_run del q bulk rst dir cbs b h s (repeat h k) o h s'.
Proof.
  intros CB. induction n as [|n IH]; intros b s s' o k Q; [discriminate|]. cbn [do_search] in Q.
  destruct (attempt del g q b bulk rst dir cbk s) as [[s1 r]| |] eqn:AT; try discriminate.
  destruct r as [out cur rf|x p j| |b'].
  4:{ destruct (do_search n q bulk dir cbk (Some b') s1) as [[[s2 o2] k2]|] eqn:Q2; [|discriminate]. injection Q as <- <- <-. cbn [repeat]. eapply sr_again; eauto. }
  all: destruct (finish cbk _) as [o1|] eqn:FI; [|discriminate]; injection Q as <- <- <-; cbn [repeat]; eapply sr_done; eauto.
Qed.

Definition anycb (h : list (gmsg (A E))) (cbk : cb E) : Prop := True.
Definition do_op (n : nat) (key : option bytes) (o : cop) (c0 : cb E) (s : state E) : option (state E * sout E * nat) :=
  match cop_search key o with
  | Some (q, bulk, dir) => do_search n q bulk dir (cop_cb key o c0) None s
  | None => None
  end.
Lemma do_op_run n key o c0 h s s' r k : proper c0 -> do_op n key o c0 s = Some (s', r, k) -> cursor_op del anycb key rst o h s (repeat h k) r h s'.
Proof.
  intros PR Q. unfold do_op in Q. destruct (cop_search key o) as [[[q bulk] dir]|] eqn:CS; [|discriminate]. exists q, bulk, dir. split; [exact CS|].
  eapply do_search_run; [|exact Q]. exists c0. split; [exact PR|]. split; [exact Logic.I|reflexivity].
Qed.

Fixpoint do_scan (n m : nat) (o : cop) (key : option bytes) (c0 : cb E) (s : state E) : option (state E * list (bytes * L E) * nat) :=
  match n with
  | O => None
  | S n =>
    match do_op m key o c0 s with
    | Some (s1, ERows out cur false, k1) => match do_scan n m o (Some cur) c0 s1 with Some (s2, rs, k2) => Some (s2, out ++ rs, k1 + k2) | None => None end
    | Some (s1, ENotFound, k1) => Some (s1, [], k1)
    | _ => None
    end
  end.
Lemma do_scan_run m o c0 h : proper c0 -> forall n key s s' rs k, do_scan n m o key c0 s = Some (s', rs, k) -> scan del anycb rst o key h s (repeat h k) rs h s'.
Proof.
  intros PR. induction n as [|n IH]; intros key s s' rs k Q; [discriminate|]. cbn [do_scan] in Q.
  destruct (do_op m key o c0 s) as [[[s1 [out cur []| |x p|]] k1]|] eqn:OP; try discriminate.
  - destruct (do_scan n m o (Some cur) c0 s1) as [[[s2 rs2] k2]|] eqn:SC; [|discriminate]. injection Q as <- <- <-. rewrite repeat_app. eapply sc_rows; [eapply do_op_run; eauto|eauto].
  - injection Q as <- <- <-. eapply sc_end; [eapply do_op_run; eauto|auto].
Qed.
End Exec.

Lemma key_cmp_ok' : cmp_ok (kcmp Log). Proof. exact key_cmp_ok. Qed.

(** Callbacks: take every row and ask for more; take one row; take a row, ask
    for more, and fail to get the lock on the next one. *)
Definition all_rows : cb Log := Cb (fun _ => AOk) (fun _ _ _ => AMore) AOk.
Definition one_row : cb Log := Cb (fun _ => AOk) (fun _ _ _ => AOk) AOk.
Definition no_lock : cb Log := Cb (fun _ => AOk) (fun hd _ _ => match hd with [] => AMore | _ => AErr end) AOk.
Lemma proper_all : proper all_rows. Proof. repeat split; discriminate. Qed.
Lemma proper_one : proper one_row. Proof. repeat split; discriminate. Qed.
Lemma proper_no_lock : proper no_lock. Proof. repeat split; try discriminate. intros [|? ?] x v; discriminate. Qed.

(** Two leaves, one of them in two basement nodes, messages in the root's
    buffer.  Row 2 is deleted to this reader. *)
Definition cur_ops : list (op Log) := firstn 11 ex_ops ++
  [OInject (E:=Log) tt (Msg MInsert (K 4%N) 109%N) false []; OInject (E:=Log) tt (Msg MInsert (K 0%N) 110%N) false []].
Definition late_ops : list (op Log) := [OInject (E:=Log) tt (Msg MInsert (K 5%N) 111%N) false []].
Definition gone (v : list N) : bool := match v with 102%N :: _ => true | _ => false end.

(** A scan of this tree with a write after the first row: the first row is
    fetched, then row 5 is inserted, then the rest is scanned in bulk. *)
Definition scan_outcome : option (list (bytes * list N) * list (bytes * list N) * nat) :=
  match run cur_ops init with
  | Some (s, _) =>
    match do_op (E:=Log) gone tt None 9 None CNext all_rows s with
    | Some (s1, ERows out cur false, k1) =>
      match run late_ops s1 with
      | Some (s2, _) => match do_scan (E:=Log) gone tt None 9 9 CNext (Some cur) all_rows s2 with Some (_, rs, k2) => Some (out, rs, k1 + k2) | None => None end
      | None => None
      end
    | _ => None
    end
  | None => None
  end.
Lemma scan_outcome_eq : scan_outcome = Some ([([0], [110])], [([1], [101; 104]); ([3], [103; 105; 106]); ([4], [109]); ([5], [111])], 5%nat)%N.
Proof. vm_compute. reflexivity. Qed.

Lemma run_xsteps (os : list (op Log)) : forall h s s' rs, run os s = Some (s', rs) -> xsteps h s (h ++ flat_map injected os) s'.
Proof.
  induction os as [|o os IH]; intros h s s' rs Q; cbn in *.
  - injection Q as <- <-. rewrite app_nil_r. constructor.
  - destruct (step o s) as [[s1 r]| |] eqn:ST; try discriminate. destruct (run os s1) as [[s2 rs']|] eqn:Q'; try discriminate. injection Q as <- <-.
    rewrite app_assoc. econstructor; [eapply x_op; exact ST|]. eapply IH. exact Q'.
Qed.

(** The hypotheses of C44_scan are met: five rows, one of them written while the
    scan was running, one key of the tree invisible. *)
Example C44_scan_example : exists h s hs rs h' s', xreach (E:=Log) h s /\ scan (E:=Log) gone anycb None CNext None h s hs rs h' s' /\
  map fst rs = [K 0; K 1; K 3; K 4; K 5]%N /\ length h' = S (length h) /\ length hs = 5.
Proof.
  pose proof scan_outcome_eq as Q. unfold scan_outcome in Q.
  destruct (run cur_ops init) as [[s r]|] eqn:R1; [|discriminate Q].
  destruct (do_op (E:=Log) gone tt None 9 None CNext all_rows s) as [[[s1 [out cur []| | |]] k1]|] eqn:R2; try discriminate Q.
  destruct (run late_ops s1) as [[s2 r2]|] eqn:R3; [|discriminate Q].
  destruct (do_scan (E:=Log) gone tt None 9 9 CNext (Some cur) all_rows s2) as [[[s3 rs] k2]|] eqn:R4; [|discriminate Q]. injection Q as -> -> Q.
  set (h := flat_map injected cur_ops). set (h2 := h ++ flat_map injected late_ops).
  exists h, s, (repeat h k1 ++ repeat h2 k2), ([([0%N], [110%N])] ++ [([1], [101; 104]); ([3], [103; 105; 106]); ([4], [109]); ([5], [111])]%N), h2, s3.
  split; [|split; [|split; [reflexivity|split; [reflexivity|rewrite app_length, !repeat_length; exact Q]]]].
  - apply reach_xreach. apply (run_reach cur_ops [] init s r); [apply reach_init|exact R1].
  - eapply (sc_rows (E:=Log)); [eapply do_op_run; [exact proper_all|exact R2]|]. eapply (sc_other (E:=Log)); [apply (run_xsteps late_ops h s1 s2 r2 R3)|]. eapply do_scan_run; [exact proper_all|exact R4].
Qed.

(** A lookup, a miss, and set_range with a bound, backwards too. *)
Definition op_outcome (key : option bytes) (o : cop) : option (option (list (bytes * list N))) :=
  match run cur_ops init with
  | Some (s, _) => match do_op (E:=Log) gone tt None 9 key o all_rows s with Some (_, ERows out _ _, _) => Some (Some out) | Some (_, ENotFound, _) | Some (_, ERejected _ _, _) => Some None | _ => None end
  | None => None
  end.
Lemma op_outcomes :
  map (fun ko => op_outcome (fst ko) (snd ko))
    [(None, CSet (K 1)); (None, CSet (K 2)); (None, CSetRange (K 2) None); (None, CSetRange (K 5) (Some (K 7))); (None, CSetRangeReverse (K 2)); (Some (K 4), CPrev); (None, CLast); (Some (K 3), CCurrent)]%N =
  [Some (Some [([1], [101; 104])]); Some None; Some (Some [([3], [103; 105; 106])]); Some None; Some (Some [([1], [101; 104])]); Some (Some [([3], [103; 105; 106])]); Some (Some [([4], [109])]); Some (Some [([3], [103; 105; 106])])]%N.
Proof. vm_compute. reflexivity. Qed.

(** ** C45 *)

(** A scan as c_getf_next runs it (src/ydb_cursor.cc:323-346): when the lock for
    a row is not granted it waits and calls toku_ft_cursor_next again. *)
Inductive retry_scan {E : env} (del : L E -> bool) (rst : restr) (o : cop) : option bytes -> list (gmsg (A E)) -> state E -> list (list (gmsg (A E))) -> list (bytes * L E) -> list (gmsg (A E)) -> state E -> Prop :=
| rs_scan key h s hs rs h' s' : scan del anycb rst o key h s hs rs h' s' -> retry_scan del rst o key h s hs rs h' s'
| rs_rows key h s hs1 out cur rf h1 s1 hs rs h2 s2 :
    cursor_op del anycb key rst o h s hs1 (ERows out cur rf) h1 s1 -> retry_scan del rst o (Some cur) h1 s1 hs rs h2 s2 -> retry_scan del rst o key h s (hs1 ++ hs) (out ++ rs) h2 s2.

Definition put3 : list (op Log) := firstn 3 ex_ops.
Definition lost_outcome : option (list (bytes * list N) * list (bytes * list N) * bool * list (bytes * list N)) :=
  match run put3 init with
  | Some (s, _) =>
    match do_op (E:=Log) (fun _ => false) tt None 9 None CNext one_row s with
    | Some (s1, ERows out cur _, _) =>
      match do_op (E:=Log) (fun _ => false) tt None 9 (Some cur) CNext no_lock s1 with
      | Some (s2, ERows out2 cur2 rf, _) =>
        match do_scan (E:=Log) (fun _ => false) tt None 9 9 CNext (Some cur2) one_row s2 with Some (_, rs, _) => Some (out, out2, rf, rs) | None => None end
      | _ => None
      end
    | _ => None
    end
  | None => None
  end.
Lemma lost_outcome_eq : lost_outcome = Some ([([1], [101])], [([2], [102])], true, [])%N.
Proof. vm_compute. reflexivity. Qed.

(** C45, refuted: a scan returns every row that stays visible.  Three rows,
    nothing is written; the second next asks for more rows and the lock on the
    third is not granted at first; the scan ends without the third row. *)
Theorem C45_refused_row_is_lost_refuted : exists (h : list (gmsg N)) (s s' : state Log) (hs : list (list (gmsg N))) (rs : list (bytes * list N)) (y : bytes) (v : list N),
  xreach (E:=Log) h s /\ retry_scan (E:=Log) (fun _ => false) None CNext None h s hs rs h s' /\
  (forall h1, In h1 hs -> h1 = h) /\ sees (E:=Log) (fun _ => false) h y v /\ ~ has_key (E:=Log) rs y.
Proof.
  pose proof lost_outcome_eq as Q. unfold lost_outcome in Q.
  destruct (run put3 init) as [[s r]|] eqn:R1; [|discriminate Q].
  destruct (do_op (E:=Log) (fun _ => false) tt None 9 None CNext one_row s) as [[[s1 [out cur rf0| | |]] k1]|] eqn:R2; try discriminate Q.
  destruct (do_op (E:=Log) (fun _ => false) tt None 9 (Some cur) CNext no_lock s1) as [[[s2 [out2 cur2 rf| | |]] k2]|] eqn:R3; try discriminate Q.
  destruct (do_scan (E:=Log) (fun _ => false) tt None 9 9 CNext (Some cur2) one_row s2) as [[[s3 rs] k3]|] eqn:R4; [|discriminate Q]. injection Q as -> -> -> ->.
  set (h := flat_map injected put3).
  exists h, s, s3, (repeat h k1 ++ repeat h k2 ++ repeat h k3), ([([1], [101])] ++ [([2], [102])] ++ [])%N, (K 3), [103%N].
  split; [|split; [|split; [|split; [split; [|reflexivity]|]]]].
  - apply reach_xreach. apply (run_reach put3 [] init s r); [apply reach_init|exact R1].
  - eapply (rs_rows (E:=Log)); [eapply do_op_run; [exact proper_one|exact R2]|]. eapply (rs_rows (E:=Log)); [eapply do_op_run; [exact proper_no_lock|exact R3]|]. apply rs_scan. eapply do_scan_run; [exact proper_one|exact R4].
  - intros h1 I. apply in_app_or in I. destruct I as [I|I]; [apply repeat_spec in I; exact I|]. apply in_app_or in I. destruct I as [I|I]; apply repeat_spec in I; exact I.
  - change h with ((([] ++ [Msg MInsert (K 1) 101]) ++ [Msg MInsert (K 2) 102]) ++ [Msg MInsert (K 3) 103])%N.
    change (Some [103%N]) with (effect (E:=Log) tt (Msg MInsert (K 3) 103%N) None).
    apply (out_msg (E:=Log)); [|intros _; reflexivity]. apply (out_skip (E:=Log)); [apply (out_skip (E:=Log)); [constructor|]|]; intros Z; specialize (Z (or_introl eq_refl)); discriminate Z.
  - intros (x & v & [[= <- <-]|[[= <- <-]|[]]] & KE); discriminate KE.
Qed.
Print Assumptions C45_refused_row_is_lost_refuted.

Definition upto2 : restr := Some (None, Some (K 2), true).
Definition back_outcome : option (list (bytes * list N) * list (bytes * list N)) :=
  match run put3 init with
  | Some (s, _) =>
    match do_op (E:=Log) (fun _ => false) tt upto2 9 (Some (K 1)) CNext all_rows s with
    | Some (s1, ERows out cur false, _) =>
      match do_op (E:=Log) (fun _ => false) tt upto2 9 (Some cur) CPrev one_row s1 with
      | Some (s2, ERows out2 _ false, _) => Some (out, out2)
      | _ => None
      end
    | _ => None
    end
  | None => None
  end.
Lemma back_outcome_eq : back_outcome = Some ([([2], [102])], [([2], [102])])%N.
Proof. vm_compute. reflexivity. Qed.

(** C45, the other half, refuted: prev after next gives rows before the last
    one that next gave.  The cursor is restricted to keys up to 2: next gives
    row 2, and prev gives row 2 again, because the cursor rests on row 3, which
    it never gave to the callback. *)
Theorem C45_prev_repeats_row_refuted : exists (rst : restr) (k : bytes) (h : list (gmsg N)) (s s1 s2 : state Log) (hs1 hs2 : list (list (gmsg N))) (out out2 : list (bytes * list N)) (x : bytes) (v : list N) (cur cur2 : bytes),
  xreach (E:=Log) h s /\ cursor_op (E:=Log) (fun _ => false) anycb (Some k) rst CNext h s hs1 (ERows (E:=Log) (out ++ [(x, v)]) cur false) h s1 /\
  cursor_op (E:=Log) (fun _ => false) anycb (Some cur) rst CPrev h s1 hs2 (ERows (E:=Log) ((x, v) :: out2) cur2 false) h s2.
Proof.
  pose proof back_outcome_eq as Q. unfold back_outcome in Q.
  destruct (run put3 init) as [[s r]|] eqn:R1; [|discriminate Q].
  destruct (do_op (E:=Log) (fun _ => false) tt upto2 9 (Some (K 1)) CNext all_rows s) as [[[s1 [out cur []| | |]] k1]|] eqn:R2; try discriminate Q.
  destruct (do_op (E:=Log) (fun _ => false) tt upto2 9 (Some cur) CPrev one_row s1) as [[[s2 [out2 cur2 []| | |]] k2]|] eqn:R3; try discriminate Q. injection Q as -> ->.
  set (h := flat_map injected put3).
  exists upto2, (K 1), h, s, s1, s2, (repeat h k1), (repeat h k2), [], [], [2%N], [102%N], cur, cur2. split; [|split].
  - apply reach_xreach. apply (run_reach put3 [] init s r); [apply reach_init|exact R1].
  - eapply do_op_run; [exact proper_all|exact R2].
  - eapply do_op_run; [exact proper_one|exact R3].
Qed.
Print Assumptions C45_prev_repeats_row_refuted.
