(** C48: cursors over a whole dictionary under transactions.  A transaction that
    reads from its snapshot scans exactly the rows that the transactions mean it to
    see, whatever others write, commit, flush, split, collect or evict during the
    scan. *)
From Verif Require Import Base Bytes LtSpec KOrd PivotModel UleModel MgrModel MgrProofs MvccModel MvccSpec MvccSync MvccSys MvccRead MvccRun PropsMvcc.
From Verif Require Import FtModel FtSpec FtSeg FtOps FtSys OrkModel OrkProofs DbModel DbSpec DbSpecProofs DbProj DbInv DbReplay DbRun KeyCmp PropsDb.
From Verif Require Import CurModel CurSpec CurProofs CurTree PropsCur DbCurModel DbCurProofs DbCurStay.
From Coq Require Import Sorted.
Open Scope nat_scope.

Section P.
Context {c : bytes -> bytes -> comparison} (ok : cmp_ok c).
Local Notation db := (db c).
Local Notation E := (EV c).
Implicit Types (k y : bytes) (d : db).

(** No assertion fails in a search or in anything that is mixed with searches. *)
Theorem C48_no_abort last d : qreach c last d -> ids_left (d_ms d) ->
  (forall o, dop_legal c d o -> dstep c d o <> Fail)
  /\ (forall z del q b bulk rst dir cbk, sf_dir (q_dir q) (q_fun q) = true -> dtry c d z del q b bulk rst dir cbk <> Fail).
Proof.
  intros R LI. destruct (qreach_ok ok last d R) as (I & T). split.
  - intros o LG. pose proof (dstep_ok ok last d o I T LG LI) as K. destruct (dstep c d o); [discriminate|discriminate|contradiction].
  - intros z del q b bulk rst dir cbk LG. pose proof (dtry_ok ok last d z del q b bulk rst dir cbk I T LI LG) as K. destruct (dtry c d z del q b bulk rst dir cbk); [discriminate|discriminate|contradiction].
Qed.

(** What transaction [r] means to see at [y] through the snapshot numbered [n]:
    its own innermost write, else what was committed when the snapshot was
    taken. *)
Definition visible d (r n : txnid) (y : bytes) : option (list N) :=
  dsees (ds_levels (dspec_of c (d_trace d)) r) (ds_frozen (dspec_of c (d_trace d)) n) y.

(** A whole scan through a snapshot: exactly the visible rows of the range with
    their values, in order, each once. *)
Theorem C48_snapshot_scan last d r s (P : db -> cb E -> Prop) rst (o : CurModel.cop) key ds rs d' :
  qreach c last d -> dactive c d r -> dholds_snap d r s ->
  o = CNext \/ o = CPrev -> rst = None \/ key <> None ->
  dscan c (not_by r (s_id s)) (cgone C_READ_SNAPSHOT (through s r)) P rst o key d ds rs d' ->
  StronglySorted (comes_before (E:=E) (op_dir o)) (map fst rs) /\
  forall y u, op_wants (E:=E) key o y -> in_range (E:=E) rst y ->
    (visible d r (s_id s) y = Some u <-> exists x v, In (x, v) rs /\ keq c x y /\ cvalue C_READ_SNAPSHOT (through s r) v = Some u).
Proof.
  intros R AC HS OO RK SC. pose proof (qreach_ok ok last d R) as G.
  destruct (dscan_ok ok last _ _ _ _ _ _ _ _ _ _ G OO RK SC) as (S & PR & C). destruct (dscan_steps ok _ _ _ _ _ _ _ _ _ _ SC) as (_ & MO). pose proof (dscan_ids _ _ _ _ _ _ _ _ _ _ SC) as MI.
  assert (VW : forall d1 y v, In d1 ds -> stored_at d1 y v -> visible d r (s_id s) y = match v with Some w => cvalue C_READ_SNAPSHOT (through s r) w | None => None end
      /\ (forall w, v = Some w -> cgone C_READ_SNAPSHOT (through s r) w = match cvalue C_READ_SNAPSHOT (through s r) w with None => true | Some _ => false end)).
  { intros d1 y v I1 SA. apply (stays_view ok last d d1 r s y v G (conj AC HS) (proj1 (MO d1 I1)) (MI d1 I1) SA). }
  split; [exact S|]. intros y u Wy Ry.
  assert (SV : forall x v, In (x, v) rs -> keq c x y -> visible d r (s_id s) y = cvalue C_READ_SNAPSHOT (through s r) v).
  { intros x v I K. destruct (PR x v I) as (_ & d1 & I1 & SA & D). destruct (VW d1 x (Some v) I1 SA) as (Q & _). rewrite <- Q. unfold visible. symmetry. apply (means_keq ok). exact K. }
  split.
  - intros Q. destruct (C y Wy Ry) as [(x & v & I & K)|(d1 & I1 & v & SA & D)].
    + exists x, v. split; [exact I|]. split; [exact K|]. rewrite <- (SV x v I K). exact Q.
    + exfalso. destruct (VW d1 y v I1 SA) as (V1 & V2). rewrite V1 in Q. destruct v as [w|]; [|discriminate Q]. rewrite (V2 w eq_refl), Q in D. discriminate D.
  - intros (x & v & I & K & Q). rewrite (SV x v I K). exact Q.
Qed.

(** One operation: the rows it gives are visible, with their values, and no visible
    row that was asked for comes before them. *)
Theorem C48_snapshot_rows last d r s (P : db -> cb E -> Prop) rst (o : CurModel.cop) key ds out cur rf d' :
  qreach c last d -> dactive c d r -> dholds_snap d r s ->
  dcursor c (not_by r (s_id s)) (cgone C_READ_SNAPSHOT (through s r)) P key rst o d ds (ERows (E:=E) out cur rf) d' ->
  out <> [] /\ StronglySorted (comes_before (E:=E) (op_dir o)) (map fst out) /\
  (forall x v, In (x, v) out -> op_wants (E:=E) key o x /\ exists u, visible d r (s_id s) x = Some u /\ cvalue C_READ_SNAPSHOT (through s r) v = Some u) /\
  (forall x v y u, In (x, v) out -> op_wants (E:=E) key o y -> comes_before (E:=E) (op_dir o) y x -> visible d r (s_id s) y = Some u ->
    exists x' v', In (x', v') out /\ keq c x' y /\ cvalue C_READ_SNAPSHOT (through s r) v' = Some u).
Proof.
  intros R AC HS OP. pose proof (qreach_ok ok last d R) as G.
  destruct (dcursor_rows ok last _ _ _ _ _ _ _ _ _ _ _ _ G OP) as (NE & SS & PR & C & _). destruct (dcursor_steps ok _ _ _ _ _ _ _ _ _ _ OP) as (_ & ID & MO).
  assert (MI : forall d1, In d1 ds -> ids_left (d_ms d1)) by (destruct OP as (q & bulk & dir & _ & OP); eapply dsearch_ids; eauto).
  assert (VW : forall d1 y v, In d1 ds -> stored_at d1 y v -> visible d r (s_id s) y = match v with Some w => cvalue C_READ_SNAPSHOT (through s r) w | None => None end
      /\ (forall w, v = Some w -> cgone C_READ_SNAPSHOT (through s r) w = match cvalue C_READ_SNAPSHOT (through s r) w with None => true | Some _ => false end)).
  { intros d1 y v I1 SA. apply (stays_view ok last d d1 r s y v G (conj AC HS) (proj1 (MO d1 I1)) (MI d1 I1) SA). }
  split; [exact NE|]. split; [exact SS|]. split.
  - intros x v I. destruct (PR x v I) as (Wx & (SA & D) & _). split; [exact Wx|]. destruct (VW d' x (Some v) ID SA) as (V1 & V2). specialize (V2 v eq_refl). change (FtModel.L E) with stored in v. rewrite D in V2.
    destruct (cvalue C_READ_SNAPSHOT (through s r) v) as [u|]; [|discriminate V2]. eauto.
  - intros x v y u I Wy B Q. destruct (PR x v I) as (Wx & _ & NA).
    assert (B' : comes_before (E:=E) (op_dir o) y cur) by (clear - B NA ok; destruct (op_dir o); cbn in *; kord ok).
    destruct (C y Wy (cb_na (E:=E) ok _ _ _ B')) as [(x' & v' & I' & K)|[K|(d1 & I1 & v1 & SA & D)]].
    + exists x', v'. split; [exact I'|]. split; [exact K|]. destruct (PR x' v' I') as (_ & (SA & _) & _). destruct (VW d' x' (Some v') ID SA) as (V1 & _). rewrite <- V1, <- Q. unfold visible. apply (means_keq ok). exact K.
    + exfalso. clear - K B' ok. destruct (op_dir o); cbn in *; kord ok.
    + exfalso. destruct (VW d1 y v1 I1 SA) as (V1 & V2). rewrite V1 in Q. destruct v1 as [w|]; [|discriminate Q]. rewrite (V2 w eq_refl), Q in D. discriminate D.
Qed.

(** An operation that finds nothing: there is nothing visible to find. *)
Theorem C48_snapshot_nothing last d r s (P : db -> cb E -> Prop) (o : CurModel.cop) key ds v d' :
  qreach c last d -> dactive c d r -> dholds_snap d r s ->
  dcursor c (not_by r (s_id s)) (cgone C_READ_SNAPSHOT (through s r)) P key None o d ds v d' ->
  v = ENotFound \/ (exists x p, v = ERejected x p) ->
  forall y, op_wants (E:=E) key o y -> op_upto (E:=E) o y -> visible d r (s_id s) y = None.
Proof.
  intros R AC HS OP RR y Wy Uy. pose proof (qreach_ok ok last d R) as G.
  destruct (dcursor_nothing ok last _ _ _ _ _ _ _ _ _ G OP RR y Wy Uy) as (d1 & I1 & w & SA & D). destruct (dcursor_steps ok _ _ _ _ _ _ _ _ _ _ OP) as (_ & _ & MO).
  assert (MI : forall d1, In d1 ds -> ids_left (d_ms d1)) by (destruct OP as (q & bulk & dir & _ & OP); eapply dsearch_ids; eauto).
  destruct (stays_view ok last d d1 r s y w G (conj AC HS) (proj1 (MO d1 I1)) (MI d1 I1) SA) as (V1 & V2). unfold visible. rewrite V1.
  destruct w as [w|]; [|reflexivity]. change (FtModel.L E) with stored in w. rewrite (V2 w eq_refl) in D. destruct (cvalue C_READ_SNAPSHOT (through s r) w); [discriminate D|reflexivity].
Qed.
End P.
Print Assumptions C48_no_abort.
Print Assumptions C48_snapshot_scan.
Print Assumptions C48_snapshot_rows.
Print Assumptions C48_snapshot_nothing.

(** ** Example, by running the model *)
Section Exec.
Context (c : bytes -> bytes -> comparison) (may : dop -> Prop) (mayb : dop -> bool) (mayok : forall o, mayb o = true -> may o) (del : stored -> bool) (z : zsel) (rst : restr).
Local Notation E := (EV c).
Fixpoint dx_search (n : nat) (q : srch) (bulk : bool) (dir : option sdir) (cbk : cb E) (b : bound) (d : db c) : option (db c * sout E * list (db c)) :=
  match n with
  | O => None
  | S n =>
    if idsd c d then
    match dtry c d z del q b bulk rst dir cbk with
    | Ok (d1, RAgain b') => match dx_search n q bulk dir cbk (Some b') d1 with Some (d2, o, ds) => Some (d2, o, d1 :: ds) | None => None end
    | Ok (d1, r) => match finish cbk r with Some o => Some (d1, o, [d1]) | None => None end
    | _ => None
    end else None
  end.
Lemma dx_search_run (cbs : db c -> cb E -> Prop) q bulk dir cbk : (forall d, cbs d cbk) -> forall n b d d' o ds, dx_search n q bulk dir cbk b d = Some (d', o, ds) ->
  dsearch c may del q bulk rst dir cbs b d ds o d'.
Proof.
  intros CB. induction n as [|n IH]; intros b d d' o ds Q; [discriminate|]. cbn [dx_search] in Q. destruct (idsd c d) eqn:ID; [|discriminate Q]. apply N.ltb_lt in ID.
  destruct (dtry c d z del q b bulk rst dir cbk) as [[d1 r]| |] eqn:AT; try discriminate Q.
  destruct r as [out cur rf|x p j| |b'].
  4:{ destruct (dx_search n q bulk dir cbk (Some b') d1) as [[[d2 o2] ds2]|] eqn:Q2; [|discriminate Q]. injection Q as <- <- <-. eapply ds_again; eauto. }
  all: destruct (finish cbk _) as [o1|] eqn:FI; [|discriminate Q]; injection Q as <- <- <-; eapply ds_done; eauto.
Qed.
Definition any_cb (d : db c) (cbk : cb E) : Prop := True.
Definition dx_op (n : nat) (key : option bytes) (o : CurModel.cop) (c0 : cb E) (d : db c) : option (db c * sout E * list (db c)) :=
  match cop_search key o with
  | Some (q, bulk, dir) => dx_search n q bulk dir (cop_cb key o c0) None d
  | None => None
  end.
Lemma dx_op_run n key o c0 d d' r ds : proper c0 -> dx_op n key o c0 d = Some (d', r, ds) -> dcursor c may del any_cb key rst o d ds r d'.
Proof.
  intros PR Q. unfold dx_op in Q. destruct (cop_search key o) as [[[q bulk] dir]|] eqn:CS; [|discriminate Q]. exists q, bulk, dir. split; [exact CS|].
  eapply dx_search_run; [|exact Q]. intros d0. exists c0. split; [exact PR|]. split; [exact Logic.I|reflexivity].
Qed.
(** A scan; before each operation some steps of others. *)
Fixpoint dx_scan (m : nat) (o : CurModel.cop) (key : option bytes) (c0 : cb E) (oss : list (list dop)) (d : db c) : option (db c * list (bytes * stored) * list (db c)) :=
  match oss with
  | [] => None
  | os :: oss =>
    if forallb mayb os then
    match drun c os d with
    | Some d0 =>
      match dx_op m key o c0 d0 with
      | Some (d1, ERows out cur false, ds1) => match dx_scan m o (Some cur) c0 oss d1 with Some (d2, rs, ds2) => Some (d2, out ++ rs, ds1 ++ ds2) | None => None end
      | Some (d1, ENotFound, ds1) => Some (d1, [], ds1)
      | _ => None
      end
    | None => None
    end else None
  end.
Lemma drun_qsteps os : forall d d', forallb mayb os = true -> drun c os d = Some d' -> qsteps c may d d'.
Proof.
  induction os as [|o os IH]; intros d d' MB; cbn [drun]; [intros Q; injection Q as <-; constructor|].
  cbn [forallb] in MB. apply andb_true_iff in MB. destruct MB as (M1 & M2).
  destruct (dlegalb c d o && idsd c d) eqn:L; [|discriminate]. apply andb_true_iff in L. destruct L as (L1 & L2). destruct (dstep c d o) as [[d1 r]| |] eqn:ST; try discriminate.
  intros Q. econstructor; [|apply IH; eauto]. eapply q_op; [apply mayok; exact M1| |apply N.ltb_lt; exact L2|exact ST]. destruct o; cbn [dop_legal dlegalb] in *; auto. apply clegalb_ok. exact L1.
Qed.
Lemma dx_scan_run m o c0 : proper c0 -> forall oss key d d' rs ds, dx_scan m o key c0 oss d = Some (d', rs, ds) -> dscan c may del any_cb rst o key d ds rs d'.
Proof.
  intros PR. induction oss as [|os oss IH]; intros key d d' rs ds Q; [discriminate|]. cbn [dx_scan] in Q. destruct (forallb mayb os) eqn:MB; [|discriminate Q].
  destruct (drun c os d) as [d0|] eqn:RN; [|discriminate Q]. eapply dc_other; [eapply drun_qsteps; eauto|].
  destruct (dx_op m key o c0 d0) as [[[d1 [out cur []| |x p|]] ds1]|] eqn:OP; try discriminate Q.
  - destruct (dx_scan m o (Some cur) c0 oss d1) as [[[d2 rs2] ds2]|] eqn:SC; [|discriminate Q]. injection Q as <- <- <-. eapply dc_rows; [eapply dx_op_run; eauto|eauto].
  - injection Q as <- <- <-. eapply dc_end; [eapply dx_op_run; eauto|auto].
Qed.
End Exec.

Definition not_byb (r s : txnid) (o : dop) : bool :=
  match o with
  | DClient o _ =>
    match o with
    | CBegin _ _ | COptimize _ => true
    | CChildSnapEnd s' => negb (s' =? s)%N
    | CChildSnap x | CChild x | CLock x _ | CWrite x _ _ | CChildCommit x | CAbort x | CAbortMsg x | CAbortDone x
    | CCommit x | CCommitMsg x | CCommitDone x => negb (x =? r)%N
    end
  | _ => true
  end.
Lemma not_byb_ok r s o : not_byb r s o = true -> not_by r s o.
Proof. destruct o as [|o j|o]; [reflexivity| |reflexivity]. destruct o; cbn; auto; intros Q; apply negb_true_iff, N.eqb_neq in Q; exact Q. Qed.

Definition one_by_one : cb (EV key_cmp) := Cb (E:=EV key_cmp) (fun _ => AOk) (fun _ _ _ => AOk) AOk.
Lemma proper_1 : proper one_by_one. Proof. repeat split; discriminate. Qed.

(** 12 scans [dbx2]: before its second row another transaction overwrites and
    commits row 2 and inserts a row 4, and a leaf is flushed; before its third the
    second leaf is written out.  It gets rows 1, 2 and 3 as they were. *)
Definition gone12 : stored -> bool := cgone C_READ_SNAPSHOT (through snap12d 12%N).
Definition others : list (list dop) :=
  [[]; [C (CBegin false false) []; DClient (CWrite 15%N (K 2) (WPut [8%N])) (JN 9 []); DClient (CWrite 15%N (K 4) (WPut [4%N])) (JN 9 []);
        C (CCommit 15%N) []; C (CCommitMsg 15%N) []; C (CCommitMsg 15%N) []; C (CCommitDone 15%N) []; DLook; DTree (TLockChain []); DTree (TFlush Z0 [] 0); DTree (TUnlock [])];
   [DTree (TWriteLeaf None (Some Z0) [1] [])]; []].
Definition scan12 : option (db key_cmp * list (bytes * stored) * list (db key_cmp)) :=
  dx_scan key_cmp (not_byb 12%N 13%N) gone12 Z0 None 9 CNext None one_by_one others dbx2.
Definition summary (o : option (db key_cmp * list (bytes * stored) * list (db key_cmp))) : option (nat * list (bytes * option (list N)) * list (option (list N))) :=
  match o with
  | Some (d', rs, ds) => Some (length ds, map (fun p => (fst p, cvalue C_READ_SNAPSHOT (through snap12d 12%N) (snd p))) rs, map (ds_val (dspec_of key_cmp (d_trace d'))) [K 1; K 2; K 3; K 4]%N)
  | None => None
  end.
Lemma scan12_ran : summary scan12 = Some (4, [(K 1, Some [1%N]); (K 2, Some [2%N]); (K 3, Some [3%N])], [Some [9%N]; Some [8%N]; None; Some [4%N]]).
Proof. vm_compute. reflexivity. Qed.
Lemma scan12_is : forall d' rs ds, scan12 = Some (d', rs, ds) -> dscan key_cmp (not_by 12%N 13%N) gone12 (any_cb key_cmp) None CNext None dbx2 ds rs d'.
Proof. intros d' rs ds. unfold scan12. apply (dx_scan_run key_cmp _ _ (not_byb_ok 12%N 13%N)). exact proper_1. Qed.
Example C48_scan_example : qreach key_cmp 10%N dbx2 /\ dactive key_cmp dbx2 12%N /\ dholds_snap dbx2 12%N snap12d
  /\ exists ds rs d', dscan key_cmp (not_by 12%N 13%N) gone12 (any_cb key_cmp) None CNext None dbx2 ds rs d' /\ length ds = 4
     /\ map (fun p => (fst p, cvalue C_READ_SNAPSHOT (through snap12d 12%N) (snd p))) rs = [(K 1, Some [1%N]); (K 2, Some [2%N]); (K 3, Some [3%N])]
     /\ map (ds_val (dspec_of key_cmp (d_trace d'))) [K 1; K 2; K 3; K 4]%N = [Some [9%N]; Some [8%N]; None; Some [4%N]].
Proof.
  split; [apply dreach_qreach; apply dbx2_reach|]. destruct dbx2_reader as (A & B & _). split; [exact A|]. split; [exact B|].
  pose proof scan12_ran as Q. pose proof scan12_is as SI.
  destruct scan12 as [[[d' rs] ds]|]; cbn [summary] in Q; [|discriminate Q]. exists ds, rs, d'. split; [apply SI; reflexivity|]. injection Q as Q1 Q2 Q3 Q4 Q5 Q6. split; [exact Q1|]. split; [exact Q2|]. cbn [map]. rewrite Q3, Q4, Q5, Q6. reflexivity.
Qed.
