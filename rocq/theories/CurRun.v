(** Whole searches: attempts, with anything else between them. *)
From Verif Require Import Base Bytes LtSpec KOrd PivotModel PivotProofs FtModel FtSpec FtSeg FtRows FtInv FtPut FtOps FtOps3 FtQuery FtSys CurModel CurSpec CurProofs CurTree.
From Coq Require Import Sorted.
Open Scope nat_scope.
#[local] Existing Instance any_time.

Section R.
Context {E : env} (ok : cmp_ok (kcmp E)).
Local Notation c := (kcmp E).
Local Notation L := (L E).
Local Notation msg := (gmsg (A E)).

Lemma xstep_ok h s h' s' : Inv h s -> xstep (E:=E) h s h' s' -> Inv h' s' /\ exists l, h' = h ++ l.
Proof.
  intros I X. inversion X as [? ? o ? r Q|? ? del g q b bulk rst dir cbk ? r LG Q]; subst.
  - pose proof (step_ok ok h s o I) as K. rewrite Q in K. split; [apply K|eauto].
  - pose proof (attempt_ok ok del q LG bulk rst dir cbk b h' s g I) as K. rewrite Q in K. split; [apply K|]. exists []. symmetry. apply app_nil_r.
Qed.
Lemma xsteps_ok h s h' s' : xsteps (E:=E) h s h' s' -> Inv h s -> Inv h' s' /\ exists l, h' = h ++ l.
Proof.
  induction 1 as [|h s h1 s1 h2 s2 X _ IH]; intros I; [split; [exact I|]; exists []; symmetry; apply app_nil_r|].
  destruct (xstep_ok _ _ _ _ I X) as (I1 & l1 & ->). destruct (IH I1) as (I2 & l2 & ->). split; [exact I2|]. exists (l1 ++ l2). symmetry. apply app_assoc.
Qed.
Lemma xreach_ok h s : xreach (E:=E) h s -> Inv h s.
Proof. intros X. apply (xsteps_ok _ _ _ _ X). apply init_ok. Qed.
Lemma xsteps_trans h s h1 s1 h2 s2 : xsteps (E:=E) h s h1 s1 -> xsteps h1 s1 h2 s2 -> xsteps h s h2 s2.
Proof. induction 1; [auto|]. intros. econstructor; eauto. Qed.
Lemma reach_xreach h s : reach (E:=E) h s -> xreach h s.
Proof. induction 1; [constructor|]. eapply xsteps_trans; [eassumption|]. econstructor; [econstructor; eassumption|constructor]. Qed.

Variable del : L -> bool.
Variable q : srch.
Hypothesis legal : sf_dir (q_dir q) (q_fun q) = true.
Local Notation d := (q_dir q).
Local Notation W := (wants (E:=E) (q_fun q) (q_key q)).
Local Notation B := (comes_before (E:=E) d).

(** What the answer of a search means; [K]: the reader does not see this key;
    [h']: the messages injected when the search ended. *)
Definition found (rst : restr) (dir : option sdir) (bulk : bool) (cbs : list msg -> cb E -> Prop) (K : bytes -> Prop) (h' : list msg) (o : sout E) : Prop :=
  match o with
  | ERows out cur rf => rows_good del q rst bulk (after_msgs h') K out cur rf /\ exists cbk, cbs h' cbk /\ (forall x v, In (x, v) out -> took cbk x v) /\ (rf = true -> exists x v, cb_row cbk [] x v = AMore)
  | ENotFound => forall y, W y -> within_kb (E:=E) q y -> K y
  | ERejected x false => stop_good del q (after_msgs h') K x /\ (in_restr (E:=E) rst dir x = false \/ exists cbk v, cbs h' cbk /\ cb_row cbk [] x v = AReject)
  | ERejected x true => W x /\ (forall y, W y -> within_kb (E:=E) q y -> passed (E:=E) q (Some x) y -> K y) /\ exists cbk, cbs h' cbk /\ cb_pivot cbk x = AReject
  | EErr => True
  end.
Lemma found_impl rst dir bulk cbs (K K' : bytes -> Prop) h' o : (forall y, K y -> K' y) -> found rst dir bulk cbs K h' o -> found rst dir bulk cbs K' h' o.
Proof.
  intros I. destruct o as [out cur rf| |x []|]; cbn [found]; auto.
  - intros (F & T). split; [|exact T]. eapply rows_good_impl; [|exact F]. auto.
  - intros (F1 & F2 & F3). auto.
  - intros (F & T). split; [|exact T]. eapply stop_good_impl; [|exact F]. auto.
Qed.

Lemma search_run_xsteps rst dir bulk cbs b h s hs o h' s' : search_run del q bulk rst dir cbs b h s hs o h' s' -> xsteps h s h' s' /\ In h' hs.
Proof.
  induction 1 as [b h s h1 s1 hs o h2 s2 X R (IH & I)|b h s g cbk s1 b' hs o h2 s2 CB AT R (IH & I)|b h s g cbk s1 r o CB AT FI].
  - split; [eapply xsteps_trans; eauto|exact I].
  - split; [|right; exact I]. econstructor; [|exact IH]. eapply x_try; [exact legal|exact AT].
  - split; [|left; reflexivity]. econstructor; [|constructor]. eapply x_try; [exact legal|exact AT].
Qed.

Lemma search_run_ok rst dir bulk cbs b h s hs o h' s' : search_run del q bulk rst dir cbs b h s hs o h' s' -> Inv h s ->
  Inv h' s' /\ (exists l, h' = h ++ l) /\ (forall h1, In h1 hs -> exists l1 l2, h1 = h ++ l1 /\ h' = h1 ++ l2) /\
  found rst dir bulk cbs (fun y => passed (E:=E) q b y \/ unseen_at del hs y) h' o.
Proof.
  induction 1 as [b h s h1 s1 hs o h2 s2 X R IH|b h s g cbk s1 b' hs o h2 s2 CB AT R IH|b h s g cbk s1 r o CB AT FI]; intros I.
  - destruct (xsteps_ok _ _ _ _ X I) as (I1 & l & ->). destruct (IH I1) as (I2 & (l2 & ->) & HH & F). split; [exact I2|]. split; [exists (l ++ l2); symmetry; apply app_assoc|]. split; [|exact F].
    intros h3 I3. destruct (HH h3 I3) as (l3 & l4 & -> & Q). exists (l ++ l3), l4. rewrite app_assoc. auto.
  - pose proof (attempt_ok ok del q legal bulk rst dir cbk b h s g I) as K. rewrite AT in K. cbn [outc fst snd] in K. destruct K as (I1 & ((Wb & CPb) & Ab & KN) & _).
    destruct (IH I1) as (I2 & (l2 & ->) & HH & F). split; [exact I2|]. split; [eauto|]. split.
    { intros h1 [<-|I3]; [exists [], l2; rewrite app_nil_r; auto|apply HH; exact I3]. }
    eapply (found_impl _ _ _ _ _ (fun y => (W y -> passed (E:=E) q b y \/ unseen_at del (h :: hs) y))) in F.
    2:{ intros y [P|(h1 & I3 & U)] Wy; [destruct (KN y Wy P) as [Z|Z]; [auto|right; exists h; split; [left; reflexivity|exact Z]]|]. right. exists h1. split; [right; exact I3|exact U]. }
    destruct o as [out cur rf| |x []|]; cbn [found] in *; auto.
    + destruct F as (F & T). split; [|exact T]. eapply rows_good_impl; [|exact F]. auto.
    + destruct F as (F1 & F2 & F3). auto.
    + destruct F as (F & T). split; [|exact T]. eapply stop_good_impl; [|exact F]. auto.
  - pose proof (attempt_ok ok del q legal bulk rst dir cbk b h s g I) as K. rewrite AT in K. cbn [outc fst snd] in K. destruct K as (I1 & KN & WH).
    split; [exact I1|]. split; [exists []; symmetry; apply app_nil_r|]. split; [intros h1 [<-|[]]; exists [], []; rewrite app_nil_r; auto|].
    assert (UN : forall y, Kn del q b (after_msgs h) y -> passed (E:=E) q b y \/ unseen_at del [h] y). { intros y [Z|Z]; [auto|]. right. exists h. split; [left; reflexivity|exact Z]. }
    destruct r as [out cur rf|x pv j| |b']; cbn [finish] in FI; try discriminate; injection FI as <-; cbn [known_after why] in *.
    + cbn [found]. split; [eapply rows_good_impl; [|exact KN]; auto|]. exists cbk. auto.
    + destruct pv.
      * destruct KN as (Wx & KN). destruct j; cbn [found]; [|exact Logic.I]. split; [exact Wx|]. split; [intros; apply UN; auto|]. eauto.
      * destruct j; cbn [found]; [|exact Logic.I]. split; [eapply stop_good_impl; [|exact KN]; auto|]. destruct WH as [WH|(v & WH)]; [auto|]. right. eauto.
    + destruct KN as (_ & KN). destruct (cb_end cbk); cbn [found]; auto.
Qed.

(** ** What the callback has been asked for
    The callback takes row locks: up to the row it is given, up to the pivot, up
    to the end. *)
Definition covers (cbk : cb E) (y : bytes) : Prop :=
  (exists u v, took cbk u v /\ not_after (E:=E) d y u) \/ (exists p, cb_pivot cbk p = AOk /\ not_after (E:=E) d y p) \/ cb_end cbk = AOk.
Definition locked (cbs : list msg -> cb E -> Prop) (hs : list (list msg)) (y : bytes) : Prop :=
  exists h1 cbk, In h1 hs /\ cbs h1 cbk /\ unseen del h1 y /\ covers cbk y.
Definition lfound (rst : restr) (dir : option sdir) (cbs : list msg -> cb E -> Prop) (hs : list (list msg)) (K : bytes -> Prop) (h' : list msg) (o : sout E) : Prop :=
  match o with
  | ERows out cur rf => forall x v, In (x, v) out -> (exists cbk, cbs h' cbk /\ took cbk x v) /\ forall y, W y -> not_after (E:=E) d y x -> K y \/ has_key out y
  | ENotFound => forall y, W y -> within_kb (E:=E) q y -> K y
  | ERejected x false => in_restr (E:=E) rst dir x = false \/ exists cbk v, cbs h' cbk /\ cb_row cbk [] x v = AReject /\ forall y, W y -> B y x -> K y \/ unseen del h' y
  | ERejected x true => exists cbk, cbs h' cbk /\ cb_pivot cbk x = AReject /\ forall y, W y -> within_kb (E:=E) q y -> passed (E:=E) q (Some x) y -> K y \/ unseen del h' y
  | EErr => True
  end.
Lemma lfound_impl rst dir cbs hs (K K' : bytes -> Prop) h' o : (forall y, W y -> K y -> K' y) -> lfound rst dir cbs hs K h' o -> lfound rst dir cbs hs K' h' o.
Proof.
  intros I. destruct o as [out cur rf| |x []|]; cbn [lfound]; auto.
  - intros F x v Ix. destruct (F x v Ix) as (F1 & F2). split; [exact F1|]. intros y Wy N. destruct (F2 y Wy N); auto.
  - intros (cbk & F1 & F2 & F3). exists cbk. split; [auto|]. split; [auto|]. intros y Wy KB P. destruct (F3 y Wy KB P); auto.
  - intros [F|(cbk & v & F1 & F2 & F3)]; [auto|]. right. exists cbk, v. split; [auto|]. split; [auto|]. intros y Wy P. destruct (F3 y Wy P); auto.
Qed.
Lemma search_run_locked rst dir bulk cbs b h s hs o h' s' : search_run del q bulk rst dir cbs b h s hs o h' s' -> Inv h s ->
  lfound rst dir cbs hs (fun y => passed (E:=E) q b y \/ locked cbs hs y) h' o.
Proof.
  induction 1 as [b h s h1 s1 hs o h2 s2 X R IH|b h s g cbk s1 b' hs o h2 s2 CB AT R IH|b h s g cbk s1 r o CB AT FI]; intros I.
  - destruct (xsteps_ok _ _ _ _ X I) as (I1 & _). auto.
  - pose proof (attempt_ok ok del q legal bulk rst dir cbk b h s g I) as K. rewrite AT in K. cbn [outc fst snd] in K. destruct K as (I1 & ((Wb & CPb) & Ab & KN) & _).
    specialize (IH I1). eapply lfound_impl; [|instantiate (1 := fun y => passed (E:=E) q (Some b') y \/ locked cbs hs y)].
    + intros y Wy [P|(h1 & cb1 & I3 & U)]; [|right; exists h1, cb1; split; [right; exact I3|exact U]].
      destruct (KN y Wy P) as [Z|Z]; [auto|]. right. exists h, cbk. split; [left; reflexivity|]. split; [exact CB|]. split; [exact Z|]. right. left. exists b'. split; [exact CPb|].
      clear - P ok. unfold passed in P. destruct d; cbn; kord ok.
    + exact IH.
  - pose proof (attempt_ok ok del q legal bulk rst dir cbk b h s g I) as K. rewrite AT in K. cbn [outc fst snd] in K. destruct K as (I1 & KN & WH).
    assert (UN : forall y, covers cbk y -> Kn del q b (after_msgs h) y -> passed (E:=E) q b y \/ locked cbs [h] y). { intros y C [Z|Z]; [auto|]. right. exists h, cbk. split; [left; reflexivity|]. auto. }
    destruct r as [out cur rf|x pv j| |b']; cbn [finish] in FI; try discriminate; injection FI as <-; cbn [known_after why] in *.
    + cbn [lfound]. intros x v Ix. destruct WH as (TK & _). split; [exists cbk; auto|]. intros y Wy N. destruct KN as (_ & SO & K3 & K4 & _).
      destruct (K3 x v Ix) as (_ & _ & NX).
      assert (C : covers cbk y) by (left; exists x, v; auto).
      destruct (K4 y Wy) as [Z|[Z|Z]]; [clear - N NX ok; destruct d; cbn in *; kord ok|left; apply UN; auto|auto|].
      right. exists x, v. split; [exact Ix|]. clear - N NX Z ok. destruct d; cbn in *; kord ok.
    + destruct pv.
      * destruct KN as (Wx & KN). destruct j; cbn [lfound]; [|exact Logic.I]. exists cbk. split; [exact CB|]. split; [exact WH|]. intros y Wy KB P. destruct (KN y Wy KB P); auto.
      * destruct KN as (Wx & KN & _). destruct j; cbn [lfound]; [|exact Logic.I]. destruct WH as [WH|(v & WH)]; [auto|]. right. exists cbk, v. split; [exact CB|]. split; [exact WH|].
        intros y Wy P. destruct (KN y Wy P); auto.
    + destruct KN as (_ & KN). destruct (cb_end cbk) eqn:CE; cbn [lfound]; auto. intros y Wy KB. apply UN; [right; right; exact CE|auto].
Qed.
End R.
