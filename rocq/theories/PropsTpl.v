(** C64: the thread pool. *)
From Coq Require Import Permutation.
From Verif Require Import Base TplModel.

(** ** Specification *)
(** Jobs given and not done. *)
Fixpoint pending (l : list thr) : list nat :=
  match l with [] => [] | x :: r => match t_f x with Some j => j :: pending r | None => pending r end end.
Definition getter_sleeps (s : tpool) : Prop := exists w, In (GSleep w) (tp_get s).
Definition getter_awake (s : tpool) : Prop := exists w, In (GAwk w) (tp_get s).
Definition thread_begins (s : tpool) : Prop := exists x, In x (tp_thr s) /\ t_st x = TNew.

(** ** Lemmas *)
Fixpoint sumf {A} (f : A -> nat) (l : list A) : nat := match l with [] => 0 | x :: r => f x + sumf f r end.
Lemma sumf_set {A} (f : A -> nat) l : forall i x y, nth_error l i = Some y -> sumf f (xset l i x) + f y = sumf f l + f x.
Proof. induction l as [|a l IH]; intros [|i] x y E; cbn [nth_error xset sumf] in *; try discriminate; [injection E as ->; lia|]. specialize (IH i x y E). lia. Qed.
Lemma sumf_app {A} (f : A -> nat) a b : sumf f (a ++ b) = sumf f a + sumf f b.
Proof. induction a; cbn [app sumf]; lia. Qed.
Lemma sumf_in {A} (f : A -> nat) l x : In x l -> f x <= sumf f l.
Proof. induction l as [|a l IH]; cbn [In sumf]; [contradiction|]. intros [->|H]; [lia|]. specialize (IH H). lia. Qed.
Lemma sumf_pos {A} (f : A -> nat) l : sumf f l > 0 -> exists x, In x l /\ f x > 0.
Proof. induction l as [|a l IH]; cbn [sumf]; [lia|]. intros H. destruct (Nat.eq_dec (f a) 0) as [E|E]; [|exists a; split; [left; auto|lia]]. destruct IH as (x & I & P); [lia|]. exists x. split; [right|]; auto. Qed.
Lemma xset_nth {A} (l : list A) : forall i x j y, nth_error l i = Some y -> nth_error (xset l i x) j = if j =? i then Some x else nth_error l j.
Proof. induction l as [|a l IH]; intros [|i] x [|j] y E; cbn in *; try discriminate; auto. eapply IH; eauto. Qed.
Lemma xset_len {A} (l : list A) : forall i x, length (xset l i x) = length l.
Proof. induction l as [|a l IH]; intros [|i] x; cbn; auto. Qed.

Definition sl (g : getter) : nat := match g with GSleep _ => 1 | _ => 0 end.
Definition aw (g : getter) : nat := match g with GAwk _ => 1 | _ => 0 end.
Definition hs (t : nat) (g : getter) : nat := match g with GHas u => if u =? t then 1 else 0 | _ => 0 end.
Definition nw (x : thr) : nat := match t_st x with TNew => 1 | _ => 0 end.
Definition fj (j : nat) (x : thr) : nat := match t_f x with Some k => if k =? j then 1 else 0 | None => 0 end.

Lemma gsignal_spec gs c gs1 : gsignal gs c = Some gs1 ->
  (gs1 = gs /\ sumf sl gs = 0) \/ (exists i w, nth_error gs i = Some (GSleep w) /\ gs1 = xset gs i (GAwk w)).
Proof.
  unfold gsignal. destruct c as [i|].
  - destruct (nth_error gs i) as [[| w | | | |]|] eqn:E; try discriminate. intros H. injection H as <-. right. eauto.
  - destruct (existsb gsleeps gs) eqn:X; [discriminate|]. intros H. injection H as <-. left. split; auto.
    clear - X. induction gs as [|g gs IH]; auto. cbn [existsb] in X. apply orb_false_iff in X. destruct X as [X1 X2]. cbn [sumf]. rewrite (IH X2).
    destruct g; try discriminate; auto.
Qed.
Lemma gsignal_sums gs c gs1 : gsignal gs c = Some gs1 ->
  (forall t, sumf (hs t) gs1 = sumf (hs t) gs) /\
  ((sumf sl gs1 = 0 /\ sumf sl gs = 0 /\ sumf aw gs1 = sumf aw gs) \/ (S (sumf sl gs1) = sumf sl gs /\ sumf aw gs1 = S (sumf aw gs))).
Proof.
  intros H. destruct (gsignal_spec gs c gs1 H) as [[-> Z]|(i & w & E & ->)]; [split; auto|].
  split.
  - intros t. pose proof (sumf_set (hs t) gs i (GAwk w) _ E) as P. cbn [hs] in P. lia.
  - right. pose proof (sumf_set sl gs i (GAwk w) _ E) as P. pose proof (sumf_set aw gs i (GAwk w) _ E) as Q. cbn [sl aw] in P, Q. lia.
Qed.
Lemma gsignal_other gs c gs1 i g : gsignal gs c = Some gs1 -> nth_error gs i = Some g -> sl g = 0 -> nth_error gs1 i = Some g.
Proof.
  intros H E Z. destruct (gsignal_spec gs c gs1 H) as [[-> _]|(k & w & F & ->)]; auto.
  rewrite (xset_nth gs k _ i _ F). destruct (Nat.eqb_spec i k) as [->|]; auto. rewrite E in F. injection F as ->. discriminate.
Qed.

Record tinv (s : tpool) : Prop := {
  ti_once : forall t, count_occ Nat.eq_dec (tp_free s) t + sumf (hs t) (tp_get s) <= 1;
  ti_idle : forall t, count_occ Nat.eq_dec (tp_free s) t + sumf (hs t) (tp_get s) > 0 -> exists x, nth_error (tp_thr s) t = Some x /\ t_f x = None;
  ti_run : forall t x, nth_error (tp_thr s) t = Some x -> (t_st x = TRun -> t_f x <> None) /\ (t_f x <> None -> t_st x <> TWait);
  ti_jobs : forall j, count_occ Nat.eq_dec (tp_done s) j + sumf (fj j) (tp_thr s) = count_occ Nat.eq_dec (tp_given s) j;
  ti_wake : sumf sl (tp_get s) = 0 \/ length (tp_free s) <= sumf aw (tp_get s) + sumf nw (tp_thr s) }.

Lemma init_tinv m : tinv (tp_init m).
Proof. split; cbn; auto; try lia. intros [|t] x E; discriminate. Qed.

Lemma go_tinv s i w0 w ok c s1 : tinv s -> nth_error (tp_get s) i = Some w0 -> (w0 = GAsk w \/ w0 = GAwk w) -> get_go s i w ok c = Some s1 -> tinv s1.
Proof.
  intros [I1 I2 I3 I4 I5] E W X. assert (W1 : sl w0 = 0 /\ aw w0 <= 1 /\ forall t, hs t w0 = 0) by (destruct W as [-> | ->]; cbn; auto).
  destruct W1 as (W1 & W2 & W3). unfold get_go in X. destruct (tp_free s) as [|t r] eqn:F.
  - destruct (((tp_max s =? 0) || (length (tp_thr s) <? tp_max s)) && ok).
    + destruct (gsignal (tp_get s) c) as [gs|] eqn:G; [|discriminate]. injection X as <-.
      pose proof (gsignal_other _ _ _ _ _ G E W1) as E1. destruct (gsignal_sums _ _ _ G) as [S1 S2].
      pose proof (fun t => sumf_set (hs t) gs i (GSleep w) _ E1) as P1. cbn [hs] in P1.
      set (n := length (tp_thr s)).
      assert (HN : sumf (hs n) (tp_get s) = 0).
      { destruct (Nat.eq_dec (sumf (hs n) (tp_get s)) 0); auto. destruct (I2 n) as (x & N & _); [lia|].
        assert (n < length (tp_thr s)) by (apply nth_error_Some; congruence). unfold n in *. lia. }
      split; cbn [tp_thr tp_free tp_get tp_given tp_done].
      * intros u. specialize (I1 u). specialize (S1 u). specialize (P1 u). rewrite (W3 u) in P1. cbn [count_occ] in *.
        destruct (Nat.eq_dec n u) as [<-|]; lia.
      * intros u H. specialize (I2 u). specialize (S1 u). specialize (P1 u). rewrite (W3 u) in P1. cbn [count_occ] in *.
        destruct (Nat.eq_dec n u) as [<-|NU].
        -- exists (mkThr TNew None). unfold n. rewrite nth_error_app2, Nat.sub_diag by lia. auto.
        -- destruct I2 as (x & N & Z); [lia|]. exists x. rewrite nth_error_app1; auto. apply nth_error_Some. congruence.
      * intros u x N. destruct (Nat.lt_ge_cases u (length (tp_thr s))) as [L|L].
        -- rewrite nth_error_app1 in N by auto. eapply I3; eauto.
        -- rewrite nth_error_app2 in N by auto. destruct (u - length (tp_thr s)) as [|[|k]]; cbn in N; try discriminate. injection N as <-. cbn. split; [discriminate|congruence].
      * intros j. rewrite sumf_app. cbn [sumf fj t_f]. rewrite <- I4. lia.
      * right. rewrite sumf_app. cbn [sumf nw t_st length]. lia.
    + destruct c; [discriminate|]. injection X as <-. set (g := if w then GSleep w else GFail).
      pose proof (fun t => sumf_set (hs t) (tp_get s) i g _ E) as P1. assert (HG : forall t, hs t g = 0) by (intros; unfold g; destruct w; auto).
      split; cbn [with_get tp_thr tp_free tp_get tp_given tp_done]; rewrite ?F; auto.
      * intros u. specialize (I1 u). specialize (P1 u). rewrite HG, (W3 u) in P1. lia.
      * intros u H. apply I2. specialize (P1 u). rewrite HG, (W3 u) in P1. lia.
      * right. cbn. lia.
  - destruct c; [discriminate|]. injection X as <-. pose proof (sumf_set sl (tp_get s) i (GHas t) _ E) as Q1. pose proof (sumf_set aw (tp_get s) i (GHas t) _ E) as Q2.
    pose proof (fun u => sumf_set (hs u) (tp_get s) i (GHas t) _ E) as P1. cbn [sl aw] in Q1, Q2.
    assert (P2 : forall u, count_occ Nat.eq_dec r u + sumf (hs u) (xset (tp_get s) i (GHas t)) = count_occ Nat.eq_dec (t :: r) u + sumf (hs u) (tp_get s)).
    { intros u. specialize (P1 u). rewrite (W3 u) in P1. cbn [hs] in P1. cbn [count_occ]. destruct (Nat.eq_dec t u) as [->|NE].
      - rewrite Nat.eqb_refl in P1. lia.
      - rewrite (proj2 (Nat.eqb_neq t u) NE) in P1. lia. }
    split; cbn [tp_thr tp_free tp_get tp_given tp_done]; auto.
    + intros u. rewrite P2. auto.
    + intros u. rewrite P2. auto.
    + cbn [length] in I5. lia.
Qed.

Lemma thr_run s t x y : (forall t x, nth_error (tp_thr s) t = Some x -> (t_st x = TRun -> t_f x <> None) /\ (t_f x <> None -> t_st x <> TWait)) ->
  nth_error (tp_thr s) t = Some x -> ((t_st y = TRun -> t_f y <> None) /\ (t_f y <> None -> t_st y <> TWait)) ->
  forall u z, nth_error (xset (tp_thr s) t y) u = Some z -> (t_st z = TRun -> t_f z <> None) /\ (t_f z <> None -> t_st z <> TWait).
Proof. intros I E Y u z Z. rewrite (xset_nth _ _ _ _ _ E) in Z. destruct (u =? t); [injection Z as <-; auto|eapply I; eauto]. Qed.
Lemma thr_idle s t x y : (forall u, count_occ Nat.eq_dec (tp_free s) u + sumf (hs u) (tp_get s) > 0 -> exists z, nth_error (tp_thr s) u = Some z /\ t_f z = None) ->
  nth_error (tp_thr s) t = Some x -> t_f y = t_f x ->
  forall u, count_occ Nat.eq_dec (tp_free s) u + sumf (hs u) (tp_get s) > 0 -> exists z, nth_error (xset (tp_thr s) t y) u = Some z /\ t_f z = None.
Proof.
  intros I E Y u H. destruct (I u H) as (z & Z & N). rewrite (xset_nth _ _ _ _ _ E). destruct (Nat.eqb_spec u t) as [->|]; eauto.
  exists y. split; auto. congruence.
Qed.

Lemma step_tinv s e s1 : tinv s -> tstep s e = Some s1 -> tinv s1.
Proof.
  intros I X. pose proof I as [I1 I2 I3 I4 I5]. destruct e as [w|i ok c|i j|t c|t c|i|t]; cbn [tstep] in X.
  - injection X as <-. split; cbn [with_get tp_thr tp_free tp_get tp_given tp_done]; auto.
    + intros t. rewrite sumf_app. cbn [sumf hs]. specialize (I1 t). lia.
    + intros t. rewrite sumf_app. cbn [sumf hs]. intros H. apply I2. lia.
    + rewrite !sumf_app. cbn [sumf sl aw]. lia.
  - destruct (nth_error (tp_get s) i) as [[w|w|w|t| |]|] eqn:E; try discriminate; eapply go_tinv; eauto.
  - destruct (nth_error (tp_get s) i) as [[w|w|w|t| |]|] eqn:E; try discriminate.
    destruct (nth_error (tp_thr s) t) as [x|] eqn:T; [|discriminate]. injection X as <-.
    pose proof (fun u => sumf_set (hs u) (tp_get s) i GDone _ E) as P1. pose proof (sumf_set sl (tp_get s) i GDone _ E) as Q1. pose proof (sumf_set aw (tp_get s) i GDone _ E) as Q2.
    cbn [sl aw hs] in *.
    assert (TN : t_f x = None).
    { destruct (I2 t) as (z & Z & N); [|congruence]. specialize (P1 t). rewrite Nat.eqb_refl in P1. lia. }
    set (y := mkThr (wake_thr (t_st x)) (Some j)).
    split; cbn [tp_thr tp_free tp_get tp_given tp_done].
    + intros u. specialize (I1 u). specialize (P1 u). lia.
    + intros u H. pose proof (P1 u) as P. specialize (I1 u). rewrite (xset_nth _ _ _ _ _ T). destruct (Nat.eqb_spec u t) as [->|NE].
      * rewrite Nat.eqb_refl in P. lia.
      * apply I2. lia.
    + apply (thr_run s t x y I3 T). unfold y. cbn. split; [discriminate|]. intros _. destruct (t_st x); discriminate.
    + intros k. pose proof (sumf_set (fj k) (tp_thr s) t y _ T) as P. unfold fj at 2 4, y in P. cbn [t_f] in P. rewrite TN in P.
      fold y in P. rewrite count_occ_app. cbn [count_occ]. specialize (I4 k). destruct (Nat.eq_dec j k) as [->|NE].
      * rewrite Nat.eqb_refl in P. lia.
      * rewrite (proj2 (Nat.eqb_neq j k) NE) in P. lia.
    + pose proof (sumf_set nw (tp_thr s) t y _ T) as P. assert (nw y = nw x) by (unfold nw, y; cbn [t_st]; destruct (t_st x); auto). lia.
  - destruct (nth_error (tp_thr s) t) as [x|] eqn:T; [|discriminate]. cbv zeta in X.
    set (y := mkThr (match t_f x with Some _ => TRun | None => TWait end) (t_f x)) in X.
    assert (Y : (t_st y = TRun -> t_f y <> None) /\ (t_f y <> None -> t_st y <> TWait)) by (unfold y; cbn; destruct (t_f x); split; congruence).
    pose proof (fun k => sumf_set (fj k) (tp_thr s) t y _ T) as PJ. assert (FY : forall k, fj k y = fj k x) by (intros k; unfold fj, y; auto).
    pose proof (sumf_set nw (tp_thr s) t y _ T) as PN. assert (NY : nw y = 0) by (unfold nw, y; cbn [t_st]; destruct (t_f x); auto).
    destruct (t_st x) eqn:ST; try discriminate.
    + destruct (gsignal (tp_get s) c) as [gs|] eqn:G; [|discriminate]. injection X as <-. destruct (gsignal_sums _ _ _ G) as [S1 S2].
      assert (NX : nw x = 1) by (unfold nw; rewrite ST; auto).
      split; cbn [tp_thr tp_free tp_get tp_given tp_done].
      * intros u. rewrite S1. auto.
      * intros u. rewrite S1. apply (thr_idle s t x y I2 T). auto.
      * apply (thr_run s t x y I3 T Y).
      * intros k. specialize (PJ k). specialize (I4 k). rewrite FY in PJ. lia.
      * lia.
    + destruct c; [discriminate|]. injection X as <-. assert (NX : nw x = 0) by (unfold nw; rewrite ST; auto).
      split; cbn [tp_thr tp_free tp_get tp_given tp_done]; auto.
      * apply (thr_idle s t x y I2 T). auto.
      * apply (thr_run s t x y I3 T Y).
      * intros k. specialize (PJ k). specialize (I4 k). rewrite FY in PJ. lia.
      * lia.
  - destruct (nth_error (tp_thr s) t) as [x|] eqn:T; [|discriminate]. destruct (t_st x) eqn:ST; try discriminate. destruct (t_f x) as [j|] eqn:TF; [|discriminate].
    destruct (gsignal (tp_get s) c) as [gs|] eqn:G; [|discriminate]. injection X as <-. destruct (gsignal_sums _ _ _ G) as [S1 S2].
    set (y := mkThr TWait None).
    assert (Z0 : count_occ Nat.eq_dec (tp_free s) t + sumf (hs t) (tp_get s) = 0).
    { destruct (Nat.eq_dec (count_occ Nat.eq_dec (tp_free s) t + sumf (hs t) (tp_get s)) 0); auto. destruct (I2 t) as (z & Z & N); [lia|]. congruence. }
    split; cbn [tp_thr tp_free tp_get tp_given tp_done].
    + intros u. rewrite S1, count_occ_app. cbn [count_occ]. specialize (I1 u). destruct (Nat.eq_dec t u) as [<-|]; lia.
    + intros u. rewrite S1, count_occ_app. cbn [count_occ]. intros H. rewrite (xset_nth _ _ _ _ _ T). destruct (Nat.eqb_spec u t) as [->|NE].
      * exists y. auto.
      * apply I2. destruct (Nat.eq_dec t u); [congruence|lia].
    + apply (thr_run s t x y I3 T). unfold y. cbn. split; congruence.
    + intros k. pose proof (sumf_set (fj k) (tp_thr s) t y _ T) as P. specialize (I4 k). unfold fj at 2 4, y in P. cbn [t_f] in P. rewrite TF in P. fold y in P.
      rewrite count_occ_app. cbn [count_occ]. destruct (Nat.eq_dec j k) as [->|NE].
      * rewrite Nat.eqb_refl in P. lia.
      * rewrite (proj2 (Nat.eqb_neq j k) NE) in P. lia.
    + rewrite app_length. cbn [length]. pose proof (sumf_set nw (tp_thr s) t y _ T) as P. assert (nw x = 0 /\ nw y = 0) by (unfold nw, y; rewrite ST; auto). lia.
  - destruct (nth_error (tp_get s) i) as [[w|w|w|t| |]|] eqn:E; try discriminate. injection X as <-.
    pose proof (fun u => sumf_set (hs u) (tp_get s) i (GAwk w) _ E) as P1. pose proof (sumf_set sl (tp_get s) i (GAwk w) _ E) as Q1. pose proof (sumf_set aw (tp_get s) i (GAwk w) _ E) as Q2.
    cbn [sl aw hs] in *. split; cbn [with_get tp_thr tp_free tp_get tp_given tp_done]; auto.
    + intros u. specialize (I1 u). specialize (P1 u). lia.
    + intros u H. apply I2. specialize (P1 u). lia.
    + lia.
  - destruct (nth_error (tp_thr s) t) as [x|] eqn:T; [|discriminate]. destruct (t_st x) eqn:ST; try discriminate. injection X as <-.
    set (y := mkThr TAwk (t_f x)).
    split; cbn [tp_thr tp_free tp_get tp_given tp_done]; auto.
    + apply (thr_idle s t x y I2 T). auto.
    + apply (thr_run s t x y I3 T). unfold y. cbn. split; congruence.
    + intros k. pose proof (sumf_set (fj k) (tp_thr s) t y _ T) as P. assert (fj k y = fj k x) by (unfold fj, y; auto). specialize (I4 k). lia.
    + pose proof (sumf_set nw (tp_thr s) t y _ T) as P. assert (nw x = 0 /\ nw y = 0) by (unfold nw, y; rewrite ST; auto). lia.
Qed.
Lemma run_tinv es : forall s s1, tinv s -> trun s es = Some s1 -> tinv s1.
Proof.
  induction es as [|e es IH]; intros s s1 I X; cbn [trun] in X; [injection X as <-; auto|].
  destruct (tstep s e) as [s2|] eqn:E; [|discriminate]. apply (IH s2); auto. eapply step_tinv; eauto.
Qed.

Lemma fj_pending j l : sumf (fj j) l = count_occ Nat.eq_dec (pending l) j.
Proof.
  induction l as [|x l IH]; auto. cbn [sumf pending]. rewrite IH. unfold fj. destruct (t_f x) as [k|]; auto. cbn [count_occ].
  destruct (Nat.eq_dec k j) as [->|NE]; [rewrite Nat.eqb_refl; auto|]. rewrite (proj2 (Nat.eqb_neq k j) NE). auto.
Qed.

(** ** The theorems *)

(** No thread is handed out twice or while it has a job; every job given is done once or
    still with its thread, and that thread is not asleep. *)
Theorem C64_jobs : forall max es s, trun (tp_init max) es = Some s ->
  Permutation (tp_done s ++ pending (tp_thr s)) (tp_given s) /\
  (forall t x, nth_error (tp_thr s) t = Some x -> t_f x <> None -> t_st x <> TWait) /\
  (forall i k t, nth_error (tp_get s) i = Some (GHas t) -> nth_error (tp_get s) k = Some (GHas t) -> i = k) /\
  (forall i t, nth_error (tp_get s) i = Some (GHas t) -> ~ In t (tp_free s) /\ exists x, nth_error (tp_thr s) t = Some x /\ t_f x = None).
Proof.
  intros max es s X. destruct (run_tinv es _ s (init_tinv max) X) as [I1 I2 I3 I4 I5].
  assert (H1 : forall i t, nth_error (tp_get s) i = Some (GHas t) -> 1 <= sumf (hs t) (tp_get s)).
  { intros i t E. apply nth_error_In in E. apply (sumf_in (hs t)) in E. cbn [hs] in E. rewrite Nat.eqb_refl in E. auto. }
  split; [|split; [|split]].
  - apply (Permutation_count_occ Nat.eq_dec). intros j. rewrite count_occ_app, <- fj_pending. auto.
  - intros t x E F. apply (I3 t x E); auto.
  - intros i k t E F. destruct (Nat.eq_dec i k) as [|NE]; auto. exfalso. specialize (I1 t).
    pose proof (sumf_set (hs t) (tp_get s) i GDone _ E) as P. cbn [hs] in P. rewrite Nat.eqb_refl in P.
    assert (F1 : nth_error (xset (tp_get s) i GDone) k = Some (GHas t)).
    { rewrite (xset_nth _ _ _ _ _ E). destruct (Nat.eqb_spec k i); [congruence|auto]. }
    apply nth_error_In in F1. apply (sumf_in (hs t)) in F1. cbn [hs] in F1. rewrite Nat.eqb_refl in F1. lia.
  - intros i t E. specialize (H1 i t E). split; [|apply I2; lia]. intros J. apply (count_occ_In Nat.eq_dec) in J. specialize (I1 t). lia.
Qed.
Print Assumptions C64_jobs.

(** No lost wake-up: while a thread is free and a call sleeps, a call is awake that will
    take one, or a new thread is about to begin and signal. *)
Theorem C64_no_lost_wakeup : forall max es s, trun (tp_init max) es = Some s -> tp_free s <> [] -> getter_sleeps s ->
  getter_awake s \/ thread_begins s.
Proof.
  intros max es s X F [w G]. destruct (run_tinv es _ s (init_tinv max) X) as [I1 I2 I3 I4 I5].
  apply (sumf_in sl) in G. cbn [sl] in G. assert (L : length (tp_free s) > 0) by (destruct (tp_free s); [congruence|cbn; lia]).
  destruct (Nat.eq_dec (sumf aw (tp_get s)) 0) as [Z|Z].
  - right. destruct (sumf_pos nw (tp_thr s)) as (x & J & P); [lia|]. exists x. split; auto. unfold nw in P. destruct (t_st x); auto; lia.
  - left. destruct (sumf_pos aw (tp_get s)) as (g & J & P); [lia|]. destruct g as [| |v| | |]; cbn in P; try lia. exists v. auto.
Qed.
Print Assumptions C64_no_lost_wakeup.

(** Calls without [dowait], as sub_block.cc makes them, do sleep (after adding a thread),
    but never more of them than there are threads about to begin, each of which wakes one. *)
Definition nowait (e : tev) : Prop := match e with PGet w => w = false | _ => True end.
Lemma nowait_inv es : forall s s1, Forall nowait es -> trun s es = Some s1 ->
  Forall (fun g => match g with GAsk w | GSleep w | GAwk w => w = false | _ => True end) (tp_get s) -> sumf sl (tp_get s) <= sumf nw (tp_thr s) ->
  sumf sl (tp_get s1) <= sumf nw (tp_thr s1).
Proof.
  induction es as [|e es IH]; intros s s1 N X W L; cbn [trun] in X; [injection X as <-; auto|]. inversion N as [|? ? N1 N2]; subst.
  destruct (tstep s e) as [s2|] eqn:E; [|discriminate].
  set (wf := fun g => match g with GAsk w | GSleep w | GAwk w => w = false | _ => True end) in *.
  assert (WS : forall gs i g, Forall wf gs -> wf g -> Forall wf (xset gs i g)).
  { induction gs as [|a gs IHg]; intros [|k] g H1 H2; cbn [xset]; auto; inversion H1; subst; constructor; auto. }
  assert (WN : forall gs i g, Forall wf gs -> nth_error gs i = Some g -> wf g) by (intros gs i g H1 H2; rewrite Forall_forall in H1; apply H1; eapply nth_error_In; eauto).
  assert (WG : forall gs c gs1, Forall wf gs -> gsignal gs c = Some gs1 -> Forall wf gs1).
  { intros gs c gs1 H1 H2. destruct (gsignal_spec _ _ _ H2) as [[-> _]|(k & w & H3 & ->)]; auto. apply WS; auto. apply WN in H3; auto. }
  enough (K : Forall wf (tp_get s2) /\ sumf sl (tp_get s2) <= sumf nw (tp_thr s2)) by (destruct K; apply (IH s2); auto). clear IH X N N2.
  assert (GO : forall i w0 ok c, nth_error (tp_get s) i = Some w0 -> sl w0 = 0 -> get_go s i false ok c = Some s2 -> Forall wf (tp_get s2) /\ sumf sl (tp_get s2) <= sumf nw (tp_thr s2)).
  { intros i w0 ok c G Z X. unfold get_go in X. destruct (tp_free s) as [|t r].
    - destruct (((tp_max s =? 0) || (length (tp_thr s) <? tp_max s)) && ok).
      + destruct (gsignal (tp_get s) c) as [gs|] eqn:H; [|discriminate]. injection X as <-. cbn [tp_get tp_thr]. split; [apply WS; [eapply WG; eauto|reflexivity]|].
        pose proof (sumf_set sl gs i (GSleep false) _ (gsignal_other _ _ _ _ _ H G Z)) as P. cbn [sl] in P. rewrite sumf_app. cbn [sumf nw t_st].
        destruct (gsignal_sums _ _ _ H) as [_ S2]. lia.
      + destruct c; [discriminate|]. injection X as <-. cbn [with_get tp_get tp_thr]. split; [apply WS; auto; exact Logic.I|].
        pose proof (sumf_set sl (tp_get s) i GFail _ G) as P. cbn [sl] in P. lia.
    - destruct c; [discriminate|]. injection X as <-. cbn [tp_get tp_thr]. split; [apply WS; auto; exact Logic.I|].
      pose proof (sumf_set sl (tp_get s) i (GHas t) _ G) as P. cbn [sl] in P. lia. }
  destruct e as [w|i ok c|i j|t c|t c|i|t]; cbn [tstep nowait] in E, N1.
  - injection E as <-. cbn [with_get tp_get tp_thr]. split; [apply Forall_app; split; auto|]. rewrite sumf_app. cbn [sumf sl]. lia.
  - destruct (nth_error (tp_get s) i) as [[w|w|w|t| |]|] eqn:G; try discriminate; pose proof (WN _ _ _ W G) as V; cbn in V; subst w; eapply GO; eauto.
  - destruct (nth_error (tp_get s) i) as [[w|w|w|t| |]|] eqn:G; try discriminate. destruct (nth_error (tp_thr s) t) as [x|] eqn:T; [|discriminate]. injection E as <-.
    cbn [tp_get tp_thr]. split; [apply WS; auto; exact Logic.I|]. pose proof (sumf_set sl (tp_get s) i GDone _ G) as P. cbn [sl] in P.
    set (y := mkThr (wake_thr (t_st x)) (Some j)). pose proof (sumf_set nw (tp_thr s) t y _ T) as Q.
    assert (nw y = nw x) by (unfold nw, y; cbn [t_st]; destruct (t_st x); auto). lia.
  - destruct (nth_error (tp_thr s) t) as [x|] eqn:T; [|discriminate]. cbv zeta in E.
    set (y := mkThr (match t_f x with Some _ => TRun | None => TWait end) (t_f x)) in E. pose proof (sumf_set nw (tp_thr s) t y _ T) as Q.
    assert (NY : nw y = 0) by (unfold nw, y; cbn [t_st]; destruct (t_f x); auto). unfold nw at 2 in Q.
    destruct (t_st x) eqn:ST; try discriminate.
    + destruct (gsignal (tp_get s) c) as [gs|] eqn:H; [|discriminate]. injection E as <-. cbn [tp_get tp_thr]. split; [eapply WG; eauto|].
      destruct (gsignal_sums _ _ _ H) as [_ S2]. lia.
    + destruct c; [discriminate|]. injection E as <-. cbn [tp_get tp_thr]. split; auto. lia.
  - destruct (nth_error (tp_thr s) t) as [x|] eqn:T; [|discriminate]. destruct (t_st x) eqn:ST; try discriminate. destruct (t_f x) as [j|]; [|discriminate].
    destruct (gsignal (tp_get s) c) as [gs|] eqn:H; [|discriminate]. injection E as <-. cbn [tp_get tp_thr]. split; [eapply WG; eauto|].
    pose proof (sumf_set nw (tp_thr s) t (mkThr TWait None) _ T) as Q. assert (nw x = 0) by (unfold nw; rewrite ST; auto). cbn [nw t_st] in Q.
    destruct (gsignal_sums _ _ _ H) as [_ S2]. lia.
  - destruct (nth_error (tp_get s) i) as [[w|w|w|t| |]|] eqn:G; try discriminate. injection E as <-. cbn [with_get tp_get tp_thr].
    split; [apply WS; auto; exact (WN _ _ _ W G)|]. pose proof (sumf_set sl (tp_get s) i (GAwk w) _ G) as P. cbn [sl] in P. lia.
  - destruct (nth_error (tp_thr s) t) as [x|] eqn:T; [|discriminate]. destruct (t_st x) eqn:ST; try discriminate. injection E as <-. cbn [tp_get tp_thr].
    split; auto. pose proof (sumf_set nw (tp_thr s) t (mkThr TAwk (t_f x)) _ T) as Q. assert (nw x = 0) by (unfold nw; rewrite ST; auto). cbn [nw t_st] in Q. lia.
Qed.

Theorem C64_nowait : forall max es s, Forall nowait es -> trun (tp_init max) es = Some s -> getter_sleeps s -> thread_begins s.
Proof.
  intros max es s N X [w G]. pose proof (nowait_inv es _ s N X (Forall_nil _) (Nat.le_refl 0)) as L.
  apply (sumf_in sl) in G. cbn [sl] in G. destruct (sumf_pos nw (tp_thr s)) as (x & J & P); [lia|]. exists x. split; auto. unfold nw in P. destruct (t_st x); auto; lia.
Qed.
Print Assumptions C64_nowait.

(** One call adds a thread and sleeps; another takes the thread; the first, woken, gets
    EWOULDBLOCK; the job is done and the thread handed out again. *)
Definition c64_es : list tev :=
  [PGet false; PGo 0 true None; PGet false; PGo 1 true None; PThr 0 (Some 0); PRun 1 42; PGo 0 true None; PThr 0 None; PFin 0 None; PGet false; PGo 2 true None].
Example c64_ex : exists s, trun (tp_init 1) c64_es = Some s /\ tp_done s = [42] /\ tp_get s = [GFail; GDone; GHas 0].
Proof. eexists. split; [vm_compute; reflexivity|]. split; reflexivity. Qed.
Example c64_ex_sleep : exists s, Forall nowait [PGet false; PGo 0 true None] /\ trun (tp_init 1) [PGet false; PGo 0 true None] = Some s /\ getter_sleeps s /\ tp_free s = [0].
Proof. eexists. split; [repeat constructor|]. split; [vm_compute; reflexivity|]. split; [exists false; left; reflexivity|reflexivity]. Qed.
