(** Rows of a basement node; what one message does to them. *)
From Verif Require Import Base Bytes LtSpec KOrd LtTreeProofs FtModel FtSpec FtSeg.
From Coq Require Import Sorted.
Open Scope nat_scope.

Section R.
Context {E : env} (ok : cmp_ok (kcmp E)).
Local Notation c := (kcmp E).
Local Notation L := (L E).
Local Notation G := (G E).
Local Notation msg := (gmsg (A E)).
Local Notation rows := (rows E).

Implicit Types (r : rows).

Definition rsorted (r : rows) : Prop := StronglySorted (klt c) (map fst r).
Definition rin (lo hi : bound) (r : rows) : Prop := Forall (fun kv => in_rng c lo hi (fst kv)) r.

Lemma rsorted_cons x v r : rsorted ((x, v) :: r) <-> Forall (fun kv => klt c x (fst kv)) r /\ rsorted r.
Proof.
  unfold rsorted. cbn. split.
  - intros H. inversion H as [|? ? S F]; subst. rewrite Forall_map in F. auto.
  - intros [F S]. constructor; auto. rewrite Forall_map. exact F.
Qed.
Lemma rsorted_nil : rsorted [].
Proof. constructor. Qed.

Lemma rsorted_app r1 r2 : rsorted (r1 ++ r2) <-> rsorted r1 /\ rsorted r2 /\ (forall a b, In a r1 -> In b r2 -> klt c (fst a) (fst b)).
Proof.
  induction r1 as [|[x v] r1 IH]; cbn [app].
  - split; [intros H; split; [apply rsorted_nil|split; [exact H|intros ? ? []]]|tauto].
  - rewrite !rsorted_cons, IH, Forall_app. rewrite !Forall_forall. split.
    + intros ((F1 & F2) & S1 & S2 & K). split; [auto|]. split; [auto|]. intros a b [<-|I] J; cbn; auto.
    + intros ((F1 & S1) & S2 & K). split; [|split; [auto|split; [auto|]]].
      * split; auto. intros b J. apply (K (x, v) b); cbn; auto.
      * intros a b I J. apply K; cbn; auto.
Qed.

Lemma rows_find_none k r : (forall x v, In (x, v) r -> ~ keq c k x) -> rows_find k r = None.
Proof.
  induction r as [|[x v] r IH]; cbn; intros H; [reflexivity|].
  destruct (keqb c k x) eqn:Q.
  - exfalso. apply (H x v); auto. kord ok.
  - apply IH. intros. apply (H x0 v0). auto.
Qed.
Lemma rows_find_gt k r : Forall (fun kv => klt c k (fst kv)) r -> rows_find k r = None.
Proof.
  rewrite Forall_forall. intros F. apply rows_find_none. intros x v I. specialize (F _ I). cbn in F. kord ok.
Qed.
Lemma rows_find_lt k r : Forall (fun kv => klt c (fst kv) k) r -> rows_find k r = None.
Proof.
  rewrite Forall_forall. intros F. apply rows_find_none. intros x v I. specialize (F _ I). cbn in F. kord ok.
Qed.
Lemma rows_find_out lo hi k r : rin lo hi r -> ~ in_rng c lo hi k -> rows_find k r = None.
Proof.
  unfold rin. rewrite Forall_forall. intros F N. apply rows_find_none. intros x v I K. apply N.
  eapply (in_rng_keq ok); [apply (keq_sym ok); exact K|]. apply (F _ I).
Qed.
Lemma rows_find_app k r1 r2 : rows_find k (r1 ++ r2) = match rows_find k r1 with Some v => Some v | None => rows_find k r2 end.
Proof. induction r1 as [|[x v] r1 IH]; cbn; [reflexivity|]. destruct (keqb c k x); auto. Qed.
Lemma rows_find_keq k k' r : keq c k k' -> rows_find k r = rows_find k' r.
Proof.
  intros K. induction r as [|[x v] r IH]; cbn; [reflexivity|]. rewrite IH.
  destruct (keqb c k x) eqn:Q, (keqb c k' x) eqn:Q'; auto; exfalso.
  - apply keqb_false in Q'. apply Q'. apply keqb_true in Q. kord ok.
  - apply keqb_false in Q. apply Q. apply keqb_true in Q'. kord ok.
Qed.

Lemma Forall_lt_trans x y (r : rows) : klt c x y -> Forall (fun kv => klt c y (fst kv)) r -> Forall (fun kv => klt c x (fst kv)) r.
Proof. intros K F. eapply Forall_impl; [|exact F]. cbn. intros a Ha. kord ok. Qed.

Lemma rows_set_Forall (Pk : bytes -> Prop) k v r : Pk k -> Forall (fun kv => Pk (fst kv)) r -> Forall (fun kv => Pk (fst kv)) (rows_set k v r).
Proof.
  intros Hk. induction r as [|[x w] r IH]; cbn; intros F.
  - constructor; auto.
  - inversion F; subst. destruct (c k x); constructor; auto.
Qed.
Lemma rows_set_sorted k v r : rsorted r -> rsorted (rows_set k v r).
Proof.
  induction r as [|[x w] r IH]; cbn; intros S.
  - apply rsorted_cons. split; [constructor|apply rsorted_nil].
  - pose proof S as S'. apply rsorted_cons in S. destruct S as (F & S). destruct (c k x) eqn:Q.
    + apply rsorted_cons. auto.
    + apply rsorted_cons. split; auto. constructor; cbn; auto. eapply Forall_lt_trans; eauto.
    + apply rsorted_cons. split; auto. apply (rows_set_Forall (fun y => klt c x y)); auto. apply (gt_klt ok). exact Q.
Qed.
Lemma rows_find_set k' k v r : rsorted r -> rows_find k' (rows_set k v r) = if keqb c k' k then Some v else rows_find k' r.
Proof.
  induction r as [|[x w] r IH]; cbn; intros S; [reflexivity|].
  apply rsorted_cons in S. destruct S as (F & S). destruct (c k x) eqn:Q.
  - cbn. assert (keq c k x) by exact Q. destruct (keqb c k' x) eqn:Q1, (keqb c k' k) eqn:Q2; auto.
    + exfalso. apply keqb_false in Q2. apply Q2. apply keqb_true in Q1. kord ok.
    + exfalso. apply keqb_false in Q1. apply Q1. apply keqb_true in Q2. kord ok.
  - cbn. reflexivity.
  - cbn. rewrite IH by auto. apply (gt_klt ok) in Q. destruct (keqb c k' x) eqn:Q1; auto.
    destruct (keqb c k' k) eqn:Q2; auto. exfalso. kord ok.
Qed.
Lemma rows_del_sorted k r : rsorted r -> rsorted (rows_del k r).
Proof.
  induction r as [|[x w] r IH]; cbn; intros S; auto. apply rsorted_cons in S. destruct S as (F & S).
  destruct (keqb c k x); auto. apply rsorted_cons. split; auto.
  clear - F. induction r as [|[y u] r IH]; cbn; auto. inversion F; subst. destruct (keqb c k y); auto.
Qed.
Lemma rows_del_Forall (Pk : bytes -> Prop) k r : Forall (fun kv => Pk (fst kv)) r -> Forall (fun kv => Pk (fst kv)) (rows_del k r).
Proof.
  induction r as [|[x w] r IH]; cbn; intros F; auto. inversion F; subst. destruct (keqb c k x); auto.
Qed.
Lemma rows_find_del k' k r : rsorted r -> rows_find k' (rows_del k r) = if keqb c k' k then None else rows_find k' r.
Proof.
  induction r as [|[x w] r IH]; cbn; intros S; [destruct (keqb c k' k); reflexivity|].
  apply rsorted_cons in S. destruct S as (F & S). destruct (keqb c k x) eqn:Q.
  - destruct (keqb c k' k) eqn:Q2.
    + apply rows_find_gt. eapply Forall_impl; [|exact F]. cbn. intros a Ha. kord ok.
    + destruct (keqb c k' x) eqn:Q1; auto. exfalso. apply keqb_false in Q2. apply Q2. apply keqb_true in Q1. kord ok.
  - cbn. rewrite IH by auto. destruct (keqb c k' x) eqn:Q1; auto. destruct (keqb c k' k) eqn:Q2; auto.
    exfalso. apply keqb_false in Q. apply Q. apply keqb_true in Q1. kord ok.
Qed.

Lemma rows_put_sorted k o r : rsorted r -> rsorted (rows_put k o r).
Proof. destruct o; [apply rows_set_sorted|apply rows_del_sorted]. Qed.
Lemma rows_put_rin lo hi k o r : in_rng c lo hi k -> rin lo hi r -> rin lo hi (rows_put k o r).
Proof. destruct o; [apply rows_set_Forall|intros _; apply rows_del_Forall]. Qed.
Lemma rows_find_put k' k o r : rsorted r -> rows_find k' (rows_put k o r) = if keqb c k' k then o else rows_find k' r.
Proof. destruct o; [apply rows_find_set|apply rows_find_del]. Qed.

Lemma rows_each_Forall (Pk : bytes -> Prop) f r : Forall (fun kv => Pk (fst kv)) r -> Forall (fun kv => Pk (fst kv)) (rows_each f r).
Proof.
  induction r as [|[x w] r IH]; cbn; intros F; auto. inversion F; subst. destruct (f w); auto.
Qed.
Lemma rows_each_sorted f r : rsorted r -> rsorted (rows_each f r).
Proof.
  induction r as [|[x w] r IH]; cbn; intros S; auto. apply rsorted_cons in S. destruct S as (F & S).
  destruct (f w); auto. apply rsorted_cons. split; auto. apply (rows_each_Forall (fun y => klt c x y)). auto.
Qed.
Lemma rows_find_each k f r : rsorted r -> rows_find k (rows_each f r) = match rows_find k r with Some v => f v | None => None end.
Proof.
  induction r as [|[x w] r IH]; cbn; intros S; auto. apply rsorted_cons in S. destruct S as (F & S).
  destruct (keqb c k x) eqn:Q.
  - destruct (f w) eqn:Fw.
    + cbn. rewrite Q. reflexivity.
    + apply rows_find_gt. apply (rows_each_Forall (fun y => klt c k y)). eapply Forall_impl; [|exact F]. cbn. intros a Ha. kord ok.
  - destruct (f w); cbn; [rewrite Q|]; auto.
Qed.

(** Keyed messages and their keys. *)
Lemma once_keyed (m : msg) : once m = true <-> keyed m.
Proof. unfold once, keyed. destruct (m_type m); cbn; intuition (try discriminate; auto). Qed.
Lemma concerns_iff k (m : msg) : concerns k m <-> once m = false \/ keq c k (m_key m).
Proof.
  unfold concerns. rewrite <- once_keyed. destruct (once m); intuition discriminate.
Qed.
Lemma concerns_dec k (m : msg) : {concerns k m} + {~ concerns k m}.
Proof.
  destruct (once m) eqn:O.
  - destruct (keqb c k (m_key m)) eqn:Q.
    + left. apply concerns_iff. right. kord ok.
    + right. rewrite concerns_iff. intros [H|H]; [congruence|]. apply keqb_false in Q. auto.
  - left. apply concerns_iff. auto.
Qed.
Lemma concerns_keq k k' (m : msg) : keq c k k' -> concerns k m -> concerns k' m.
Proof. rewrite !concerns_iff. intros K [H|H]; auto. right. kord ok. Qed.

(** Which messages can touch keys of a range. *)
Definition rel (lo hi : bound) (m : msg) : Prop := once m = false \/ in_rng c lo hi (m_key m).
Lemma rel_sub lo' hi' lo hi m : sub c lo' hi' lo hi -> rel lo' hi' m -> rel lo hi m.
Proof. intros S [H|H]; [left|right]; auto. Qed.
Lemma concerns_rel k lo hi m : in_rng c lo hi k -> concerns k m -> rel lo hi m.
Proof. rewrite concerns_iff. intros R [H|H]; [left; auto|right]. eapply (in_rng_keq ok); eauto. Qed.
Lemma in_rngb_iff lo hi k : in_rngb (E:=E) lo hi k = true <-> in_rng c lo hi k.
Proof.
  unfold in_rngb, in_rng. rewrite andb_true_iff. destruct lo as [l|], hi as [h|]; rewrite ?kltb_true, ?kleb_true; intuition.
Qed.
Lemma rel_dec lo hi m : {rel lo hi m} + {~ rel lo hi m}.
Proof.
  destruct (once m) eqn:O; [|left; left; auto].
  destruct (in_rngb (E:=E) lo hi (m_key m)) eqn:Q.
  - left. right. apply in_rngb_iff. exact Q.
  - right. intros [H|H]; [congruence|]. apply in_rngb_iff in H. congruence.
Qed.

(** One message on the rows. *)
Lemma bn_apply_sorted g m (r : rows) : rsorted r -> rsorted (bn_apply_msg g m r).
Proof.
  intros S. unfold bn_apply_msg. destruct (m_type m); auto using rows_put_sorted, rows_each_sorted;
  destruct (rows_find (m_key m) r); auto using rows_put_sorted.
Qed.
Lemma bn_apply_rin lo hi g m (r : rows) : rel lo hi m -> rin lo hi r -> rin lo hi (bn_apply_msg g m r).
Proof.
  intros R S. unfold rel, once in R. unfold bn_apply_msg. destruct (m_type m);
  try (apply (rows_each_Forall (in_rng c lo hi)); exact S);
  (destruct R as [R|R]; [discriminate|]); try (apply rows_put_rin; assumption);
  destruct (rows_find (m_key m) r); auto using rows_put_rin.
Qed.
Lemma bn_apply_find k g m (r : rows) : rsorted r -> concerns k m ->
  rows_find k (bn_apply_msg g m r) = effect g m (rows_find k r).
Proof.
  intros S C. apply concerns_iff in C. unfold once in C. unfold bn_apply_msg, effect.
  destruct (m_type m);
  try (rewrite rows_find_each by auto; destruct (rows_find k r); reflexivity);
  (destruct C as [C|C]; [discriminate|]);
  try (rewrite rows_find_put by auto; rewrite (proj2 (keqb_true _ _) C), (rows_find_keq _ _ _ C); reflexivity);
  rewrite <- (rows_find_keq _ _ _ C);
  (destruct (rows_find k r) eqn:F; [rewrite rows_find_put by auto; rewrite (proj2 (keqb_true _ _) C); reflexivity|exact F]).
Qed.
Lemma bn_apply_other k g m (r : rows) : rsorted r -> ~ concerns k m ->
  rows_find k (bn_apply_msg g m r) = rows_find k r.
Proof.
  intros S C. rewrite concerns_iff in C. unfold once in C. unfold bn_apply_msg.
  destruct (m_type m); try (exfalso; apply C; left; reflexivity);
  (assert (Q : keqb c k (m_key m) = false) by (apply keqb_false; intros K; apply C; right; exact K));
  try (rewrite rows_find_put, Q by auto; reflexivity);
  (destruct (rows_find (m_key m) r); [rewrite rows_find_put, Q by auto|]; reflexivity).
Qed.

(** Cutting rows. *)
Lemma last_key_Some (r : rows) : r <> [] -> exists k v, last_key r = Ok k /\ exists r', r = r' ++ [(k, v)].
Proof.
  intros N. destruct (exists_last N) as (r' & (k & v) & ->). exists k, v. unfold last_key. rewrite rev_app_distr. cbn. split; eauto.
Qed.
Lemma last_key_inv (r : rows) k : last_key r = Ok k -> exists r' v, r = r' ++ [(k, v)].
Proof.
  destruct r as [|x r]; [discriminate|]. intros H. destruct (last_key_Some (x :: r)) as (k' & v & H' & r' & ->); [discriminate|].
  rewrite H in H'. injection H' as ->. eauto.
Qed.
Lemma last_key_fail (r : rows) : last_key r = Fail -> r = [].
Proof.
  destruct r as [|x r]; auto. intros H. destruct (last_key_Some (x :: r)) as (k' & v & H' & _); [discriminate|]. congruence.
Qed.
Lemma last_key_block (r : rows) : last_key r <> Block.
Proof. unfold last_key. destruct (rev r) as [|[]]; discriminate. Qed.
End R.
