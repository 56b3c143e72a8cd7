(** C59: a partitioned counter is the sum of its increments. *)
From Coq Require Import NArith.
From Verif Require Import Base PctModel.

(** Specification: a counter is a number; handles are given out in order. *)
Definition sst : Type := (nat -> option N) * nat.
Definition spec_init : sst := (fun _ => None, 0).
Definition spec_step (s : sst) (o : pop) : option sst :=
  match o with
  | PCreate => Some (fset (fst s) (snd s) (Some 0%N), S (snd s))
  | PDestroy h => match fst s h with Some _ => Some (fset (fst s) h None, snd s) | None => None end
  | PIncr _ h a => match fst s h with Some v => Some (fset (fst s) h (Some (v + a)%N), snd s) | None => None end
  | PExit _ => Some s
  end.
Fixpoint spec_run (s : sst) (ops : list pop) : option sst :=
  match ops with [] => Some s | o :: r => do s1 <- spec_step s o; spec_run s1 r end.

(** ** Lemmas *)
Lemma fset_eq {A} (f : nat -> A) i x : fset f i x i = x.
Proof. unfold fset. rewrite Nat.eqb_refl. auto. Qed.
Lemma fset_ne {A} (f : nat -> A) i x j : j <> i -> fset f i x j = f j.
Proof. unfold fset. intros H. rewrite (proj2 (Nat.eqb_neq j i) H). auto. Qed.
Lemma lset_len {A} (l : list A) i x : length (lset l i x) = length l.
Proof. revert i. induction l as [|a l IH]; intros [|i]; cbn; auto. Qed.
Lemma lset_nth {A} (l : list A) i x j : i < length l -> nth_error (lset l i x) j = if j =? i then Some x else nth_error l j.
Proof. revert i j. induction l as [|a l IH]; intros [|i] [|j] L; cbn in *; auto; try lia. apply IH. lia. Qed.
Lemma local_lset a k x j : k < length a -> local_of (lset a k x) j = if j =? k then x else local_of a j.
Proof. intros L. unfold local_of. rewrite lset_nth by auto. destruct (j =? k); auto. destruct x; auto. Qed.
Lemma local_len a k x : local_of a k = Some x -> k < length a.
Proof. unfold local_of. intros H. apply nth_error_Some. destruct (nth_error a k); congruence. Qed.
Lemma grow_len a k : k < length (grow a k).
Proof. unfold grow. rewrite app_length, repeat_length. lia. Qed.
Lemma local_grow a k j : local_of (grow a k) j = local_of a j.
Proof.
  unfold local_of, grow. destruct (Nat.lt_ge_cases j (length a)) as [l|l].
  - rewrite nth_error_app1; auto.
  - rewrite nth_error_app2 by auto. rewrite (proj2 (nth_error_None a j) l).
    destruct (nth_error (repeat None _) _) as [[x|]|] eqn:E; auto. apply nth_error_In, repeat_spec in E. discriminate.
Qed.

Definition part (c : lcell) : N := match c with Some (n, _) => n | None => 0%N end.
Fixpoint psum (tla : nat -> list lcell) (k : nat) (ll : list nat) : N :=
  match ll with [] => 0%N | t :: r => (part (local_of (tla t) k) + psum tla k r)%N end.
Lemma psum_ext tla tla1 k ll : (forall t, In t ll -> local_of (tla1 t) k = local_of (tla t) k) -> psum tla1 k ll = psum tla k ll.
Proof. induction ll as [|t r IH]; intros H; cbn [psum]; auto. rewrite H by (left; auto). rewrite IH; auto. intros; apply H; right; auto. Qed.
Lemma psum_remove tla k t ll : NoDup ll ->
  (psum tla k (remove Nat.eq_dec t ll) + (if in_dec Nat.eq_dec t ll then part (local_of (tla t) k) else 0) = psum tla k ll)%N.
Proof.
  induction ll as [|x r IH]; intros D; [reflexivity|]. inversion D as [|? ? X D1]; subst. specialize (IH D1).
  cbn [remove psum]. destruct (Nat.eq_dec t x) as [->|n].
  - destruct (in_dec Nat.eq_dec x (x :: r)) as [_|Y]; [|exfalso; apply Y; left; auto].
    destruct (in_dec Nat.eq_dec x r) as [Y|_]; [contradiction|]. lia.
  - cbn [psum]. destruct (in_dec Nat.eq_dec t (x :: r)) as [Y|Y], (in_dec Nat.eq_dec t r) as [Z|Z]; try lia.
    + destruct Y as [->|Y]; contradiction.
    + exfalso. apply Y. right. auto.
Qed.
Lemma psum_add tla tla1 k t a ll : NoDup ll ->
  (forall x, x <> t -> local_of (tla1 x) k = local_of (tla x) k) ->
  part (local_of (tla1 t) k) = (part (local_of (tla t) k) + a)%N ->
  psum tla1 k ll = (psum tla k ll + (if in_dec Nat.eq_dec t ll then a else 0))%N.
Proof.
  intros D H E. induction ll as [|x r IH]; [reflexivity|]. inversion D as [|? ? X D1]; subst. specialize (IH D1).
  cbn [psum]. rewrite IH. destruct (Nat.eq_dec x t) as [->|n].
  - rewrite E. destruct (in_dec Nat.eq_dec t (t :: r)) as [_|Y]; [|exfalso; apply Y; left; auto].
    destruct (in_dec Nat.eq_dec t r) as [Y|_]; [contradiction|]. lia.
  - rewrite H by auto. destruct (in_dec Nat.eq_dec t (x :: r)) as [Y|Y], (in_dec Nat.eq_dec t r) as [Z|Z]; try lia.
    + destruct Y as [->|Y]; contradiction.
    + exfalso. apply Y. right. auto.
Qed.

Record pinv (s : pst) (m : sst) : Prop := {
  pi_next : ps_next s = snd m;
  pi_bound : forall h, ps_next s <= h -> ps_pc s h = None;
  pi_dead : forall h, ps_pc s h = None -> fst m h = None;
  pi_use : forall h pc, ps_pc s h = Some pc -> nth_error (ps_use s) (pc_key pc) = Some true;
  pi_keys : forall h pc h1 pc1, ps_pc s h = Some pc -> ps_pc s h1 = Some pc1 -> pc_key pc = pc_key pc1 -> h = h1;
  pi_nodup : forall h pc, ps_pc s h = Some pc -> NoDup (pc_ll pc);
  pi_ll : forall h pc t, ps_pc s h = Some pc -> (In t (pc_ll pc) <-> exists n, local_of (ps_tla s t) (pc_key pc) = Some (n, h));
  pi_own : forall t k n h, local_of (ps_tla s t) k = Some (n, h) -> exists pc, ps_pc s h = Some pc /\ pc_key pc = k;
  pi_val : forall h pc, ps_pc s h = Some pc -> fst m h = Some (pc_dead pc + psum (ps_tla s) (pc_key pc) (pc_ll pc))%N }.

Lemma init_pinv : pinv ps_init spec_init.
Proof.
  split; cbn; auto; try discriminate.
  intros t [|k] n h; cbn; discriminate.
Qed.

(** Reading gives the value. *)
Lemma sum_ok tla k ll : forall acc, (forall t, In t ll -> exists x, local_of (tla t) k = Some x) ->
  sum_parts tla k acc ll = Some (acc + psum tla k ll)%N.
Proof.
  induction ll as [|t r IH]; intros acc H; cbn [sum_parts psum]; [f_equal; lia|].
  destruct (H t (or_introl eq_refl)) as [[n h] ->]. cbn [fst part]. rewrite IH by (intros; apply H; right; auto). f_equal. lia.
Qed.
Lemma read_ok s m h : pinv s m -> pc_read s h = fst m h.
Proof.
  intros I. unfold pc_read. destruct (ps_pc s h) as [pc|] eqn:E.
  - rewrite sum_ok; [symmetry; apply (pi_val _ _ I); auto|].
    intros t J. apply (pi_ll _ _ I h pc t E) in J. destruct J as [n J]. eauto.
  - symmetry. apply (pi_dead _ _ I); auto.
Qed.

(** ** Creating *)
Lemma first_free_ok u : forall i, match first_free u i with
  | Some j => exists d, j = i + d /\ nth_error u d = Some false
  | None => forall d, nth_error u d <> Some false end.
Proof.
  induction u as [|[] u IH]; intros i; cbn [first_free].
  - intros [|d]; cbn; discriminate.
  - specialize (IH (S i)). destruct (first_free u (S i)) as [j|].
    + destruct IH as (d & -> & E). exists (S d). split; [lia|auto].
    + intros [|d]; cbn; [discriminate|apply IH].
  - exists 0. split; [lia|auto].
Qed.
Lemma allocate_ok u k u1 : allocate u = (k, u1) ->
  nth_error u k <> Some true /\ nth_error u1 k = Some true /\
  (forall j, nth_error u j = Some true -> nth_error u1 j = Some true).
Proof.
  unfold allocate. pose proof (first_free_ok u 0) as F. destruct (first_free u 0) as [j|]; intros E; injection E as <- <-.
  - destruct F as (d & -> & F). cbn [Nat.add]. assert (d < length u) by (apply nth_error_Some; congruence).
    split; [congruence|]. rewrite lset_nth, Nat.eqb_refl by auto. split; auto.
    intros j J. rewrite lset_nth by auto. destruct (j =? d); auto.
  - split; [rewrite (proj2 (nth_error_None u (length u))); [discriminate|lia]|]. split.
    + rewrite nth_error_app2, Nat.sub_diag by lia. auto.
    + intros j J. rewrite nth_error_app1; auto. apply nth_error_Some. congruence.
Qed.

Lemma create_inv s m : pinv s m -> pinv (pc_create s) (fset (fst m) (snd m) (Some 0%N), S (snd m)).
Proof.
  intros I. unfold pc_create. destruct (allocate (ps_use s)) as [k u] eqn:A. apply allocate_ok in A. destruct A as (A1 & A2 & A3).
  assert (FR : forall t n h, local_of (ps_tla s t) k = Some (n, h) -> False).
  { intros t n h E. destruct (pi_own _ _ I _ _ _ _ E) as (pc & E1 & E2). apply A1. rewrite <- E2. apply (pi_use _ _ I h); auto. }
  assert (NN : ps_pc s (ps_next s) = None) by (apply (pi_bound _ _ I); lia).
  assert (CS : forall h pc, fset (ps_pc s) (ps_next s) (Some (mkPct 0 k [])) h = Some pc ->
    (h = ps_next s /\ pc = mkPct 0 k []) \/ (h <> ps_next s /\ ps_pc s h = Some pc)).
  { intros h pc. unfold fset. destruct (Nat.eqb_spec h (ps_next s)); intros E; [injection E as <-|]; auto. }
  split; cbn [ps_next ps_pc ps_tla ps_use fst snd].
  - f_equal. apply (pi_next _ _ I).
  - intros h L. rewrite fset_ne by lia. apply (pi_bound _ _ I). lia.
  - intros h E. rewrite <- (pi_next _ _ I). unfold fset in *. destruct (h =? ps_next s); [discriminate|]. apply (pi_dead _ _ I); auto.
  - intros h pc E. destruct (CS h pc E) as [[-> ->]|[_ E1]]; auto. apply A3, (pi_use _ _ I h); auto.
  - intros h pc h1 pc1 E E1 K. destruct (CS h pc E) as [[-> ->]|[_ F]], (CS h1 pc1 E1) as [[-> ->]|[_ F1]]; auto; cbn [pc_key] in K.
    + exfalso. apply A1. rewrite K. apply (pi_use _ _ I h1); auto.
    + exfalso. apply A1. rewrite <- K. apply (pi_use _ _ I h); auto.
    + eapply (pi_keys _ _ I); eauto.
  - intros h pc E. destruct (CS h pc E) as [[-> ->]|[_ F]]; [constructor|apply (pi_nodup _ _ I h); auto].
  - intros h pc t E. destruct (CS h pc E) as [[-> ->]|[_ F]]; [|apply (pi_ll _ _ I); auto]. cbn [pc_ll pc_key].
    split; [intros []|]. intros [n E1]. exact (FR _ _ _ E1).
  - intros t k1 n h E. destruct (pi_own _ _ I _ _ _ _ E) as (pc & E1 & E2). exists pc. split; auto.
    rewrite fset_ne; auto. intros ->. congruence.
  - intros h pc E. rewrite <- (pi_next _ _ I). destruct (CS h pc E) as [[-> ->]|[N F]].
    + rewrite fset_eq. reflexivity.
    + rewrite fset_ne by auto. apply (pi_val _ _ I); auto.
Qed.

(** ** Destroying *)
Lemma drop_ok k h ll : forall tla, NoDup ll -> (forall t, In t ll -> exists n, local_of (tla t) k = Some (n, h)) ->
  exists tla1, drop_parts tla k h ll = Some tla1 /\
    forall t j, local_of (tla1 t) j = if (j =? k) && (if in_dec Nat.eq_dec t ll then true else false) then None else local_of (tla t) j.
Proof.
  induction ll as [|t r IH]; intros tla D H.
  - exists tla. split; auto. intros. cbn. rewrite andb_false_r. auto.
  - inversion D as [|? ? X D1]; subst. cbn [drop_parts]. destruct (H t (or_introl eq_refl)) as [n E]. rewrite E. cbn [snd]. rewrite Nat.eqb_refl.
    pose proof (local_len _ _ _ E) as L.
    destruct (IH (fset tla t (lset (tla t) k None)) D1) as (tla1 & E1 & P1).
    { intros x J. rewrite fset_ne by (intros ->; contradiction). apply H. right. auto. }
    exists tla1. split; auto. intros x j. rewrite P1. unfold fset. destruct (Nat.eqb_spec x t) as [->|nx].
    + rewrite local_lset by auto. destruct (in_dec Nat.eq_dec t r); [contradiction|].
      destruct (in_dec Nat.eq_dec t (t :: r)) as [_|Y]; [|exfalso; apply Y; left; auto]. destruct (j =? k); auto.
    + destruct (in_dec Nat.eq_dec x r) as [Y|Y], (in_dec Nat.eq_dec x (t :: r)) as [Z|Z]; auto.
      * exfalso. apply Z. right. auto.
      * destruct Z as [->|Z]; contradiction.
Qed.

Lemma destroy_inv s m h v : pinv s m -> fst m h = Some v ->
  exists s1, pc_destroy s h = Some s1 /\ pinv s1 (fset (fst m) h None, snd m).
Proof.
  intros I V. unfold pc_destroy. destruct (ps_pc s h) as [pc|] eqn:E; [|rewrite (pi_dead _ _ I h E) in V; discriminate].
  destruct (drop_ok (pc_key pc) h (pc_ll pc) (ps_tla s)) as (tla1 & -> & P).
  { apply (pi_nodup _ _ I h); auto. } { intros t J. apply (pi_ll _ _ I h pc t E) in J. auto. }
  rewrite (pi_use _ _ I h pc E). eexists. split; [reflexivity|].
  assert (L : pc_key pc < length (ps_use s)) by (apply nth_error_Some; rewrite (pi_use _ _ I h pc E); discriminate).
  (* the counter's parts are exactly what was at its key *)
  assert (Q : forall t j, local_of (tla1 t) j = if j =? pc_key pc then None else local_of (ps_tla s t) j).
  { intros t j. rewrite P. destruct (Nat.eqb_spec j (pc_key pc)) as [->|n]; auto. cbn [andb].
    destruct (in_dec Nat.eq_dec t (pc_ll pc)) as [Y|Y]; auto.
    destruct (local_of (ps_tla s t) (pc_key pc)) as [[n h1]|] eqn:F; auto.
    destruct (pi_own _ _ I _ _ _ _ F) as (pc1 & F1 & F2). assert (h1 = h) as -> by (eapply (pi_keys _ _ I); eauto).
    exfalso. apply Y, (pi_ll _ _ I h pc t E). eauto. }
  assert (CS : forall h1 pc1, fset (ps_pc s) h None h1 = Some pc1 -> h1 <> h /\ ps_pc s h1 = Some pc1 /\ pc_key pc1 <> pc_key pc).
  { intros h1 pc1. unfold fset. destruct (Nat.eqb_spec h1 h) as [|n]; [discriminate|]. intros F. split; auto. split; auto.
    intros K. apply n. eapply (pi_keys _ _ I); eauto. }
  split; cbn [ps_next ps_pc ps_tla ps_use fst snd].
  - apply (pi_next _ _ I).
  - intros h1 L1. unfold fset. destruct (h1 =? h); auto. apply (pi_bound _ _ I); auto.
  - intros h1 F. unfold fset in *. destruct (h1 =? h); auto. apply (pi_dead _ _ I); auto.
  - intros h1 pc1 F. destruct (CS h1 pc1 F) as (N & F1 & K). rewrite lset_nth, (proj2 (Nat.eqb_neq _ _) K) by auto. apply (pi_use _ _ I h1); auto.
  - intros h1 pc1 h2 pc2 F G K. destruct (CS h1 pc1 F) as (_ & F1 & _), (CS h2 pc2 G) as (_ & G1 & _). eapply (pi_keys _ _ I); eauto.
  - intros h1 pc1 F. destruct (CS h1 pc1 F) as (_ & F1 & _). apply (pi_nodup _ _ I h1); auto.
  - intros h1 pc1 t F. destruct (CS h1 pc1 F) as (_ & F1 & K). rewrite Q, (proj2 (Nat.eqb_neq _ _) K). apply (pi_ll _ _ I); auto.
  - intros t k n h1. rewrite Q. destruct (Nat.eqb_spec k (pc_key pc)) as [|n1]; [discriminate|]. intros F.
    destruct (pi_own _ _ I _ _ _ _ F) as (pc1 & F1 & F2). exists pc1. split; auto. rewrite fset_ne; auto. intros ->. congruence.
  - intros h1 pc1 F. destruct (CS h1 pc1 F) as (N & F1 & K). rewrite fset_ne by auto. rewrite (pi_val _ _ I h1 pc1 F1). do 2 f_equal.
    symmetry. apply psum_ext. intros t _. rewrite Q, (proj2 (Nat.eqb_neq _ _) K). auto.
Qed.

(** ** Incrementing *)
Lemma alloc_inv s m t h pc : pinv s m -> ps_pc s h = Some pc ->
  pinv (get_or_alloc s t h pc) m /\ ps_pc (get_or_alloc s t h pc) h <> None /\
  (exists pc1, ps_pc (get_or_alloc s t h pc) h = Some pc1 /\ pc_key pc1 = pc_key pc) /\
  exists n, local_of (ps_tla (get_or_alloc s t h pc) t) (pc_key pc) = Some (n, h).
Proof.
  intros I E. unfold get_or_alloc. destruct (local_of (ps_tla s t) (pc_key pc)) as [[n h1]|] eqn:F.
  - destruct (pi_own _ _ I _ _ _ _ F) as (pc1 & F1 & F2). assert (h1 = h) as -> by (eapply (pi_keys _ _ I); eauto).
    split; auto. split; [congruence|]. split; eauto.
  - set (k := pc_key pc) in *.
    set (tla1 := fset (ps_tla s) t (lset (grow (ps_tla s t) k) k (Some (0%N, h)))).
    assert (Q : forall x j, local_of (tla1 x) j = if (x =? t) && (j =? k) then Some (0%N, h) else local_of (ps_tla s x) j).
    { intros x j. unfold tla1, fset. destruct (Nat.eqb_spec x t) as [->|]; auto. rewrite local_lset, local_grow by apply grow_len. auto. }
    assert (NI : ~ In t (pc_ll pc)).
    { intros J. apply (pi_ll _ _ I h pc t E) in J. destruct J as [n J]. fold k in J. congruence. }
    assert (CS : forall h1 pc1, fset (ps_pc s) h (Some (mkPct (pc_dead pc) k (t :: pc_ll pc))) h1 = Some pc1 ->
      (h1 = h /\ pc1 = mkPct (pc_dead pc) k (t :: pc_ll pc)) \/ (h1 <> h /\ ps_pc s h1 = Some pc1 /\ pc_key pc1 <> k)).
    { intros h1 pc1. unfold fset. destruct (Nat.eqb_spec h1 h) as [->|n]; intros G; [injection G as <-; auto|]. right. split; auto. split; auto.
      intros K. apply n. eapply (pi_keys _ _ I); eauto. }
    split; [|split; [|split]].
    + split; cbn [ps_next ps_pc ps_tla ps_use fst snd].
      * apply (pi_next _ _ I).
      * intros h1 L. unfold fset. destruct (Nat.eqb_spec h1 h) as [->|n]; [rewrite (pi_bound _ _ I h L) in E; discriminate|apply (pi_bound _ _ I); auto].
      * intros h1 G. unfold fset in G. destruct (h1 =? h); [discriminate|]. apply (pi_dead _ _ I); auto.
      * intros h1 pc1 G. destruct (CS h1 pc1 G) as [[-> ->]|(N & G1 & K)]; [apply (pi_use _ _ I h pc E)|apply (pi_use _ _ I h1); auto].
      * intros h1 pc1 h2 pc2 G G2 K.
        assert (A1 : exists q, ps_pc s h1 = Some q /\ pc_key q = pc_key pc1) by (destruct (CS h1 pc1 G) as [[-> ->]|(N & G1 & _)]; eauto).
        assert (A2 : exists q, ps_pc s h2 = Some q /\ pc_key q = pc_key pc2) by (destruct (CS h2 pc2 G2) as [[-> ->]|(N & G1 & _)]; eauto).
        destruct A1 as (q1 & Q1 & K1), A2 as (q2 & Q2 & K2). eapply (pi_keys _ _ I); eauto. congruence.
      * intros h1 pc1 G. destruct (CS h1 pc1 G) as [[-> ->]|(N & G1 & K)]; [|apply (pi_nodup _ _ I h1); auto].
        constructor; auto. apply (pi_nodup _ _ I h); auto.
      * intros h1 pc1 x G. fold tla1. destruct (CS h1 pc1 G) as [[-> ->]|(N & G1 & K)]; cbn [pc_ll pc_key].
        -- rewrite Q, Nat.eqb_refl, andb_true_r. destruct (Nat.eqb_spec x t) as [->|n].
           ++ split; [intros _; eauto|left; auto].
           ++ cbn [andb]. pose proof (pi_ll _ _ I h pc x E) as LX. fold k in LX. rewrite <- LX. cbn. split; [intros [J|J]; [congruence|auto]|auto].
        -- rewrite Q, (proj2 (Nat.eqb_neq _ _) K), andb_false_r. apply (pi_ll _ _ I); auto.
      * intros x j n h1. fold tla1. rewrite Q. destruct ((x =? t) && (j =? k)) eqn:B; intros G.
        -- injection G as <- <-. apply andb_prop in B. destruct B as [_ B]. apply Nat.eqb_eq in B as ->. exists (mkPct (pc_dead pc) k (t :: pc_ll pc)). rewrite fset_eq. auto.
        -- destruct (pi_own _ _ I _ _ _ _ G) as (pc1 & G1 & G2). destruct (Nat.eq_dec h1 h) as [->|nh].
           ++ exists (mkPct (pc_dead pc) k (t :: pc_ll pc)). rewrite fset_eq. split; auto. cbn [pc_key]. unfold k. congruence.
           ++ exists pc1. rewrite fset_ne by auto. auto.
      * intros h1 pc1 G. fold tla1. destruct (CS h1 pc1 G) as [[-> ->]|(N & G1 & K)]; cbn [pc_ll pc_key pc_dead psum].
        -- rewrite Q, !Nat.eqb_refl. cbn [andb part]. rewrite (pi_val _ _ I h pc E). fold k. f_equal.
           rewrite (psum_ext (ps_tla s) tla1 k (pc_ll pc)); [lia|].
           intros x J. rewrite Q. destruct (Nat.eqb_spec x t) as [->|]; [contradiction|auto].
        -- rewrite (pi_val _ _ I h1 pc1 G1). do 2 f_equal. symmetry. apply psum_ext. intros x _. rewrite Q, (proj2 (Nat.eqb_neq _ _) K), andb_false_r. auto.
    + cbn [ps_pc]. rewrite fset_eq. discriminate.
    + cbn [ps_pc]. rewrite fset_eq. eexists. split; [reflexivity|auto].
    + cbn [ps_tla]. fold tla1. rewrite Q, !Nat.eqb_refl. cbn [andb]. eauto.
Qed.

Lemma add_inv s m t h pc n a v : pinv s m -> ps_pc s h = Some pc -> local_of (ps_tla s t) (pc_key pc) = Some (n, h) -> fst m h = Some v ->
  exists s1, add_local s t (pc_key pc) a = Some s1 /\ pinv s1 (fset (fst m) h (Some (v + a)%N), snd m) /\ ps_pc s1 = ps_pc s /\
    (forall x j, local_of (ps_tla s1 x) j = if (x =? t) && (j =? pc_key pc) then Some ((n + a)%N, h) else local_of (ps_tla s x) j).
Proof.
  intros I E F V. unfold add_local. rewrite F. cbn [fst snd]. set (k := pc_key pc) in *.
  set (tla1 := fset (ps_tla s) t (lset (ps_tla s t) k (Some ((n + a)%N, h)))).
  pose proof (local_len _ _ _ F) as L.
  assert (Q : forall x j, local_of (tla1 x) j = if (x =? t) && (j =? k) then Some ((n + a)%N, h) else local_of (ps_tla s x) j).
  { intros x j. unfold tla1, fset. destruct (Nat.eqb_spec x t) as [->|]; auto. rewrite local_lset by auto. auto. }
  eexists. split; [reflexivity|]. split; [|split; auto].
  split; cbn [ps_next ps_pc ps_tla ps_use fst snd]; try (apply I).
  - intros h1 G. rewrite fset_ne by (intros ->; congruence). apply (pi_dead _ _ I); auto.
  - intros h1 pc1 x G. rewrite (pi_ll _ _ I h1 pc1 x G), Q. destruct ((x =? t) && (pc_key pc1 =? k)) eqn:B; [|reflexivity].
    apply andb_prop in B. destruct B as [B1 B2]. apply Nat.eqb_eq in B1 as ->. apply Nat.eqb_eq in B2. assert (h1 = h) as -> by (eapply (pi_keys _ _ I); eauto).
    rewrite B2, F. split; eauto.
  - intros x j n1 h1. rewrite Q. destruct ((x =? t) && (j =? k)) eqn:B; [|apply (pi_own _ _ I)].
    intros G. injection G as <- <-. apply andb_prop in B. destruct B as [_ B]. apply Nat.eqb_eq in B as ->. eauto.
  - intros h1 pc1 G. destruct (Nat.eq_dec h1 h) as [->|nh].
    + rewrite fset_eq. rewrite E in G. injection G as <-. pose proof (pi_val _ _ I h pc E) as W. rewrite V in W. injection W as W.
      fold k. rewrite (psum_add (ps_tla s) tla1 k t a (pc_ll pc)).
      * destruct (in_dec Nat.eq_dec t (pc_ll pc)) as [_|Y]; [f_equal; fold k in W; lia|]. exfalso. apply Y, (pi_ll _ _ I h pc t E). eauto.
      * apply (pi_nodup _ _ I h); auto.
      * intros x N. rewrite Q, (proj2 (Nat.eqb_neq _ _) N). auto.
      * rewrite Q, !Nat.eqb_refl, F. auto.
    + rewrite fset_ne by auto. rewrite (pi_val _ _ I h1 pc1 G). do 2 f_equal. symmetry. apply psum_ext. intros x _. rewrite Q.
      destruct (Nat.eqb_spec (pc_key pc1) k) as [K|K]; [|rewrite andb_false_r; auto]. exfalso. apply nh. eapply (pi_keys _ _ I); eauto.
Qed.

Lemma incr_inv s m t h a v : pinv s m -> fst m h = Some v ->
  exists s1, pc_incr s t h a = Some s1 /\ pinv s1 (fset (fst m) h (Some (v + a)%N), snd m).
Proof.
  intros I V. unfold pc_incr. destruct (ps_pc s h) as [pc|] eqn:E; [|rewrite (pi_dead _ _ I h E) in V; discriminate].
  destruct (alloc_inv s m t h pc I E) as (I1 & _ & (pc1 & E1 & K) & n & F). rewrite <- K in *.
  destruct (add_inv _ m t h pc1 n a v I1 E1 F V) as (s1 & -> & I2 & _). eauto.
Qed.

(** ** The end of a thread *)
Fixpoint owned (h : nat) (a : list lcell) : N :=
  match a with [] => 0%N | Some (n, h1) :: r => ((if Nat.eqb h1 h then n else 0) + owned h r)%N | None :: r => owned h r end.
Fixpoint owns (h : nat) (a : list lcell) : bool :=
  match a with [] => false | Some (_, h1) :: r => (h1 =? h) || owns h r | None :: r => owns h r end.
Lemma remove_twice t l : remove Nat.eq_dec t (remove Nat.eq_dec t l) = remove Nat.eq_dec t l.
Proof. apply notin_remove, remove_In. Qed.

Lemma merge_ok t a : forall pcs, (forall n h, In (Some (n, h)) a -> pcs h <> None) ->
  exists pcs1, merge_parts pcs t a = Some pcs1 /\
    forall h, pcs1 h = match pcs h with
      | Some pc => Some (mkPct (pc_dead pc + owned h a)%N (pc_key pc) (if owns h a then remove Nat.eq_dec t (pc_ll pc) else pc_ll pc))
      | None => None end.
Proof.
  induction a as [|[[n h]|] r IH]; intros pcs H.
  - exists pcs. split; auto. intros h. cbn. destruct (pcs h) as [[d k l]|]; auto. cbn. rewrite N.add_0_r. auto.
  - cbn [merge_parts]. destruct (pcs h) as [pc|] eqn:E; [|exfalso; apply (H n h); [left; auto|auto]].
    set (pcs2 := fset pcs h _). destruct (IH pcs2) as (pcs1 & -> & P).
    { intros n1 h1 J. unfold pcs2, fset. destruct (h1 =? h); [discriminate|]. apply (H n1). right. auto. }
    exists pcs1. split; auto. intros h1. rewrite P. unfold pcs2, fset. cbn [owned owns].
    rewrite (Nat.eqb_sym h h1). destruct (Nat.eqb_spec h1 h) as [->|nh].
    + rewrite E. cbn [pc_dead pc_key pc_ll orb]. f_equal. f_equal; [lia|]. destruct (owns h r); auto. apply remove_twice.
    + cbn [orb]. rewrite N.add_0_l. auto.
  - cbn [merge_parts owned owns]. apply IH. intros n h J. apply (H n h). right. auto.
Qed.

Lemma owned_none h a : (forall k n, nth_error a k <> Some (Some (n, h))) -> owned h a = 0%N /\ owns h a = false.
Proof.
  induction a as [|[[n h1]|] r IH]; intros H; cbn [owned owns]; auto.
  - destruct (Nat.eqb_spec h1 h) as [->|]; [exfalso; apply (H 0 n); auto|].
    destruct IH as [-> ->]; auto. intros k m. exact (H (S k) m).
  - apply IH. intros k m. exact (H (S k) m).
Qed.
Lemma owned_one h a k : (forall j n, nth_error a j = Some (Some (n, h)) -> j = k) ->
  match local_of a k with
  | Some (n, h1) => if h1 =? h then owned h a = n /\ owns h a = true else owned h a = 0%N /\ owns h a = false
  | None => owned h a = 0%N /\ owns h a = false end.
Proof.
  intros H. unfold local_of. destruct (nth_error a k) as [[[n h1]|]|] eqn:E.
  - destruct (Nat.eqb_spec h1 h) as [->|nh].
    + revert k H E. induction a as [|x r IH]; intros [|k] H E; cbn in E; try discriminate.
      * injection E as ->. cbn [owned owns]. rewrite Nat.eqb_refl. cbn [orb].
        destruct (owned_none h r) as [-> _]; [|split; [lia|auto]]. intros j m J. specialize (H (S j) m J). discriminate.
      * destruct (IH k) as [A B]; auto. { intros j m J. specialize (H (S j) m J). lia. }
        destruct x as [[n1 h1]|]; cbn [owned owns]; auto. destruct (Nat.eqb_spec h1 h) as [->|]; [|cbn [orb]; split; [lia|auto]].
        specialize (H 0 n1 eq_refl). discriminate.
    + apply owned_none. intros j m J. pose proof (H j m J) as ->. congruence.
  - apply owned_none. intros j m J. pose proof (H j m J) as ->. congruence.
  - apply owned_none. intros j m J. pose proof (H j m J) as ->. congruence.
Qed.

Lemma exit_inv s m t : pinv s m -> exists s1, thread_exit s t = Some s1 /\ pinv s1 m.
Proof.
  intros I. unfold thread_exit.
  assert (LO : forall j n h, nth_error (ps_tla s t) j = Some (Some (n, h)) -> local_of (ps_tla s t) j = Some (n, h)).
  { intros j n h E. unfold local_of. rewrite E. auto. }
  destruct (merge_ok t (ps_tla s t) (ps_pc s)) as (pcs & -> & P).
  { intros n h J. apply In_nth_error in J. destruct J as [j J]. destruct (pi_own _ _ I _ _ _ _ (LO _ _ _ J)) as (pc & E & _). congruence. }
  eexists. split; [reflexivity|].
  (* what became of a live counter *)
  assert (W : forall h pc, ps_pc s h = Some pc ->
    owned h (ps_tla s t) = (if in_dec Nat.eq_dec t (pc_ll pc) then part (local_of (ps_tla s t) (pc_key pc)) else 0%N) /\
    owns h (ps_tla s t) = (if in_dec Nat.eq_dec t (pc_ll pc) then true else false)).
  { intros h pc E. pose proof (owned_one h (ps_tla s t) (pc_key pc)) as O.
    assert (U : forall j n, nth_error (ps_tla s t) j = Some (Some (n, h)) -> j = pc_key pc).
    { intros j n J. destruct (pi_own _ _ I _ _ _ _ (LO _ _ _ J)) as (pc1 & E1 & E2). congruence. }
    specialize (O U). pose proof (pi_ll _ _ I h pc t E) as LL.
    destruct (local_of (ps_tla s t) (pc_key pc)) as [[n h1]|] eqn:F.
    - destruct (Nat.eqb_spec h1 h) as [->|nh].
      + destruct (in_dec Nat.eq_dec t (pc_ll pc)) as [Y|Y]; auto. exfalso. apply Y, LL. eauto.
      + destruct (in_dec Nat.eq_dec t (pc_ll pc)) as [Y|Y]; auto. apply LL in Y. destruct Y as [n1 Y]. congruence.
    - destruct (in_dec Nat.eq_dec t (pc_ll pc)) as [Y|Y]; auto. apply LL in Y. destruct Y as [n1 Y]. congruence. }
  assert (CS : forall h pc1, pcs h = Some pc1 -> exists pc, ps_pc s h = Some pc /\ pc_key pc1 = pc_key pc /\
    pc_ll pc1 = remove Nat.eq_dec t (pc_ll pc) /\
    pc_dead pc1 = (pc_dead pc + (if in_dec Nat.eq_dec t (pc_ll pc) then part (local_of (ps_tla s t) (pc_key pc)) else 0))%N).
  { intros h pc1 G. rewrite P in G. destruct (ps_pc s h) as [pc|] eqn:E; [|discriminate]. injection G as <-. exists pc. split; auto.
    destruct (W h pc E) as [W1 W2]. cbn [pc_key pc_ll pc_dead]. rewrite W1, W2. split; auto. split; auto.
    destruct (in_dec Nat.eq_dec t (pc_ll pc)) as [Y|Y]; auto. symmetry. apply notin_remove; auto. }
  assert (Q : forall x j, local_of (fset (ps_tla s) t [] x) j = if x =? t then None else local_of (ps_tla s x) j).
  { intros x j. unfold fset. destruct (x =? t); auto. unfold local_of. destruct j; auto. }
  split; cbn [ps_next ps_pc ps_tla ps_use].
  - apply (pi_next _ _ I).
  - intros h L. rewrite P, (pi_bound _ _ I h L). auto.
  - intros h G. rewrite P in G. destruct (ps_pc s h) eqn:E; [discriminate|]. apply (pi_dead _ _ I); auto.
  - intros h pc1 G. destruct (CS h pc1 G) as (pc & E & -> & _). apply (pi_use _ _ I h); auto.
  - intros h pc1 h2 pc2 G G2 K. destruct (CS h pc1 G) as (pc & E & K1 & _), (CS h2 pc2 G2) as (q & E2 & K2 & _).
    eapply (pi_keys _ _ I); eauto. congruence.
  - intros h pc1 G. destruct (CS h pc1 G) as (pc & E & _ & -> & _). pose proof (pi_nodup _ _ I h pc E) as D.
    clear - D. induction (pc_ll pc) as [|x r IH]; cbn; auto. inversion D as [|? ? X D1]; subst.
    destruct (Nat.eq_dec t x); auto. constructor; auto. intros J. apply in_remove in J. tauto.
  - intros h pc1 x G. destruct (CS h pc1 G) as (pc & E & -> & -> & _). rewrite Q. destruct (Nat.eqb_spec x t) as [->|n].
    + split; [intros J; apply remove_In in J; contradiction|intros [n J]; discriminate].
    + rewrite <- (pi_ll _ _ I h pc x E). split; [intros J; apply in_remove in J; tauto|intros J; apply in_in_remove; auto].
  - intros x k n h. rewrite Q. destruct (x =? t); [discriminate|]. intros G. destruct (pi_own _ _ I _ _ _ _ G) as (pc & E & K).
    rewrite P, E. eexists. split; [reflexivity|]. auto.
  - intros h pc1 G. destruct (CS h pc1 G) as (pc & E & -> & -> & ->). rewrite (pi_val _ _ I h pc E). f_equal.
    pose proof (psum_remove (ps_tla s) (pc_key pc) t (pc_ll pc) (pi_nodup _ _ I h pc E)) as R.
    rewrite (psum_ext (ps_tla s) (fset (ps_tla s) t []) (pc_key pc) (remove Nat.eq_dec t (pc_ll pc))); [lia|].
    intros x J. apply in_remove in J. rewrite fset_ne; tauto.
Qed.

Lemma run_inv ops : forall s m m1, pinv s m -> spec_run m ops = Some m1 -> exists s1, prun s ops = Some s1 /\ pinv s1 m1.
Proof.
  induction ops as [|o ops IH]; intros s m m1 I E; cbn [spec_run prun] in *.
  - injection E as <-. eauto.
  - destruct (spec_step m o) as [m2|] eqn:S; [|discriminate].
    assert (exists s2, pstep s o = Some s2 /\ pinv s2 m2) as (s2 & -> & I2); [|eauto].
    destruct o as [|h|t h a|t]; cbn [spec_step pstep] in *.
    + injection S as <-. eexists. split; [reflexivity|]. apply create_inv; auto.
    + destruct (fst m h) as [v|] eqn:V; [|discriminate]. injection S as <-. eapply destroy_inv; eauto.
    + destruct (fst m h) as [v|] eqn:V; [|discriminate]. injection S as <-. eapply incr_inv; eauto.
    + injection S as <-. apply exit_inv; auto.
Qed.

(** ** The theorems *)

(** Whatever counters are made and destroyed, whoever increments them and whichever
    threads end, as long as only existing counters are used: no dangling pointer is
    followed and no assert fails, and a counter reads as the sum of its increments. *)
Theorem C59_sum : forall ops m, spec_run spec_init ops = Some m ->
  exists s, prun ps_init ops = Some s /\ forall h, pc_read s h = fst m h.
Proof.
  intros ops m E. destruct (run_inv ops ps_init spec_init m init_pinv E) as (s & R & I). exists s. split; auto.
  intros h. apply read_ok; auto.
Qed.
Print Assumptions C59_sum.

(** Reading while others increment: what is read is at least the value when reading
    began and at most the value when it ended. *)
Theorem C59_read_between : forall ops m s h v evs r s1,
  spec_run spec_init ops = Some m -> prun ps_init ops = Some s -> fst m h = Some v ->
  pc_read_run s h evs = Some (r, s1) ->
  exists v1, pc_read s1 h = Some v1 /\ (v <= r <= v1)%N.
Proof.
  intros ops m s h v evs r s1 E R V X. destruct (run_inv ops ps_init spec_init m init_pinv E) as (s' & R' & I).
  rewrite R in R'. injection R' as <-. unfold pc_read_run in X. destruct (ps_pc s h) as [pc|] eqn:P; [|discriminate].
  assert (K : forall evs s m acc ll w, pinv s m -> ps_pc s h = Some pc -> NoDup ll -> fst m h = Some w ->
    (v <= acc + psum (ps_tla s) (pc_key pc) ll <= w)%N ->
    read_run s (pc_key pc) acc ll evs = Some (r, s1) -> exists v1, pc_read s1 h = Some v1 /\ (v <= r <= v1)%N).
  { clear - h. induction evs as [|[[]|[[t h1] a]] evs IH]; intros s m acc ll w I P D W B X; cbn [read_run] in X.
    - destruct ll; [|discriminate]. injection X as <- <-. cbn [psum] in B. exists w. rewrite (read_ok s m h I). split; auto. lia.
    - destruct ll as [|t r0]; [discriminate|]. cbn [psum] in B. inversion D as [|? ? D1 D2]; subst.
      destruct (local_of (ps_tla s t) (pc_key pc)) as [[n h1]|] eqn:F; [|discriminate]. cbn [fst part] in *.
      apply (IH s m (acc + n)%N r0 w); auto. lia.
    - unfold fast_incr in X. destruct (ps_pc s h1) as [pc1|] eqn:P1; [|discriminate].
      destruct (local_of (ps_tla s t) (pc_key pc1)) as [[n h2]|] eqn:F; [|discriminate].
      destruct (pi_own _ _ I _ _ _ _ F) as (pc2 & P2 & K2). assert (h2 = h1) as -> by (eapply (pi_keys _ _ I); eauto).
      destruct (fst m h1) as [w1|] eqn:W1; [|pose proof (pi_val _ _ I h1 pc1 P1); congruence].
      destruct (add_inv s m t h1 pc1 n a w1 I P1 F W1) as (s2 & Q2 & I2 & PC & TL). rewrite Q2 in X.
      rewrite <- PC in P. destruct (Nat.eq_dec h1 h) as [->|nh].
      + rewrite PC in P. rewrite P in P1. injection P1 as <-. rewrite W in W1. injection W1 as <-.
        apply (IH s2 _ acc ll (w + a)%N I2); auto. { rewrite PC. auto. } { cbn [fst]. apply fset_eq. }
        rewrite (psum_add (ps_tla s) (ps_tla s2) (pc_key pc) t a ll); auto.
        * destruct (in_dec Nat.eq_dec t ll); lia.
        * intros x N. rewrite TL, (proj2 (Nat.eqb_neq _ _) N). auto.
        * rewrite TL, !Nat.eqb_refl, F. auto.
      + apply (IH s2 _ acc ll w I2); auto. { cbn [fst]. rewrite fset_ne; auto. }
        rewrite (psum_ext (ps_tla s) (ps_tla s2) (pc_key pc) ll); auto. intros x _. rewrite TL.
        destruct (Nat.eqb_spec (pc_key pc) (pc_key pc1)) as [Z|Z]; [|rewrite andb_false_r; auto].
        exfalso. apply nh. rewrite PC in P. apply (pi_keys _ _ I h1 pc1 h pc); auto. }
  apply (K evs s m (pc_dead pc) (pc_ll pc) v I P); auto.
  - apply (pi_nodup _ _ I h); auto.
  - pose proof (pi_val _ _ I h pc P) as Z. rewrite V in Z. injection Z as Z. lia.
Qed.
Print Assumptions C59_read_between.

(** Two counters, two threads; one thread ends, a counter is destroyed and its key is
    used again by a third. *)
Definition c59_ops : list pop :=
  [PCreate; PCreate; PIncr 0 0 5; PIncr 1 0 7; PIncr 1 1 2; PExit 1; PDestroy 0; PCreate; PIncr 0 2 9; PIncr 1 1 1].
Example c59_ex_spec : option_map (fun m : sst => (fst m 0, fst m 1, fst m 2)) (spec_run spec_init c59_ops) = Some (None, Some 3%N, Some 9%N).
Proof. vm_compute. reflexivity. Qed.
Example c59_ex :
  match prun ps_init c59_ops with
  | Some s => (pc_read s 0, pc_read s 1, pc_read s 2, option_map pc_key (ps_pc s 2)) = (None, Some 3%N, Some 9%N, Some 0)
  | None => False end.
Proof. vm_compute. reflexivity. Qed.
Example c59_ex_read :
  match prun ps_init [PCreate; PIncr 0 0 5; PIncr 1 0 7] with
  | Some s => option_map fst (pc_read_run s 0 [inl tt; inr (1, 0, 10%N); inr (0, 0, 1%N); inl tt]) = Some 13%N
  | None => False end.
Proof. vm_compute. reflexivity. Qed.
