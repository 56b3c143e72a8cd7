(** Children between pivots. *)
From Verif Require Import Base Bytes LtSpec KOrd PivotModel PivotProofs FtModel.
Open Scope nat_scope.

Section S.
Context {c : bytes -> bytes -> comparison} (ok : cmp_ok c).

Definition in_rng (lo hi : bound) (k : bytes) : Prop :=
  match lo with None => True | Some l => klt c l k end /\
  match hi with None => True | Some h => kle c k h end.

Definition blt (lo hi : bound) : Prop :=
  match lo, hi with Some l, Some h => klt c l h | _, _ => True end.

Lemma blt_trans lo p hi : blt lo (Some p) -> blt (Some p) hi -> blt lo hi.
Proof. destruct lo, hi; cbn; auto. intros. kord ok. Qed.

Definition sub (lo' hi' lo hi : bound) : Prop := forall x, in_rng lo' hi' x -> in_rng lo hi x.
Definition disj (lo' hi' lo hi : bound) : Prop := forall x, in_rng lo' hi' x -> ~ in_rng lo hi x.

Lemma sub_refl lo hi : sub lo hi lo hi.
Proof. intros x H; exact H. Qed.
Lemma sub_trans a b d e f g : sub a b d e -> sub d e f g -> sub a b f g.
Proof. intros H1 H2 x Hx. auto. Qed.
Lemma sub_left lo p hi : blt (Some p) hi -> sub lo (Some p) lo hi.
Proof. intros B x [H1 H2]. split; auto. destruct hi; cbn in *; auto. kord ok. Qed.
Lemma sub_right lo p hi : blt lo (Some p) -> sub (Some p) hi lo hi.
Proof. intros B x [H1 H2]. split; auto. destruct lo; cbn in *; auto. kord ok. Qed.
Lemma disj_left lo p hi : disj lo (Some p) (Some p) hi.
Proof. intros x [H1 H2] [H3 H4]. cbn in *. kord ok. Qed.
Lemma disj_sym a b d e : disj a b d e -> disj d e a b.
Proof. intros H x H1 H2. exact (H x H2 H1). Qed.
Lemma disj_sub a b d e a' b' d' e' : disj a b d e -> sub a' b' a b -> sub d' e' d e -> disj a' b' d' e'.
Proof. intros H S1 S2 x H1 H2. exact (H x (S1 _ H1) (S2 _ H2)). Qed.
Lemma in_rng_keq lo hi x y : keq c x y -> in_rng lo hi x -> in_rng lo hi y.
Proof.
  intros K [H1 H2]. split.
  - destruct lo; auto. kord ok.
  - destruct hi; auto. kord ok.
Qed.

Lemma in_rng_split lo p hi x : blt lo (Some p) -> blt (Some p) hi -> in_rng lo hi x -> in_rng lo (Some p) x \/ in_rng (Some p) hi x.
Proof.
  intros B1 B2 [H1 H2]. destruct (klt_or_kle ok p x).
  - right; split; auto.
  - left; split; auto.
Qed.

Context {C : Type}.
Implicit Types (P Q : bound -> bound -> C -> Prop).

Fixpoint seg_all P (lo hi : bound) (s : seg C) : Prop :=
  match s with
  | One a => blt lo hi /\ P lo hi a
  | Cons a p s => blt lo (Some p) /\ P lo (Some p) a /\ seg_all P (Some p) hi s
  end.

Lemma seg_all_blt P s : forall lo hi, seg_all P lo hi s -> blt lo hi.
Proof.
  induction s; cbn; intros lo hi H.
  - apply H.
  - destruct H as (B & _ & H). eapply blt_trans; eauto.
Qed.

Lemma seg_all_impl P Q s : forall lo hi, seg_all P lo hi s ->
  (forall lo' hi' a, sub lo' hi' lo hi -> P lo' hi' a -> Q lo' hi' a) -> seg_all Q lo hi s.
Proof.
  induction s; cbn; intros lo hi H I.
  - destruct H; split; auto. apply I; auto using sub_refl.
  - destruct H as (B & H & H'). pose proof (seg_all_blt _ _ _ _ H'). split; [|split]; auto.
    + apply I; auto using sub_left.
    + apply IHs; auto. intros. apply I; auto. eapply sub_trans; eauto using sub_right.
Qed.

Lemma seg_all_In P s : forall lo hi a, seg_all P lo hi s -> In a (seg_list s) -> exists lo' hi', sub lo' hi' lo hi /\ P lo' hi' a.
Proof.
  induction s; cbn; intros lo hi x H I.
  - destruct I as [->|[]]. exists lo, hi. split; [apply sub_refl|apply H].
  - destruct H as (B & H & H'). pose proof (seg_all_blt _ _ _ _ H'). destruct I as [->|I].
    + exists lo, (Some p). split; auto using sub_left.
    + destruct (IHs _ _ _ H' I) as (lo' & hi' & S1 & Px). exists lo', hi'. split; auto.
      eapply sub_trans; eauto using sub_right.
Qed.

Lemma seg_app_all P s1 p s2 : forall lo hi, seg_all P lo (Some p) s1 -> seg_all P (Some p) hi s2 -> seg_all P lo hi (seg_app s1 p s2).
Proof.
  induction s1; cbn; intros lo hi H1 H2.
  - tauto.
  - destruct H1 as (B & H & H1). auto.
Qed.

Lemma seg_app_inv P s1 p s2 : forall lo hi, seg_all P lo hi (seg_app s1 p s2) -> seg_all P lo (Some p) s1 /\ seg_all P (Some p) hi s2.
Proof.
  induction s1; cbn; intros lo hi H.
  - tauto.
  - destruct H as (B & H & H1). apply IHs1 in H1. tauto.
Qed.

Lemma seg_list_app (s1 : seg C) p s2 : seg_list (seg_app s1 p s2) = seg_list s1 ++ seg_list s2.
Proof. induction s1; cbn; congruence. Qed.

Lemma seg_list_map {D} (f : C -> D) (s : seg C) : seg_list (seg_map f s) = map f (seg_list s).
Proof. induction s; cbn; congruence. Qed.
Lemma seg_pivots_map {D} (f : C -> D) (s : seg C) : seg_pivots (seg_map f s) = seg_pivots s.
Proof. induction s; cbn; congruence. Qed.

Lemma seg_all_psorted P s : forall lo hi, seg_all P lo hi s -> psorted (c:=c) (seg_pivots s) /\ Forall (fun p => blt lo (Some p) /\ blt (Some p) hi) (seg_pivots s).
Proof.
  induction s; cbn; intros lo hi H.
  - split; constructor.
  - destruct H as (B & _ & H). destruct (IHs _ _ H) as (S1 & F). pose proof (seg_all_blt _ _ _ _ H).
    split.
    + constructor; auto. eapply Forall_impl; [|exact F]. cbn. tauto.
    + constructor; auto. eapply Forall_impl; [|exact F]. cbn. intros q [K1 K2]; split; auto. eapply blt_trans; eauto.
Qed.

(** Replacing one child. *)
Lemma seg_upd_all {R} P (f : bound -> bound -> C -> res (seg C * R)) s : forall lo hi i s' r,
  seg_all P lo hi s -> seg_upd lo hi i f s = Ok (s', r) ->
  exists lo' hi' a sa, nth_error (seg_list s) i = Some a /\ sub lo' hi' lo hi /\ blt lo' hi' /\ P lo' hi' a /\ f lo' hi' a = Ok (sa, r) /\
    (forall b, In b (seg_list s') -> In b (seg_list s) \/ In b (seg_list sa)) /\
    forall Q, (forall lo2 hi2 b, P lo2 hi2 b -> sub lo2 hi2 lo hi -> disj lo' hi' lo2 hi2 -> Q lo2 hi2 b) ->
      seg_all Q lo' hi' sa -> seg_all Q lo hi s'.
Proof.
  induction s; cbn; intros lo hi i s' r H U.
  - destruct i; [|discriminate]. destruct H as (B & H). exists lo, hi, a, s'.
    split; [reflexivity|]. split; [apply sub_refl|]. split; [exact B|]. split; [exact H|]. split; [exact U|]. split; auto.
  - destruct H as (B & H & H'). pose proof (seg_all_blt _ _ _ _ H') as B'. destruct i; cbn in U.
    + destruct (f lo (Some p) a) as [[sa r']| |] eqn:F; try discriminate. injection U as <- <-.
      exists lo, (Some p), a, sa. split; [reflexivity|]. split; [auto using sub_left|]. split; [exact B|]. split; [exact H|]. split; [exact F|].
      split. { intros b. rewrite seg_list_app, in_app_iff. cbn. tauto. }
      intros Q HQ Hsa. apply seg_app_all; auto.
      eapply seg_all_impl; [exact H'|]. intros lo2 hi2 b Sb Pb. apply HQ; auto.
      * eapply sub_trans; eauto using sub_right.
      * eapply disj_sub; [apply disj_left|apply sub_refl|exact Sb].
    + destruct (seg_upd (Some p) hi i f s) as [[s1 r']| |] eqn:F; try discriminate. injection U as <- <-.
      destruct (IHs _ _ _ _ _ H' F) as (lo' & hi' & x & sa & N & S1 & B1 & Px & Fx & IN & K).
      exists lo', hi', x, sa. split; [exact N|]. split; [eapply sub_trans; eauto using sub_right|].
      split; [exact B1|]. split; [exact Px|]. split; [exact Fx|].
      split. { intros b. cbn. intros [->|I]; auto. destruct (IN _ I); auto. }
      intros Q HQ Hsa. cbn. split; [exact B|]. split.
      * apply HQ; auto using sub_left. apply disj_sym. eapply disj_sub; [apply disj_left|apply sub_refl|exact S1].
      * apply K; auto. intros. apply HQ; auto. eapply sub_trans; eauto using sub_right.
Qed.

Lemma seg_upd_fail {R} P (f : bound -> bound -> C -> res (seg C * R)) s : forall lo hi i,
  seg_all P lo hi s -> seg_upd lo hi i f s = Fail ->
  exists lo' hi' a, nth_error (seg_list s) i = Some a /\ sub lo' hi' lo hi /\ blt lo' hi' /\ P lo' hi' a /\ f lo' hi' a = Fail.
Proof.
  induction s; cbn; intros lo hi i H U.
  - destruct i; [|discriminate]. destruct H as (B & H). exists lo, hi, a. auto using sub_refl.
  - destruct H as (B & H & H'). pose proof (seg_all_blt _ _ _ _ H') as B'. destruct i; cbn in U.
    + destruct (f lo (Some p) a) as [[sa r']| |] eqn:F; try discriminate.
      exists lo, (Some p), a. auto using sub_left.
    + destruct (seg_upd (Some p) hi i f s) as [[s1 r']| |] eqn:F; try discriminate.
      destruct (IHs _ _ _ H' F) as (lo' & hi' & x & N1 & S1 & K). exists lo', hi', x. split; auto. split; auto.
      eapply sub_trans; eauto using sub_right.
Qed.

(** The child of a key. *)
Definition at_child P (lo hi : bound) (s : seg C) (i : nat) (lo' hi' : bound) (a : C) : Prop :=
  forall R (f : bound -> bound -> C -> res (seg C * R)),
    match f lo' hi' a with
    | Ok (sa, r) => exists s', seg_upd lo hi i f s = Ok (s', r) /\
        (forall b, In b (seg_list s') -> In b (seg_list s) \/ In b (seg_list sa)) /\
        forall Q, (forall lo2 hi2 b, P lo2 hi2 b -> sub lo2 hi2 lo hi -> disj lo' hi' lo2 hi2 -> Q lo2 hi2 b) ->
          seg_all Q lo' hi' sa -> seg_all Q lo hi s'
    | Block => seg_upd lo hi i f s = Block
    | Fail => seg_upd lo hi i f s = Fail
    end.

Lemma first_true_cons f p pv i : first_true f (p :: pv) i <->
  match i with O => f p = true | S i => f p = false /\ first_true f pv i end.
Proof.
  unfold first_true. destruct i; cbn.
  - split.
    + intros (H1 & H2 & H3). apply (H3 p). reflexivity.
    + intros H. split; [lia|]. split; [intros j q J; lia|]. intros q [= ->]. exact H.
  - split.
    + intros (H1 & H2 & H3). split; [apply (H2 0); [lia|reflexivity]|]. split; [lia|]. split; [|exact H3].
      intros j q J. apply (H2 (S j)). lia.
    + intros (H0 & H1 & H2 & H3). split; [lia|]. split; [|exact H3]. intros [|j] q J; cbn.
      * intros [= ->]. exact H0.
      * apply H2. lia.
Qed.

Lemma seg_upd_key P s : forall lo hi k i, seg_all P lo hi s -> in_rng lo hi k ->
  first_true (fun p => kleb c k p) (seg_pivots s) i ->
  exists lo' hi' a, in_rng lo' hi' k /\ P lo' hi' a /\ blt lo' hi' /\ sub lo' hi' lo hi /\ In a (seg_list s) /\ at_child P lo hi s i lo' hi' a.
Proof.
  induction s; intros lo hi k i H R FT.
  - cbn in H, FT. destruct FT as (H1 & _ & _). assert (i = 0) by (cbn in H1; lia). subst i. destruct H as (B & H).
    exists lo, hi, a. split; [exact R|]. split; [exact H|]. split; [exact B|]. split; [apply sub_refl|]. split; [cbn; auto|].
    intros R0 f. cbn. destruct (f lo hi a) as [[sa r]| |]; try reflexivity. exists sa. split; [reflexivity|]. split; auto.
  - cbn [seg_pivots] in FT. cbn [seg_all] in H. destruct H as (B & H & H'). pose proof (seg_all_blt _ _ _ _ H') as B'.
    apply first_true_cons in FT. destruct i.
    + exists lo, (Some p), a. split; [split; [apply R|kord ok]|]. split; [exact H|]. split; [exact B|]. split; [auto using sub_left|]. split; [cbn; auto|].
      intros R0 f. cbn. destruct (f lo (Some p) a) as [[sa r]| |]; try reflexivity. exists (seg_app sa p s). split; [reflexivity|].
      split. { intros b. rewrite seg_list_app, in_app_iff. tauto. }
      intros Q HQ Hsa. apply seg_app_all; auto.
      eapply seg_all_impl; [exact H'|]. intros lo2 hi2 b Sb Pb. apply HQ; auto.
      * eapply sub_trans; eauto using sub_right.
      * eapply disj_sub; [apply disj_left|apply sub_refl|exact Sb].
    + destruct FT as (F0 & FT). assert (R' : in_rng (Some p) hi k). { split; [cbn; kord ok|apply R]. }
      destruct (IHs _ _ _ _ H' R' FT) as (lo' & hi' & x & R1 & P1 & B1 & S1 & I1 & AC).
      exists lo', hi', x. split; [exact R1|]. split; [exact P1|]. split; [exact B1|]. split; [eapply sub_trans; eauto using sub_right|]. split; [cbn; auto|].
      intros R0 f. specialize (AC R0 f). cbn. destruct (f lo' hi' x) as [[sa r]| |].
      * destruct AC as (s' & -> & IN & K). exists (Cons a p s'). split; [reflexivity|].
        split. { intros b. cbn. intros [->|I]; auto. destruct (IN _ I); auto. }
        intros Q HQ Hsa. cbn. split; [exact B|]. split.
        -- apply HQ; auto using sub_left. apply disj_sym. eapply disj_sub; [apply disj_left|apply sub_refl|exact S1].
        -- apply K; auto. intros. apply HQ; auto. eapply sub_trans; eauto using sub_right.
      * rewrite AC. reflexivity.
      * rewrite AC. reflexivity.
Qed.

Lemma seg_which P s lo hi k : seg_all P lo hi s -> in_rng lo hi k ->
  exists i lo' hi' a, which_child c (seg_pivots s) k = Some i /\ in_rng lo' hi' k /\ P lo' hi' a /\ blt lo' hi' /\ sub lo' hi' lo hi /\ In a (seg_list s) /\ at_child P lo hi s i lo' hi' a.
Proof.
  intros H R. destruct (seg_all_psorted _ _ _ _ H) as (SS & _).
  destruct (which_child_ok ok k _ SS) as (i & W & FT). exists i.
  destruct (seg_upd_key _ _ _ _ _ _ H R FT) as (lo' & hi' & a & K). exists lo', hi', a. tauto.
Qed.

(** The child at an index; the bounds are the pivots on both sides. *)
Definition rng_lo (pv : list bytes) (lo : bound) (i : nat) : bound := match i with O => lo | S j => nth_error pv j end.
Definition rng_hi (pv : list bytes) (hi : bound) (i : nat) : bound := match nth_error pv i with Some p => Some p | None => hi end.

Lemma seg_at P s : forall lo hi i, seg_all P lo hi s -> i <= length (seg_pivots s) ->
  let lo' := rng_lo (seg_pivots s) lo i in let hi' := rng_hi (seg_pivots s) hi i in
  exists a, nth_error (seg_list s) i = Some a /\ P lo' hi' a /\ blt lo' hi' /\ sub lo' hi' lo hi /\ at_child P lo hi s i lo' hi' a.
Proof.
  cbv zeta. induction s; intros lo hi i H LE.
  - cbn in H, LE. assert (i = 0) by lia. subst i. destruct H as (B & H).
    exists a. split; [reflexivity|]. split; [exact H|]. split; [exact B|]. split; [apply sub_refl|].
    intros R0 f. cbn. destruct (f lo hi a) as [[sa r]| |]; try reflexivity. exists sa. split; [reflexivity|]. split; auto.
  - cbn [seg_pivots] in *. cbn [seg_all] in H. destruct H as (B & H & H'). pose proof (seg_all_blt _ _ _ _ H') as B'. destruct i.
    + exists a. split; [reflexivity|]. split; [exact H|]. split; [exact B|]. split; [apply sub_left; exact B'|].
      intros R0 f. cbn. destruct (f lo (Some p) a) as [[sa r]| |]; try reflexivity. exists (seg_app sa p s). split; [reflexivity|].
      split. { intros b. rewrite seg_list_app, in_app_iff. tauto. }
      intros Q HQ Hsa. apply seg_app_all; auto.
      eapply seg_all_impl; [exact H'|]. intros lo2 hi2 b Sb Pb. apply HQ; auto.
      * eapply sub_trans; eauto using sub_right.
      * eapply disj_sub; [apply disj_left|apply sub_refl|exact Sb].
    + cbn [length] in LE. destruct (IHs _ _ i H' ltac:(lia)) as (x & N1 & P1 & B1 & S1 & AC).
      assert (EL : rng_lo (p :: seg_pivots s) lo (S i) = rng_lo (seg_pivots s) (Some p) i) by (destruct i; reflexivity).
      assert (EH : rng_hi (p :: seg_pivots s) hi (S i) = rng_hi (seg_pivots s) hi i) by reflexivity.
      rewrite EL, EH. set (lo' := rng_lo _ _ _) in *. set (hi' := rng_hi _ _ _) in *.
      exists x. split; [exact N1|]. split; [exact P1|]. split; [exact B1|]. split; [eapply sub_trans; eauto using sub_right|].
      intros R0 f. specialize (AC R0 f). cbn. destruct (f lo' hi' x) as [[sa r]| |].
      * destruct AC as (s' & -> & IN & K). exists (Cons a p s'). split; [reflexivity|].
        split. { intros b. cbn. intros [->|I]; auto. destruct (IN _ I); auto. }
        intros Q HQ Hsa. cbn. split; [exact B|]. split.
        -- apply HQ; auto using sub_left. apply disj_sym. eapply disj_sub; [apply disj_left|apply sub_refl|exact S1].
        -- apply K; auto. intros. apply HQ; auto. eapply sub_trans; eauto using sub_right.
      * rewrite AC. reflexivity.
      * rewrite AC. reflexivity.
Qed.

Lemma which_rng lo hi pv i k : in_rng lo hi k -> first_true (fun p => kleb c k p) pv i -> in_rng (rng_lo pv lo i) (rng_hi pv hi i) k.
Proof.
  intros (R1 & R2) (F1 & F2 & F3). unfold rng_lo, rng_hi. split.
  - destruct i as [|j]; [exact R1|]. destruct (nth_error pv j) as [p|] eqn:N; [|exact Logic.I]. specialize (F2 j p ltac:(lia) N). cbn. kord ok.
  - destruct (nth_error pv i) as [p|] eqn:N; [|exact R2]. specialize (F3 p eq_refl). cbn. kord ok.
Qed.
Lemma seg_which_nth P s lo hi k : seg_all P lo hi s -> in_rng lo hi k ->
  exists i lo' hi' a, which_child c (seg_pivots s) k = Some i /\ in_rng lo' hi' k /\ P lo' hi' a /\ blt lo' hi' /\ sub lo' hi' lo hi /\ nth_error (seg_list s) i = Some a /\ at_child P lo hi s i lo' hi' a.
Proof.
  intros H R. destruct (seg_all_psorted _ _ _ _ H) as (SS & _).
  destruct (which_child_ok ok k _ SS) as (i & W & FT).
  destruct (seg_at _ _ _ _ i H (proj1 FT)) as (a & N1 & Pa & B & S & AC). cbv zeta in *.
  exists i, (rng_lo (seg_pivots s) lo i), (rng_hi (seg_pivots s) hi i), a. pose proof (which_rng _ _ _ _ _ R FT). tauto.
Qed.

(** Replacing a child by one child. *)
Lemma seg_upd_nth {R} (f : bound -> bound -> C -> res (seg C * R)) : (forall lo hi a sa r, f lo hi a = Ok (sa, r) -> exists a', sa = One a') ->
  forall s lo hi i s' r, seg_upd lo hi i f s = Ok (s', r) ->
  exists a a' lo' hi', nth_error (seg_list s) i = Some a /\ f lo' hi' a = Ok (One a', r) /\ nth_error (seg_list s') i = Some a'.
Proof.
  intros F. induction s as [a|a p s IH]; intros lo hi i s' r U; destruct i; cbn in U; try discriminate.
  - destruct (F _ _ _ _ _ U) as (a' & ->). exists a, a', lo, hi. auto.
  - destruct (f lo (Some p) a) as [[sa r']| |] eqn:Q; try discriminate. injection U as <- <-. destruct (F _ _ _ _ _ Q) as (a' & ->).
    exists a, a', lo, (Some p). auto.
  - destruct (seg_upd (Some p) hi i f s) as [[s1 r']| |] eqn:Q; try discriminate. injection U as <- <-.
    destruct (IH _ _ _ _ _ Q) as (x & x' & lo' & hi' & K). exists x, x', lo', hi'. exact K.
Qed.

(** Functions that do not look at the bounds. *)
Lemma seg_upd_bounds {R} (g : C -> res (seg C * R)) s : forall lo hi lo2 hi2 i,
  seg_upd lo hi i (fun _ _ a => g a) s = seg_upd lo2 hi2 i (fun _ _ a => g a) s.
Proof.
  induction s; intros; destruct i; cbn; try reflexivity. erewrite IHs. reflexivity.
Qed.

Lemma seg_cut_all P s : forall n lo hi s1 k s2, seg_all P lo hi s -> seg_cut n s = Ok (s1, k, s2) ->
  seg_all P lo (Some k) s1 /\ seg_all P (Some k) hi s2 /\ s = seg_app s1 k s2.
Proof.
  induction s; intros n lo hi s1 k s2 H U; [destruct n; discriminate|]. cbn in H. destruct H as (B & H & H').
  destruct n as [|[|n]]; [discriminate| |]; cbn in U.
  - injection U as <- <- <-. cbn. auto.
  - change (match s with One _ => Block | Cons a0 p0 s0 => _ end) with (seg_cut (S n) s) in U.
    destruct (seg_cut (S n) s) as [[[u v] w]| |] eqn:Q; try discriminate. injection U as <- <- <-.
    destruct (IHs _ _ _ _ _ _ H' Q) as (K1 & K2 & ->). cbn. auto.
Qed.
Lemma seg_cut_fail (s : seg C) : forall n, seg_cut n s <> Fail.
Proof.
  induction s; intros n; [destruct n; discriminate|]. destruct n as [|[|n]]; try discriminate. specialize (IHs (S n)).
  change (seg_cut (S (S n)) (Cons a p s)) with (rdo (s1, k, s2) <- seg_cut (S n) s; Ok (Cons a p s1, k, s2)).
  destruct (seg_cut (S n) s) as [[[]]| |]; congruence.
Qed.

(** Replacing two neighbours. *)
Lemma seg_upd2_all P (f : bound -> bound -> C -> bytes -> C -> res (seg C)) s : forall lo hi i s',
  seg_all P lo hi s -> seg_upd2 lo hi i f s = Ok s' ->
  exists lo' hi' a p b sa, sub lo' hi' lo hi /\ nth_error (seg_list s) i = Some a /\ nth_error (seg_list s) (S i) = Some b /\
    blt lo' (Some p) /\ blt (Some p) hi' /\ P lo' (Some p) a /\ P (Some p) hi' b /\
    f lo' hi' a p b = Ok sa /\
    (forall x, In x (seg_list s') -> In x (seg_list s) \/ In x (seg_list sa)) /\
    forall Q, (forall lo2 hi2 x, P lo2 hi2 x -> sub lo2 hi2 lo hi -> disj lo' hi' lo2 hi2 -> Q lo2 hi2 x) ->
      seg_all Q lo' hi' sa -> seg_all Q lo hi s'.
Proof.
  induction s; intros lo hi i s' H U; [destruct i; discriminate|].
  destruct i.
  - destruct s as [b|b q s]; cbn in U, H.
    + destruct H as (B & H & B' & H'). exists lo, hi, a, p, b, s'. cbn.
      repeat match goal with |- _ /\ _ => split end; auto using sub_refl.
    + destruct H as (B & H & B' & H' & H''). pose proof (seg_all_blt _ _ _ _ H'') as B''.
      destruct (f lo (Some q) a p b) as [sa| |] eqn:F; try discriminate. injection U as <-.
      exists lo, (Some q), a, p, b, sa.
      split; [auto using sub_left|]. split; [cbn; auto|]. split; [cbn; auto|]. split; [exact B|]. split; [exact B'|]. split; [exact H|]. split; [exact H'|]. split; [exact F|].
      split. { intros x. rewrite seg_list_app, in_app_iff. cbn. tauto. }
      intros Q HQ Hsa. apply seg_app_all; auto. eapply seg_all_impl; [exact H''|]. intros lo2 hi2 x Sx Px. apply HQ; auto.
      * eapply sub_trans; [exact Sx|]. apply sub_right. apply (blt_trans _ p); auto.
      * eapply disj_sub; [apply disj_left|apply sub_refl|exact Sx].
  - cbn in H. destruct H as (B & H & H'). pose proof (seg_all_blt _ _ _ _ H') as B'.
    assert (U' : (rdo s' <- seg_upd2 (Some p) hi i f s; Ok (Cons a p s')) = Ok s') by (destruct s; exact U).
    clear U. destruct (seg_upd2 (Some p) hi i f s) as [s1| |] eqn:F; try discriminate. injection U' as <-.
    destruct (IHs _ _ _ _ H' F) as (lo' & hi' & x & q & y & sa & S1 & I1 & I2 & B1 & B2 & P1 & P2 & Fx & IN & K).
    exists lo', hi', x, q, y, sa. split; [eapply sub_trans; eauto using sub_right|].
    split; [cbn; auto|]. split; [cbn; auto|]. split; [exact B1|]. split; [exact B2|]. split; [exact P1|]. split; [exact P2|]. split; [exact Fx|].
    split. { intros z. cbn. intros [->|I]; auto. destruct (IN _ I); auto. }
    intros Q HQ Hsa. cbn. split; [exact B|]. split.
    + apply HQ; auto using sub_left. apply disj_sym. eapply disj_sub; [apply disj_left|apply sub_refl|exact S1].
    + apply K; auto. intros. apply HQ; auto. eapply sub_trans; eauto using sub_right.
Qed.

Lemma seg_upd2_fail P (f : bound -> bound -> C -> bytes -> C -> res (seg C)) s : forall lo hi i,
  seg_all P lo hi s -> seg_upd2 lo hi i f s = Fail ->
  exists lo' hi' a p b, nth_error (seg_list s) i = Some a /\ nth_error (seg_list s) (S i) = Some b /\ sub lo' hi' lo hi /\ blt lo' (Some p) /\ blt (Some p) hi' /\ P lo' (Some p) a /\ P (Some p) hi' b /\
    f lo' hi' a p b = Fail.
Proof.
  induction s; intros lo hi i H U; [destruct i; discriminate|].
  destruct i.
  - destruct s as [b|b q s]; cbn in U, H.
    + destruct H as (B & H & B' & H'). exists lo, hi, a, p, b. repeat match goal with |- _ /\ _ => split end; auto using sub_refl.
    + destruct H as (B & H & B' & H' & H''). pose proof (seg_all_blt _ _ _ _ H'') as B''.
      destruct (f lo (Some q) a p b) as [sa| |] eqn:F; try discriminate.
      exists lo, (Some q), a, p, b. split; [reflexivity|]. split; [reflexivity|]. split; auto using sub_left.
  - cbn in H. destruct H as (B & H & H'). pose proof (seg_all_blt _ _ _ _ H') as B'.
    assert (U' : (rdo s' <- seg_upd2 (Some p) hi i f s; Ok (Cons a p s')) = Fail) by (destruct s; exact U).
    clear U. destruct (seg_upd2 (Some p) hi i f s) as [s1| |] eqn:F; try discriminate.
    destruct (IHs _ _ _ H' F) as (lo' & hi' & x & q & y & N1 & N2 & S1 & K).
    exists lo', hi', x, q, y. split; [exact N1|]. split; [exact N2|]. split; [eapply sub_trans; eauto using sub_right|exact K].
Qed.
End S.
Arguments seg_all c {C} P lo hi s.
Arguments in_rng : clear implicits.
Arguments blt : clear implicits.
Arguments sub : clear implicits.
Arguments disj : clear implicits.

Lemma seg_map_all {c : bytes -> bytes -> comparison} (ok : cmp_ok c) {C D : Type} (P : bound -> bound -> C -> Prop) (Q : bound -> bound -> D -> Prop) (f : C -> D) s lo hi :
  seg_all c P lo hi s ->
  (forall lo' hi' a, sub c lo' hi' lo hi -> P lo' hi' a -> Q lo' hi' (f a)) -> seg_all c Q lo hi (seg_map f s).
Proof.
  revert lo hi. induction s; cbn; intros lo hi H I.
  - destruct H; split; auto. apply I; auto. apply sub_refl.
  - destruct H as (B & H & H'). pose proof (seg_all_blt ok _ _ _ _ H'). split; [|split]; auto.
    + apply I; auto. apply (sub_left ok); auto.
    + apply IHs; auto. intros. apply I; auto. eapply sub_trans; eauto. apply (sub_right ok); auto.
Qed.
