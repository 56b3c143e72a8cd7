(** The invariant is kept by every local action. *)
From Verif Require Import Base Bytes LtSpec KOrd LtTreeProofs FtModel FtSpec FtSeg FtRows FtInv FtPut.
From Coq Require Import Sorted.
Open Scope nat_scope.

Section O.
Context {E : env} {TM : timing E} (ok : cmp_ok (kcmp E)).
Local Notation c := (kcmp E).
Local Notation L := (L E).
Local Notation G := (G E).
Local Notation msg := (gmsg (A E)).
Local Notation rows := (rows E).
Local Notation ent := (ent E).
Local Notation slot := (slot E).
Local Notation leaf := (leaf E).
Local Notation tree := (tree E).
Implicit Types (pend : list ent) (t : tree).

Definition outc {X} (r : res X) (P : X -> Prop) : Prop :=
  match r with Ok x => P x | Block => True | Fail => False end.

Lemma outc_impl {X} (r : res X) (P Q : X -> Prop) : outc r P -> (forall x, P x -> Q x) -> outc r Q.
Proof. destruct r; cbn; auto. Qed.

Definition kept (t t' : tree) : Prop :=
  (forall B, mx_lt B t -> mx_lt B t') /\ (forall B, mx_lt B t -> seen_lt B t -> seen_lt B t').

Definition good (f : bound -> bound -> list ent -> tree -> res tree) : Prop :=
  forall H top h lo hi pend t, hist_ok H top -> blt c lo hi -> wf H top h lo hi pend t ->
    outc (f lo hi pend t) (fun t' => wf H top h lo hi pend t' /\ kept t t').

(** The same for an action that may only be taken where [C] holds. *)
Definition goodc (C : hist -> list ent -> tree -> Prop) (f : bound -> bound -> list ent -> tree -> res tree) : Prop :=
  forall H top h lo hi pend t, hist_ok H top -> blt c lo hi -> wf H top h lo hi pend t -> C H pend t ->
    outc (f lo hi pend t) (fun t' => wf H top h lo hi pend t' /\ kept t t').
Lemma good_goodc C f : good f -> goodc C f.
Proof. intros K H top h lo hi pend t HO B W _. apply K; auto. Qed.

Definition child_ok (H : hist) (top : N) (h : nat) (mx : N) pend (lo hi : bound) (x : list ent * tree) : Prop :=
  buf_ok H lo hi mx (fst x) /\ wf H top h lo hi (fst x ++ pend) (snd x).

Lemma seg_all_with_In {C} (P : bound -> bound -> C -> Prop) s : forall lo hi, seg_all c P lo hi s ->
  seg_all c (fun lo hi x => P lo hi x /\ In x (seg_list s)) lo hi s.
Proof.
  induction s; cbn; intros lo hi K.
  - destruct K; auto.
  - destruct K as (B & K & K'). split; [exact B|]. split; [auto|]. eapply (seg_all_impl ok); [apply IHs; exact K'|]. cbn. intuition.
Qed.

(** What holds of a node [t] of [pend], seen from one of its children. *)
Lemma node_child H top h lo hi pend mx lk ch lo' hi' x : wf H top (S h) lo hi pend (TNode mx lk ch) -> In x (seg_list ch) -> sub c lo' hi' lo hi ->
  (forall e, In e pend -> rel lo' hi' (e_msg e) -> (mx < e_msn e)%N /\ mx_lt (e_msn e) (snd x)) /\
  (lk = Chain -> chain_ok lo' hi' pend (snd x)).
Proof.
  intros (T & I & M & CH & S) Ix Sx. split.
  - intros e Ie R. specialize (M e Ie (rel_sub _ _ _ _ _ Sx R)). apply mx_lt_node in M. destruct M as [M1 M2]. auto.
  - intros LK e Ie R. destruct (CH LK e Ie (rel_sub _ _ _ _ _ Sx R)) as (K1 & K2). split; [exact K1|]. rewrite seen_lt_node in K2. auto.
Qed.

Lemma node_repl H top h lo hi pend mx lk ch ch' : wf H top (S h) lo hi pend (TNode mx lk ch) ->
  seg_all c (child_ok H top h mx pend) lo hi ch' ->
  (forall B, (mx < B)%N -> (forall x, In x (seg_list ch) -> mx_lt B (snd x)) -> forall y, In y (seg_list ch') -> mx_lt B (snd y)) ->
  (forall B, (mx < B)%N -> (forall x, In x (seg_list ch) -> mx_lt B (snd x)) -> (forall x, In x (seg_list ch) -> seen_lt B (snd x)) ->
     forall y, In y (seg_list ch') -> seen_lt B (snd y)) ->
  wf H top (S h) lo hi pend (TNode mx lk ch') /\ kept (TNode mx lk ch) (TNode mx lk ch').
Proof.
  intros W S' X1 X2. assert (KP : kept (TNode mx lk ch) (TNode mx lk ch')).
  { split; intros B; rewrite ?mx_lt_node, ?seen_lt_node.
    - intros (K1 & K2). split; [exact K1|]. eauto.
    - intros (K1 & K2) K3. eauto. }
  split; [|exact KP]. destruct W as (T & I & M & CH & S). destruct KP as (KP1 & KP2).
  cbn [wf]. split; [exact T|]. split; [exact I|]. split; [auto|]. split; [|exact S'].
  intros LK e Ie R. destruct (CH LK e Ie R) as (Q1 & Q2). split; auto.
Qed.

Lemma node_upd H top h lo hi pend mx lk ch i (f : bound -> bound -> list ent * tree -> res (seg (list ent * tree) * unit)) :
  wf H top (S h) lo hi pend (TNode mx lk ch) ->
  (forall lo' hi' x, nth_error (seg_list ch) i = Some x -> sub c lo' hi' lo hi -> blt c lo' hi' -> child_ok H top h mx pend lo' hi' x ->
     outc (f lo' hi' x) (fun sr => seg_all c (child_ok H top h mx pend) lo' hi' (fst sr) /\
       forall y, In y (seg_list (fst sr)) -> forall B, (mx < B)%N -> mx_lt B (snd x) -> mx_lt B (snd y) /\ (seen_lt B (snd x) -> seen_lt B (snd y)))) ->
  outc (rdo (ch', _) <- seg_upd lo hi i f ch; Ok (TNode mx lk ch')) (fun t' => wf H top (S h) lo hi pend t' /\ kept (TNode mx lk ch) t').
Proof.
  intros W F. pose proof W as (T & I & M & CH & S). apply seg_all_with_In in S.
  destruct (seg_upd lo hi i f ch) as [[ch' []]| |] eqn:U; cbn; auto.
  - destruct (seg_upd_all ok _ _ _ _ _ _ _ _ S U) as (lo' & hi' & a & sa & N1 & Sa & Ba & (Pa & Ia) & Fa & IN & K).
    specialize (F lo' hi' a N1 Sa Ba Pa). rewrite Fa in F. cbn in F. destruct F as (F1 & F2). apply node_repl; auto.
    + apply K; [|exact F1]. intros lo2 hi2 b (Q & _) _ _. exact Q.
    + intros B LB KB y Iy. destruct (IN y Iy) as [Iy'|Iy']; auto. apply (F2 y Iy' B LB). auto.
    + intros B LB KB KS y Iy. destruct (IN y Iy) as [Iy'|Iy']; auto. apply (F2 y Iy' B LB); auto.
  - destruct (seg_upd_fail ok _ _ _ _ _ _ S U) as (lo' & hi' & a & N1 & Sa & Ba & (Pa & Ia) & Fa).
    specialize (F lo' hi' a N1 Sa Ba Pa). rewrite Fa in F. exact F.
Qed.

Lemma node_upd2 H top h lo hi pend mx lk ch i f :
  wf H top (S h) lo hi pend (TNode mx lk ch) ->
  (forall lo' hi' a p b, nth_error (seg_list ch) i = Some a -> nth_error (seg_list ch) (S i) = Some b -> sub c lo' hi' lo hi -> blt c lo' (Some p) -> blt c (Some p) hi' ->
     child_ok H top h mx pend lo' (Some p) a -> child_ok H top h mx pend (Some p) hi' b ->
     outc (f lo' hi' a p b) (fun s => seg_all c (child_ok H top h mx pend) lo' hi' s /\
       forall y, In y (seg_list s) -> forall B, (mx < B)%N -> mx_lt B (snd a) -> mx_lt B (snd b) -> mx_lt B (snd y) /\ (seen_lt B (snd a) -> seen_lt B (snd b) -> seen_lt B (snd y)))) ->
  outc (rdo ch' <- seg_upd2 lo hi i f ch; Ok (TNode mx lk ch')) (fun t' => wf H top (S h) lo hi pend t' /\ kept (TNode mx lk ch) t').
Proof.
  intros W F. pose proof W as (T & I & M & CH & S). apply seg_all_with_In in S.
  destruct (seg_upd2 lo hi i f ch) as [ch'| |] eqn:U; cbn; auto.
  - destruct (seg_upd2_all ok _ _ _ _ _ _ _ S U) as (lo' & hi' & a & p & b & sa & Sa & N1 & N2 & B1 & B2 & (Pa & Ia) & (Pb & Ib) & Fa & IN & K).
    specialize (F lo' hi' a p b N1 N2 Sa B1 B2 Pa Pb). rewrite Fa in F. cbn in F. destruct F as (F1 & F2). apply node_repl; auto.
    + apply K; [|exact F1]. intros lo2 hi2 x (Q & _) _ _. exact Q.
    + intros B LB KB y Iy. destruct (IN y Iy) as [Iy'|Iy']; auto. apply (F2 y Iy' B LB); auto.
    + intros B LB KB KS y Iy. destruct (IN y Iy) as [Iy'|Iy']; auto. apply (F2 y Iy' B LB); auto.
  - destruct (seg_upd2_fail ok _ _ _ _ _ _ S U) as (lo' & hi' & a & p & b & N1 & N2 & Sa & B1 & B2 & (Pa & Ia) & (Pb & Ib) & Fa).
    specialize (F lo' hi' a p b N1 N2 Sa B1 B2 Pa Pb). rewrite Fa in F. exact F.
Qed.

(** ** Actions deep in the tree *)
Lemma at_path_goodc C f : goodc C f -> forall path,
  goodc (fun H pend t => forall pend' t', node_at path pend t = Some (pend', t') -> C H pend' t') (at_path path f).
Proof.
  intros GF. induction path as [|i path IH].
  - intros H top h lo hi pend t HO B W CC. apply GF; auto.
  - intros H top h lo hi pend [l|mx lk ch] HO B W CC; cbn [at_path]; [exact Logic.I|]. destruct h as [|h]; [contradiction|].
    apply node_upd; auto. intros lo' hi' x Nx Sx Bx (KB & KW).
    specialize (IH H top h lo' hi' (fst x ++ pend) (snd x) HO Bx KW).
    assert (CX : forall pend' t', node_at path (fst x ++ pend) (snd x) = Some (pend', t') -> C H pend' t').
    { intros pend' t' Q. apply CC. cbn [node_at]. rewrite Nx. exact Q. }
    specialize (IH CX). clear CX.
    destruct (at_path path f lo' hi' (fst x ++ pend) (snd x)) as [t'| |]; cbn in *; auto.
    destruct IH as (W' & K1 & K2). split; [split; [exact Bx|split; auto]|].
    intros y [<-|[]] B0 LB MB. cbn. auto.
Qed.
Lemma at_path_good f : good f -> forall path, good (at_path path f).
Proof.
  intros GF path H top h lo hi pend t HO B W. apply (at_path_goodc (fun _ _ _ => True) f); auto. apply good_goodc. exact GF.
Qed.

(** ** Locks *)
Lemma set_lock_kept lk t : kept t (set_lock lk t).
Proof. destruct t; cbn [set_lock]; split; auto. Qed.
Lemma set_lock_wf H top h lo hi pend lk t : wf H top h lo hi pend t -> (lk = Chain -> chain_ok lo hi pend t) -> wf H top h lo hi pend (set_lock lk t).
Proof.
  destruct t as [l|mx lk0 ch], h; cbn [set_lock wf]; auto. intros (T & I & M & CH & S) K. auto.
Qed.
Lemma lock_chain_good : good (fun _ _ pend t => lock_chain pend t).
Proof.
  intros H top h lo hi pend t HO B W. unfold lock_chain.
  destruct (free (lock_of t) && negb (is_leaf t) && is_nil pend) eqn:Q; cbn; auto.
  apply andb_prop in Q. destruct Q as (_ & Q). destruct pend; [|discriminate].
  split; [|apply set_lock_kept]. apply set_lock_wf; auto. intros _ e [].
Qed.
Lemma lock_cleaner_good : good (fun _ _ _ t => lock_cleaner t).
Proof.
  intros H top h lo hi pend t HO B W. unfold lock_cleaner.
  destruct (free (lock_of t) && negb (is_leaf t)) eqn:Q; cbn; auto.
  split; [|apply set_lock_kept]. apply set_lock_wf; auto. discriminate.
Qed.
Lemma unlock_good : good (fun _ _ _ t => unlock t).
Proof.
  intros H top h lo hi pend t HO B W. unfold unlock.
  destruct (negb (free (lock_of t))) eqn:Q; cbn; auto.
  split; [|apply set_lock_kept]. apply set_lock_wf; auto. discriminate.
Qed.

(** ** Flush *)
Lemma free_eq lk : free lk = true -> lk = Free.
Proof. destruct lk; cbn; congruence. Qed.
Lemma nfree_neq lk : negb (free lk) = true -> lk <> Free.
Proof. destruct lk; cbn; congruence. Qed.

Lemma buf_nil H lo hi mx : buf_ok (E:=E) H lo hi mx [].
Proof. split; [constructor|intros e []]. Qed.

(** A child of a locked node is brought into memory and made dirty. *)
Lemma pinned_leaf H top lo hi pend mx lk ch lo' hi' x l : wf H top 1 lo hi pend (TNode mx lk ch) -> lk <> Free ->
  In x (seg_list ch) -> sub c lo' hi' lo hi -> child_ok H top 0 mx pend lo' hi' x -> snd x = TLeaf l ->
  exists l', pin_child lk mx (snd x) = TLeaf l' /\
    leaf_ok H top lo' hi' (fst x ++ pend) pend (Leaf (l_max l') true (l_parts l')) /\
    (forall B, seen_lt B (snd x) -> seen_lt B (TLeaf (Leaf (l_max l') true (l_parts l')))).
Proof.
  intros W NF Ix Sx (KB & KW) EL. destruct (node_child _ _ _ _ _ _ _ _ _ _ _ _ W Ix Sx) as (N1 & N2).
  rewrite EL in *. destruct (pin_leaf lk mx l) as (l' & P1 & P2 & P3). exists l'. split; [exact P1|].
  pose proof (wf_pin ok H top 0 lo' hi' _ lk mx _ KW) as W2. rewrite P1 in W2. split.
  - eapply leaf_dirty; [exact W2|exact P2|]. eapply (pin_ec ok); [exact KW|exact NF| | |exact P1].
    + intros LK e Ie R. destruct (N2 LK e Ie R). auto.
    + intros e Ie R. apply N1; auto.
  - intros B SB. apply (pin_seen B lk mx) in SB. rewrite P1 in SB. exact SB.
Qed.

(** The messages waiting for a child of [t]. *)
Definition buf_fits (g : G) (i : nat) t : Prop :=
  forall mx lk ch x, t = TNode mx lk ch -> nth_error (seg_list ch) i = Some x -> forall e, In e (fst x) -> fits g (e_msn e).

Lemma flush_good g i : goodc (fun _ _ t => buf_fits g i t) (fun lo hi _ t => flush_child g i lo hi t).
Proof.
  intros H top h lo hi pend [l|mx lk ch] HO B W FT; unfold flush_child; [exact Logic.I|]. destruct h as [|h]; [contradiction|].
  destruct (negb (free lk)) eqn:NF; [|exact Logic.I]. apply nfree_neq in NF.
  apply node_upd; auto. intros lo' hi' x Nx Sx Bx KX. pose proof (nth_error_In _ _ Nx) as Ix. pose proof KX as ((KB1 & KB2) & KW).
  destruct (node_child _ _ _ _ _ _ _ _ _ _ _ _ W Ix Sx) as (N1 & N2).
  destruct (free (lock_of (snd x))) eqn:FR; [|exact Logic.I]. apply free_eq in FR.
  assert (LTP : forall e e', In e (fst x) -> In e' pend -> rel lo' hi' (e_msg e') -> (e_msn e < e_msn e')%N).
  { intros e e' Ie Ie' R. destruct (KB2 e Ie) as (_ & _ & Q). destruct (N1 e' Ie' R) as (Q' & _). lia. }
  destruct (snd x) as [l|mx1 lk1 ch1] eqn:EX.
  - destruct h; [|contradiction]. destruct (pinned_leaf H top lo hi pend mx lk ch lo' hi' x l W NF Ix Sx) as (l' & P1 & P2 & P3); auto.
    rewrite EX in P1, P3. rewrite P1. cbn [set_dirty].
    destruct (put_all_leaf ok H top lo' hi' pend g HO (fst x) _ P2 eq_refl KB1) as (l2 & R1 & R2 & R3 & R4); auto.
    { intros e Ie. apply KB2; auto. }
    { intros e Ie. eapply FT; eauto. }
    rewrite R1. cbn. split.
    + split; [exact Bx|]. split; [apply buf_nil|exact R2].
    + intros y [<-|[]] B0 LB MB. split; [exact Logic.I|]. intros SB. apply R4; auto. intros e Ie. destruct (KB2 e Ie) as (_ & _ & Q). lia.
  - destruct h; [contradiction|]. rewrite pin_node. cbn [set_dirty]. cbn in FR. subst lk1.
    destruct (put_all_node ok H top h lo' hi' pend g HO (fst x) mx1 ch1 KW KB1) as (mx2 & ch2 & R1 & R2 & R3 & R4); auto.
    { intros e Ie. apply KB2; auto. }
    rewrite R1. cbn [outc fst seg_list]. split.
    + cbn [seg_all]. split; [exact Bx|]. split; [apply buf_nil|]. cbn [fst snd app]. apply set_lock_wf; [exact R2|].
      intros LK e Ie R. destruct (N2 LK e Ie R) as (Q1 & Q2). split; [exact Q1|]. apply R4. exact Q2.
    + intros y [<-|[]] B0 LB MB. cbn [snd]. split.
      * apply set_lock_kept. apply R3; auto. intros e Ie. destruct (KB2 e Ie) as (_ & _ & Q). lia.
      * intros SB. apply set_lock_kept; [|apply R4; auto]. apply R3; auto. intros e Ie. destruct (KB2 e Ie) as (_ & _ & Q). lia.
Qed.

(** ** Split *)
Definition maxes (P : N -> Prop) (s : list slot) : Prop := forall x b, In x s -> s_mem x = Some b -> P (b_max b).

Lemma view_empty H top lo hi lo' hi' pend b : bn_ok H top lo hi pend b -> sub c lo' hi' lo hi ->
  (forall k, in_rng c lo' hi' k -> rows_find k (b_rows b) = None) ->
  (forall e, In e pend -> rel lo hi (e_msg e) -> (b_max b < e_msn e)%N) -> in_hist H pend -> hist_ok H top ->
  forall k, in_rng c lo' hi' k -> key_ok H k (fun n => mem n pend) None.
Proof.
  intros (V & _) SB NO LT IH HO k Rk. destruct V as (_ & _ & K). specialize (K k (SB k Rk)). rewrite NO in K by auto.
  eapply ko_ext; [exact K|]. intros n m I C. unfold todo. split; [tauto|]. intros M. split; [|exact M]. destruct M as (e & Ie & <-).
  apply LT; auto. rewrite <- (hist_unique _ _ _ _ _ HO I (IH _ Ie)). eapply concerns_rel; eauto.
Qed.

Lemma sorted_firstn n (r : rows) : rsorted r -> rsorted (firstn n r) /\ rsorted (skipn n r).
Proof. intros S. rewrite <- (firstn_skipn n r) in S. apply rsorted_app in S; auto. tauto. Qed.

Lemma bn_sub H top lo hi lo' hi' pend r r' mx fl fl' : bn_ok H top lo hi pend (Bn r mx fl) -> sub c lo' hi' lo hi -> rsorted r' -> rin lo' hi' r' ->
  (forall k, in_rng c lo' hi' k -> rows_find k r' = rows_find k r) -> (fl' = true -> fl = true) -> bn_ok H top lo' hi' pend (Bn r' mx fl').
Proof.
  intros (V & T & F) SB S' I' X FL. split; [eapply view_sub; eauto|]. split; [exact T|]. cbn in *. intros Fl e Ie O R NF. apply F; auto.
Qed.

(** Cutting the rows of one basement node. *)
Lemma rows_cut H top lo hi pend r mx fl n : bn_ok H top lo hi pend (Bn r mx fl) -> 0 < n < length r ->
  exists k, last_key (firstn n r) = Ok k /\ blt c lo (Some k) /\ blt c (Some k) hi /\
    (forall fl', (fl' = true -> fl = true) -> bn_ok H top lo (Some k) pend (Bn (firstn n r) mx fl')) /\
    (forall fl', (fl' = true -> fl = true) -> bn_ok H top (Some k) hi pend (Bn (skipn n r) mx fl')).
Proof.
  intros BO LEN. pose proof BO as ((S & RI & K) & T & F). cbn [b_rows b_max b_flag] in *.
  destruct (last_key_Some (firstn n r)) as (k & v & LK & r' & ER). { intros Q. apply (f_equal (@length _)) in Q. rewrite firstn_length in Q. cbn in Q. lia. }
  exists k. split; [exact LK|].
  pose proof (firstn_skipn n r) as FS. set (r1 := firstn n r) in *. set (r2 := skipn n r) in *.
  assert (N2 : r2 <> []). { intros Q. apply (f_equal (@length _)) in Q. unfold r2 in Q. rewrite skipn_length in Q. cbn in Q. lia. }
  rewrite <- FS in S, RI. apply rsorted_app in S; auto. destruct S as (S1 & S2 & S12).
  unfold rin in RI. rewrite Forall_app in RI. destruct RI as (RI1 & RI2).
  assert (Ik : In (k, v) r1) by (rewrite ER; apply in_or_app; right; cbn; auto).
  assert (Rk : in_rng c lo hi k). { rewrite Forall_forall in RI1. apply (RI1 _ Ik). }
  assert (LE : forall x, In x r1 -> kle c (fst x) k).
  { intros x Ix. rewrite ER in Ix, S1. apply in_app_or in Ix. destruct Ix as [Ix|[<-|[]]]; [|cbn; kord ok].
    apply rsorted_app in S1; auto. destruct S1 as (_ & _ & S1). specialize (S1 x (k, v) Ix (or_introl eq_refl)). cbn in S1. kord ok. }
  assert (GT : forall x, In x r2 -> klt c k (fst x)). { intros x Ix. apply (S12 (k, v) x Ik Ix). }
  assert (B1 : blt c lo (Some k)). { destruct lo; cbn; auto. apply Rk. }
  assert (B2 : blt c (Some k) hi).
  { destruct hi as [h|]; cbn; auto. destruct r2 as [|x r2']; [congruence|]. specialize (GT x (or_introl eq_refl)). pose proof (Forall_inv RI2) as [_ Q]. cbn in Q. kord ok. }
  split; [exact B1|]. split; [exact B2|]. rewrite Forall_forall in RI1, RI2. split; intros fl' FL.
  - eapply bn_sub; [exact BO|apply (sub_left ok); exact B2|exact S1| | |exact FL].
    + apply Forall_forall. intros x Ix. split; [apply (RI1 x Ix)|apply (LE x Ix)].
    + intros q [Q1 Q2]. rewrite <- FS, (rows_find_app q). destruct (rows_find q r1); auto. symmetry. apply (rows_find_gt ok).
      apply Forall_forall. intros x Ix. specialize (GT x Ix). cbn in Q2. kord ok.
  - eapply bn_sub; [exact BO|apply (sub_right ok); exact B1|exact S2| | |exact FL].
    + apply Forall_forall. intros x Ix. split; [apply (GT x Ix)|apply (RI2 x Ix)].
    + intros q [Q1 Q2]. rewrite <- FS, (rows_find_app q). rewrite (rows_find_lt ok q r1); auto.
      apply Forall_forall. intros x Ix. specialize (LE x Ix). cbn in Q1. kord ok.
Qed.

Definition cnt (s : seg slot) (i : nat) : nat := match nth_error (seg_list s) i with Some x => nrows x | None => 0 end.

Lemma slot_dirty_inv H top pend nm lo hi x : slot_ok H top pend nm true lo hi x -> exists b, s_mem x = Some b /\ bn_ok H top lo hi pend b.
Proof. intros [K _]. destruct (s_mem x) as [b|]; [|discriminate]. exists b. split; [auto|apply K]. Qed.
Lemma slot_dirty_mk H top pend nm lo hi b d : bn_ok H top lo hi pend b -> slot_ok H top pend nm true lo hi (Slot (Some b) d).
Proof. intros K. split; [split; [exact K|discriminate]|discriminate]. Qed.
Lemma slot_dirty_mk' H top pend nm lo hi x b : s_mem x = Some b -> bn_ok H top lo hi pend b -> slot_ok H top pend nm true lo hi x.
Proof. intros M K. split; [rewrite M; split; [exact K|discriminate]|discriminate]. Qed.

Lemma leaf_cut_ok H top pend nm : hist_ok H top -> in_hist H pend -> forall s lo hi nb nl,
  seg_all c (slot_ok H top pend nm true) lo hi s ->
  1 <= nb <= length (seg_list s) -> nl <= cnt s (nb - 1) ->
  (nb = length (seg_list s) -> 0 < nl < cnt s (nb - 1) \/
     (hi = None /\ 0 < cnt s (nb - 1) /\ forall e, In e pend -> rel lo hi (e_msg e) -> maxes (fun m => (m < e_msn e)%N) (seg_list s))) ->
  exists s1 k s2, leaf_cut nb nl s = Ok (s1, k, s2) /\
    seg_all c (slot_ok H top pend nm true) lo (Some k) s1 /\ seg_all c (slot_ok H top pend nm true) (Some k) hi s2 /\
    (forall x b, In x (seg_list s1) \/ In x (seg_list s2) -> s_mem x = Some b ->
       (exists y b', In y (seg_list s) /\ s_mem y = Some b' /\ b_max b' = b_max b) \/
       (b_max b = 0%N /\ nb = length (seg_list s) /\ ~ (0 < nl < cnt s (nb - 1)))).
Proof.
  intros HO IH. induction s as [a|a p s IHs]; intros lo hi nb nl K NB NL END.
  - cbn in NB. assert (nb = 1) by lia. subst nb. cbn [seg_all] in K. destruct K as (B & Ka).
    destruct (slot_dirty_inv _ _ _ _ _ _ _ Ka) as (b & M & BO). cbn in NL, END. unfold cnt in NL, END. cbn in NL, END. unfold nrows in NL, END. rewrite M in NL, END.
    specialize (END eq_refl). cbn. rewrite M. rewrite (proj2 (Nat.leb_le _ _) NL).
    destruct ((nl =? 0) || (nl =? length (b_rows b))) eqn:Q.
    + destruct END as [END|(-> & N0 & SEEN)]; [exfalso; apply orb_prop in Q; destruct Q as [Q|Q]; apply Nat.eqb_eq in Q; lia|].
      destruct (last_key_Some (b_rows b)) as (k & v & LK & r' & ER). { destruct (b_rows b); [cbn in N0; lia|discriminate]. }
      rewrite LK. pose proof BO as ((S & RI & KK) & T & F). eexists _, _, _. split; [reflexivity|].
      assert (Ik : In (k, v) (b_rows b)) by (rewrite ER; apply in_or_app; cbn; auto).
      unfold rin in RI. rewrite Forall_forall in RI. pose proof (RI _ Ik) as Rk. cbn in Rk.
      assert (B1 : blt c lo (Some k)). { destruct lo; cbn; auto. apply Rk. }
      assert (LE : forall x, In x (b_rows b) -> kle c (fst x) k).
      { intros x Ix. rewrite ER in Ix, S. apply in_app_or in Ix. destruct Ix as [Ix|[<-|[]]]; [|cbn; kord ok].
        apply rsorted_app in S; auto. destruct S as (_ & _ & S). specialize (S x (k, v) Ix (or_introl eq_refl)). cbn in S. kord ok. }
      cbn [seg_all]. split; [|split].
      * split; [exact B1|]. eapply slot_dirty_mk'; [exact M|]. destruct b as [r mx fl]. cbn in *. eapply bn_sub; [exact BO|apply (sub_left ok); cbn; auto|exact S| |auto|auto].
        apply Forall_forall. intros x Ix. split; [apply (RI x Ix)|apply (LE x Ix)].
      * split; [cbn; auto|]. apply slot_dirty_mk. split; [|split; [cbn; lia|discriminate]]. split; [apply rsorted_nil|]. split; [constructor|].
        intros q Rq. cbn [b_max b_rows rows_find].
        assert (KO : key_ok H q (fun n => mem n pend) None).
        { eapply (view_empty H top lo None (Some k) None pend b BO); eauto.
          - apply (sub_right ok); auto.
          - intros q' [Q1 _]. apply (rows_find_lt ok). apply Forall_forall. intros x Ix. specialize (LE x Ix). cbn in Q1. kord ok.
          - intros e Ie Re. apply (SEEN e Ie Re a b); cbn; auto. }
        eapply ko_ext; [exact KO|]. intros n m I C. unfold todo. split; [|tauto]. intros Mm. split; [|exact Mm]. destruct Mm as (e & Ie & <-).
        assert (b_max b < e_msn e)%N; [|lia]. apply (SEEN e Ie) with (x := a); cbn; auto.
        rewrite <- (hist_unique _ _ _ _ _ HO I (IH _ Ie)). apply (concerns_rel ok q); [apply (sub_right ok lo k None B1); exact Rq|exact C].
      * intros x b0 [[<-|[]]|[<-|[]]] M0; [left; exists a, b0; cbn; auto|]. cbn in M0. injection M0 as <-. right. split; [reflexivity|]. split; [reflexivity|]. unfold cnt. cbn. unfold nrows. rewrite M. apply orb_prop in Q. destruct Q as [Q|Q]; apply Nat.eqb_eq in Q; lia.
    + apply orb_false_iff in Q. destruct Q as (Q1 & Q2). apply Nat.eqb_neq in Q1, Q2. destruct b as [r mx fl]. cbn [b_rows b_max b_flag] in *.
      destruct (rows_cut H top lo hi pend r mx fl nl BO) as (k & LK & B1 & B2 & K1 & K2); [lia|]. rewrite LK.
      eexists _, _, _. split; [reflexivity|]. cbn [seg_all]. split; [|split].
      * split; [exact B1|]. apply slot_dirty_mk. apply K1; auto.
      * split; [exact B2|]. apply slot_dirty_mk. apply K2; congruence.
      * intros x b0 [[<-|[]]|[<-|[]]] M0; cbn in M0; injection M0 as <-; left; exists a, (Bn r mx fl); cbn; auto.
  - cbn [seg_all] in K. destruct K as (B & Ka & Ks). pose proof (seg_all_blt ok _ _ _ _ Ks) as Bp. cbn [seg_list length] in NB.
    destruct nb as [|[|nb]]; [lia| |].
    + destruct (slot_dirty_inv _ _ _ _ _ _ _ Ka) as (b & M & BO). cbn in NL. unfold cnt in NL. cbn in NL. unfold nrows in NL. rewrite M in NL.
      cbn. rewrite M. rewrite (proj2 (Nat.leb_le _ _) NL).
      destruct ((nl =? 0) || (nl =? length (b_rows b))) eqn:Q.
      * exists (One a), p, s. split; [reflexivity|]. cbn [seg_all]. split; [auto|]. split; [exact Ks|].
        intros x b0 I M0. left. exists x, b0. cbn in I. cbn. intuition.
      * apply orb_false_iff in Q. destruct Q as (Q1 & Q2). apply Nat.eqb_neq in Q1, Q2. destruct b as [r mx fl]. cbn [b_rows b_max b_flag] in *.
        destruct (rows_cut H top lo (Some p) pend r mx fl nl BO) as (k & LK & B1 & B2 & K1 & K2); [lia|]. rewrite LK.
        eexists _, _, _. split; [reflexivity|]. cbn [seg_all]. split; [|split].
        -- split; [exact B1|]. apply slot_dirty_mk. apply K1; auto.
        -- split; [exact B2|]. split; [|exact Ks]. apply slot_dirty_mk. apply K2; congruence.
        -- intros x b0 I M0. cbn in I. left. destruct I as [[<-|[]]|[<-|I]].
           ++ cbn in M0; injection M0 as <-; exists a, (Bn r mx fl); cbn; auto.
           ++ cbn in M0; injection M0 as <-; exists a, (Bn r mx fl); cbn; auto.
           ++ exists x, b0. cbn. auto.
    + assert (C1 : cnt (Cons a p s) (S (S nb) - 1) = cnt s (S nb - 1)). { unfold cnt. cbn. rewrite Nat.sub_0_r. reflexivity. }
      rewrite C1 in NL, END. change (leaf_cut (S (S nb)) nl (Cons a p s)) with (rdo (s1, k, s2) <- leaf_cut (S nb) nl s; Ok (Cons a p s1, k, s2)).
      destruct (IHs (Some p) hi (S nb) nl Ks) as (s1 & k & s2 & LC & K1 & K2 & K3).
      * lia.
      * exact NL.
      * intros EN. destruct END as [END|(Q1 & Q2 & Q3)]; [cbn; lia|left; exact END|right]. split; [exact Q1|]. split; [exact Q2|].
        intros e Ie Re x b Ix. apply (Q3 e Ie); cbn; auto. eapply rel_sub; [|exact Re]. apply (sub_right ok); auto.
      * rewrite LC. eexists _, _, _. split; [reflexivity|]. cbn [seg_all]. split; [auto|]. split; [exact K2|].
        intros x b I M0. cbn in I. assert (I' : x = a \/ (In x (seg_list s1) \/ In x (seg_list s2))) by intuition.
        destruct I' as [->|I']; [left; exists a, b; cbn; auto|]. destruct (K3 x b I' M0) as [(y & b' & Iy & Q)|(Q1 & Q2)].
        -- left. exists y, b'. cbn. auto.
        -- right. split; [exact Q1|]. rewrite C1. cbn [seg_list length]. destruct Q2. split; [lia|auto].
Qed.

Lemma split_loc_eq w s : split_loc w s =
  let n := length (seg_list s) in
  match w with
  | SLeftHeavy => if cnt s (n - 1) =? 0 then Ok (n - 1, cnt s (n - 2)) else Ok (n, cnt s (n - 1))
  | SRightHeavy => Ok (1, if cnt s 0 =? 0 then 0 else 1)
  | SEvenly i j =>
    when (i <? n) && (j <? cnt s i);
    if (S i =? n) && (S j =? cnt s i) then
      if 1 <? S j then Ok (S i, j)
      else if 1 <? S i then Ok (i, cnt s (i - 1))
      else Fail
    else Ok (S i, S j)
  end.
Proof. reflexivity. Qed.

Lemma seg_len {C} (s : seg C) : 1 <= length (seg_list s).
Proof. destruct s; cbn; lia. Qed.
Lemma one_rows (s : seg slot) : length (seg_list s) = 1 -> length (all_rows s) = cnt s 0.
Proof.
  destruct s as [a|a p s]; cbn; intros Q.
  - unfold all_rows, cnt. cbn. rewrite app_nil_r. unfold nrows. destruct (s_mem a); reflexivity.
  - pose proof (seg_len s). lia.
Qed.

Lemma split_loc_ok w s : 1 < length (all_rows s) ->
  outc (split_loc w s) (fun p => 1 <= fst p <= length (seg_list s) /\ snd p <= cnt s (fst p - 1) /\
    (fst p = length (seg_list s) -> 0 < snd p < cnt s (fst p - 1) \/ (w = SLeftHeavy /\ 0 < cnt s (fst p - 1)))).
Proof.
  intros LEN. rewrite split_loc_eq. cbv zeta. pose proof (seg_len s) as N1. pose proof (one_rows s) as OR.
  destruct w as [| |i j].
  - destruct (Nat.eqb_spec (cnt s (length (seg_list s) - 1)) 0); cbn [outc fst snd].
    + assert (length (seg_list s) <> 1). { intros Q. rewrite Q in *. cbn in *. specialize (OR eq_refl). lia. }
      replace (length (seg_list s) - 1 - 1) with (length (seg_list s) - 2) by lia. lia.
    + split; [lia|]. split; [lia|]. intros _. right. split; [reflexivity|lia].
  - cbn [outc fst snd]. destruct (Nat.eqb_spec (cnt s 0) 0); cbn.
    + split; [lia|]. split; [lia|]. intros Q. specialize (OR (eq_sym Q)). lia.
    + split; [lia|]. split; [lia|]. intros Q. specialize (OR (eq_sym Q)). lia.
  - destruct (Nat.ltb_spec i (length (seg_list s))); cbn [andb outc]; auto. destruct (Nat.ltb_spec j (cnt s i)); cbn [outc]; auto.
    destruct (Nat.eqb_spec (S i) (length (seg_list s))) as [Q|Q]; cbn [andb].
    + destruct (Nat.eqb_spec (S j) (cnt s i)).
      * destruct (Nat.ltb_spec 1 (S j)); cbn [outc fst snd].
        -- replace (S i - 1) with i by lia. lia.
        -- destruct (Nat.ltb_spec 1 (S i)); cbn [outc fst snd]; [lia|]. assert (i = 0) by lia. subst i. rewrite <- Q in OR. specialize (OR eq_refl). lia.
      * cbn [outc fst snd]. replace (S i - 1) with i by lia. lia.
    + cbn [outc fst snd]. replace (S i - 1) with i by lia. lia.
Qed.

Lemma ec_all lo hi pend s : (forall e, In e pend -> rel lo hi (e_msg e) -> maxes (fun m => (m < e_msn e)%N) s) -> ec lo hi pend s.
Proof. intros K e Ie R. right. intros x b Ix M. exact (K e Ie R x b Ix M). Qed.

Lemma leaf_split_ok H top pend nm w s lo hi : hist_ok H top -> in_hist H pend ->
  seg_all c (slot_ok H top pend nm true) lo hi s -> ec lo hi pend (seg_list s) ->
  (w = SLeftHeavy -> hi = None /\ forall e, In e pend -> rel lo hi (e_msg e) -> maxes (fun m => (m < e_msn e)%N) (seg_list s)) ->
  outc (leaf_split w s) (fun r => let '(s1, k, s2) := r in
    blt c lo (Some k) /\ blt c (Some k) hi /\
    seg_all c (slot_ok H top pend nm true) lo (Some k) s1 /\ seg_all c (slot_ok H top pend nm true) (Some k) hi s2 /\
    ec lo (Some k) pend (seg_list s1) /\ ec (Some k) hi pend (seg_list s2) /\
    (forall B, (0 < B)%N -> maxes (fun m => (m < B)%N) (seg_list s) -> maxes (fun m => (m < B)%N) (seg_list s1) /\ maxes (fun m => (m < B)%N) (seg_list s2))).
Proof.
  intros HO IH K EC LH. unfold leaf_split. destruct (Nat.ltb_spec 1 (length (all_rows s))) as [LEN|]; [|exact Logic.I].
  pose proof (split_loc_ok w s LEN) as SL. destruct (split_loc w s) as [[nb nl]| |]; [|exact Logic.I|contradiction].
  cbn [outc fst snd] in SL. destruct SL as (NB & NL & END).
  destruct (leaf_cut_ok H top pend nm HO IH s lo hi nb nl K NB NL) as (s1 & k & s2 & LC & K1 & K2 & K3).
  { intros Q. destruct (END Q) as [|(-> & Q2)]; [auto|right]. destruct (LH eq_refl). auto. }
  rewrite LC. cbn [outc]. pose proof (seg_all_blt ok _ _ _ _ K1) as B1. pose proof (seg_all_blt ok _ _ _ _ K2) as B2.
  split; [exact B1|]. split; [exact B2|]. split; [exact K1|]. split; [exact K2|].
  assert (K4 : forall x b, In x (seg_list s1) \/ In x (seg_list s2) -> s_mem x = Some b ->
     (exists y b', In y (seg_list s) /\ s_mem y = Some b' /\ b_max b' = b_max b) \/
     (b_max b = 0%N /\ forall e, In e pend -> rel lo hi (e_msg e) -> maxes (fun m => (m < e_msn e)%N) (seg_list s))).
  { intros x b Ix M. destruct (K3 x b Ix M) as [|(Q1 & Q2 & Q3)]; [auto|right]. split; [exact Q1|]. destruct (END Q2) as [Q|(Q & _)]; [contradiction|]. apply LH; auto. }
  assert (NE : exists x b, In x (seg_list s) /\ s_mem x = Some b).
  { destruct s as [a|a p s]; cbn in K.
    - destruct K as (_ & Ka). destruct (slot_dirty_inv _ _ _ _ _ _ _ Ka) as (b & M & _). exists a, b. cbn; auto.
    - destruct K as (_ & Ka & _). destruct (slot_dirty_inv _ _ _ _ _ _ _ Ka) as (b & M & _). exists a, b. cbn; auto. }
  assert (ECs : forall lo' hi' s', sub c lo' hi' lo hi -> (forall x, In x s' -> In x (seg_list s1) \/ In x (seg_list s2)) -> ec lo' hi' pend s').
  { intros lo' hi' s' SB IN e Ie R. pose proof (rel_sub _ _ _ _ _ SB R) as R'. destruct (EC e Ie R') as [Q|Q]; [left|right]; intros x b Ix M.
    - destruct (K4 x b (IN x Ix) M) as [(y & b' & Iy & M' & <-)|(Q1 & Q2)]; [eauto|].
      destruct NE as (z & bz & Iz & Mz). specialize (Q2 e Ie R' z bz Iz Mz). specialize (Q z bz Iz Mz). cbn in Q2. lia.
    - destruct (K4 x b (IN x Ix) M) as [(y & b' & Iy & M' & <-)|(Q1 & Q2)]; [eauto|].
      destruct NE as (z & bz & Iz & Mz). specialize (Q z bz Iz Mz). lia. }
  split; [apply ECs; auto; apply (sub_left ok); auto|]. split; [apply ECs; auto; apply (sub_right ok); auto|].
  intros B PB MB. split; intros x b Ix M.
  - destruct (K4 x b (or_introl Ix) M) as [(y & b' & Iy & M' & <-)|(Q1 & Q2)]; [exact (MB y b' Iy M')|lia].
  - destruct (K4 x b (or_intror Ix) M) as [(y & b' & Iy & M' & <-)|(Q1 & Q2)]; [exact (MB y b' Iy M')|lia].
Qed.

Lemma seen_leaf B (l : leaf) : seen_lt B (TLeaf l) <-> (l_max l < B)%N /\ maxes (fun m => (m < B)%N) (seg_list (l_parts l)).
Proof.
  cbn. unfold maxes, slot_seen. split; intros (K1 & K2); (split; [exact K1|]).
  - intros x b Ix M. exact (K2 x Ix b M).
  - intros x Ix b M. exact (K2 x b Ix M).
Qed.

Lemma split_node_ok H top h lo hi pend w t : hist_ok H top -> in_hist H pend ->
  match t with TLeaf l => h = O /\ leaf_ok H top lo hi pend pend l /\ l_dirty l = true | _ => wf H top h lo hi pend t end ->
  (w = SLeftHeavy -> hi = None /\ forall e, In e pend -> rel lo hi (e_msg e) -> seen_lt (e_msn e) t) ->
  outc (split_node w t) (fun r => let '(t1, k, t2) := r in
    blt c lo (Some k) /\ blt c (Some k) hi /\ wf H top h lo (Some k) pend t1 /\ wf H top h (Some k) hi pend t2 /\ kept t t1 /\ kept t t2).
Proof.
  intros HO IH W LH. destruct t as [l|mx lk ch]; cbn [split_node].
  - destruct W as (-> & (I & T & S & EC) & D). rewrite D in S. specialize (EC D).
    pose proof (leaf_split_ok H top pend (l_max l) w (l_parts l) lo hi HO IH S EC) as LS.
    destruct (leaf_split w (l_parts l)) as [[[s1 k] s2]| |]; cbn [outc] in *; auto.
    + destruct LS as (B1 & B2 & K1 & K2 & E1 & E2 & MB).
      { intros Q. destruct (LH Q) as (Q1 & Q2). split; [exact Q1|]. intros e Ie R. apply (seen_leaf (e_msn e) l). auto. }
      split; [exact B1|]. split; [exact B2|]. split; [|split; [|split]].
      * split; [exact I|]. split; [exact T|]. split; [exact K1|]. intros _. exact E1.
      * split; [exact I|]. split; [exact T|]. split; [exact K2|]. intros _. exact E2.
      * split; [intros; exact Logic.I|]. intros B _. rewrite !seen_leaf. cbn [l_max l_parts]. intros (Q1 & Q2). split; [exact Q1|]. apply MB; [lia|exact Q2].
      * split; [intros; exact Logic.I|]. intros B _. rewrite !seen_leaf. cbn [l_max l_parts]. intros (Q1 & Q2). split; [exact Q1|]. apply MB; [lia|exact Q2].
    + apply LS. intros Q. destruct (LH Q) as (Q1 & Q2). split; [exact Q1|]. intros e Ie R. apply (seen_leaf (e_msn e) l). auto.
  - destruct h; [contradiction|]. destruct (seg_cut (Nat.div2 (length (seg_list ch))) ch) as [[[s1 k] s2]| |] eqn:SC; cbn [outc]; auto;
      [|exact (seg_cut_fail _ _ SC)].
    destruct W as (T & I & M & CH & S). destruct (seg_cut_all _ _ _ _ _ _ _ _ S SC) as (S1 & S2 & ES).
    pose proof (seg_all_blt ok _ _ _ _ S1) as B1. pose proof (seg_all_blt ok _ _ _ _ S2) as B2.
    assert (IN : forall x, In x (seg_list s1) \/ In x (seg_list s2) -> In x (seg_list ch)) by (intros x; rewrite ES, seg_list_app, in_app_iff; auto).
    assert (KP : forall s', (forall x, In x (seg_list s') -> In x (seg_list ch)) -> kept (TNode mx lk ch) (TNode mx lk s')).
    { intros s' IN'. split; intros B; rewrite ?mx_lt_node, ?seen_lt_node; [intros (Q1 & Q2); split; auto|intros _ Q; auto]. }
    assert (WF : forall s' lo' hi', sub c lo' hi' lo hi -> (forall x, In x (seg_list s') -> In x (seg_list ch)) ->
      seg_all c (fun lo hi x => buf_ok H lo hi mx (fst x) /\ wf H top h lo hi (fst x ++ pend) (snd x)) lo' hi' s' ->
      wf H top (Datatypes.S h) lo' hi' pend (TNode mx lk s')).
    { intros s' lo' hi' SB IN' S'. destruct (KP s' IN') as (KP1 & KP2). cbn [wf]. split; [exact T|]. split; [exact I|]. split; [|split; [|exact S']].
      - intros e Ie R. apply KP1. apply M; auto. eapply rel_sub; eauto.
      - intros LK e Ie R. pose proof (rel_sub _ _ _ _ _ SB R) as R'. destruct (CH LK e Ie R') as (Q1 & Q2). split; auto. }
    split; [exact B1|]. split; [exact B2|]. split; [|split; [|split]].
    + apply WF; auto. apply (sub_left ok); auto.
    + apply WF; auto. apply (sub_right ok); auto.
    + apply KP; auto.
    + apply KP; auto.
Qed.

Lemma split_good i w : good (fun lo hi _ t => split_child i w lo hi t).
Proof.
  intros H top h lo hi pend [l|mx lk ch] HO B W; unfold split_child; [exact Logic.I|]. destruct h as [|h]; [contradiction|].
  destruct (negb (free lk)) eqn:NF; [|exact Logic.I]. apply nfree_neq in NF.
  apply node_upd; auto. intros lo' hi' x Nx Sx Bx KX. pose proof (nth_error_In _ _ Nx) as Ix. pose proof KX as ((KB1 & KB2) & KW).
  destruct (node_child _ _ _ _ _ _ _ _ _ _ _ _ W Ix Sx) as (N1 & N2).
  destruct (is_nil (fst x) && mode_ok w lk lo' hi') eqn:Q; [|exact Logic.I]. apply andb_prop in Q. destruct Q as (Q1 & Q2).
  assert (EB : fst x = []) by (destruct (fst x); [reflexivity|discriminate]). rewrite EB in *. cbn [app] in *.
  assert (IP : in_hist H pend) by (apply (wf_in_hist _ _ _ _ _ _ _ KW)).
  set (t0 := set_dirty (pin_child lk mx (snd x))).
  assert (KT : forall B, (mx_lt B (snd x) -> mx_lt B t0) /\ (seen_lt B (snd x) -> seen_lt B t0)).
  { intros B0. split.
    - intros K. apply (pin_mx B0 lk mx) in K. unfold t0. destruct (pin_child lk mx (snd x)); exact K.
    - intros K. apply (pin_seen B0 lk mx) in K. unfold t0. destruct (pin_child lk mx (snd x)); exact K. }
  pose proof (split_node_ok H top h lo' hi' pend w t0 HO IP) as SN.
  assert (SNR : outc (split_node w t0) (fun r => let '(t1, k, t2) := r in
    blt c lo' (Some k) /\ blt c (Some k) hi' /\ wf H top h lo' (Some k) pend t1 /\ wf H top h (Some k) hi' pend t2 /\ kept t0 t1 /\ kept t0 t2)).
  { apply SN.
    - unfold t0. destruct (snd x) as [l|mx1 lk1 ch1] eqn:EX.
      + destruct h; [|contradiction]. destruct (pinned_leaf H top lo hi pend mx lk ch lo' hi' x l W NF Ix Sx KX EX) as (l' & P1 & P2 & P3).
        rewrite EX in P1. rewrite P1. cbn [set_dirty]. rewrite EB in P2. cbn [app] in P2. auto.
      + rewrite pin_node. cbn [set_dirty]. destruct h; [contradiction|exact KW].
    - intros ->. cbn in Q2. apply andb_prop in Q2. destruct Q2 as (Q2 & Q3). destruct lk; try discriminate. destruct hi'; [discriminate|].
      split; [reflexivity|]. intros e Ie R. apply KT. apply (N2 eq_refl e Ie R). }
  fold t0. destruct (split_node w t0) as [[[t1 k] t2]| |]; cbn [outc] in *; auto.
  destruct SNR as (B1 & B2 & W1 & W2 & (KA1 & KA2) & (KC1 & KC2)). cbn [fst seg_all seg_list]. split.
  - split; [exact B1|]. split; [split; [apply buf_nil|exact W1]|]. split; [exact B2|]. split; [apply buf_nil|exact W2].
  - intros y [<-|[<-|[]]] B0 LB MB; cbn [snd].
    + split; [apply KA1; apply KT; auto|]. intros SB. apply KA2; apply KT; auto.
    + split; [apply KC1; apply KT; auto|]. intros SB. apply KC2; apply KT; auto.
Qed.
End O.
