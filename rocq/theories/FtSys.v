(** Every reachable tree satisfies the invariant. *)
From Verif Require Import Base Bytes LtSpec KOrd FtModel FtSpec FtSeg FtRows FtInv FtPut FtOps FtOps2 FtOps3 FtQuery.
From Coq Require Import Sorted.
Open Scope nat_scope.

(** With information that always fits. *)
Section L.
Context {E : env} {TM : timing E} (ok : cmp_ok (kcmp E)).
Local Notation msg := (gmsg (A E)).
Implicit Types (h : list msg) (s : state E) (o : op E).

Lemma numbered_app {X} (h h' : list X) : forall n, numbered n (h ++ h') = numbered n h ++ numbered (n + N.of_nat (length h)) h'.
Proof.
  induction h as [|m h IH]; intros n; cbn [app numbered length].
  - rewrite N.add_0_r. reflexivity.
  - rewrite IH. cbn [app]. do 3 f_equal. lia.
Qed.
Lemma numbered_snd {X} (h : list X) : forall n, map snd (numbered n h) = h.
Proof. induction h as [|m h IH]; intros n; cbn; congruence. Qed.
Lemma numbered_le {X} (h : list X) : forall n x, In x (numbered n h) -> (n < fst x <= n + N.of_nat (length h))%N.
Proof.
  induction h as [|m h IH]; intros n x; [intros []|]. cbn [numbered length]. intros [<-|I]; cbn [fst]; [lia|]. specialize (IH _ _ I). lia.
Qed.
Lemma numbered_ok h n : hist_ok (E:=E) (numbered n h) (n + N.of_nat (length h)).
Proof.
  split.
  - revert n. induction h as [|m h IH]; intros n; cbn [numbered map fst]; constructor; auto.
    rewrite Forall_map, Forall_forall. intros x I. apply numbered_le in I. lia.
  - rewrite Forall_forall. intros x I. apply numbered_le in I. lia.
Qed.
Lemma numbered_last {X} (h : list X) n k : h <> [] -> (forall x, In x (numbered n h) -> (fst x < k)%N) -> (n + N.of_nat (length h) < k)%N.
Proof.
  intros NE K. destruct (exists_last NE) as (h' & m & ->). rewrite numbered_app in K.
  specialize (K ((n + N.of_nat (length h') + 1)%N, m)). rewrite in_app_iff in K. cbn [numbered In fst] in K. specialize (K (or_intror (or_introl eq_refl))). rewrite app_length. cbn [length]. lia.
Qed.

Definition LInv h s : Prop :=
  s_top s = (MIN_MSN + N.of_nat (length h))%N /\ exists hh, wf (numbered MIN_MSN h) (s_top s) hh None None [] (s_tree s).

Lemma linv_hist h s : LInv h s -> hist_ok (numbered MIN_MSN h) (s_top s).
Proof. intros (-> & _). apply numbered_ok. Qed.

Lemma llocal_ok h s C f p : goodc C f -> LInv h s ->
  (forall pend t, node_at p [] (s_tree s) = Some (pend, t) -> C (numbered MIN_MSN h) pend t) ->
  outc (local s (at_path p f None None [] (s_tree s))) (fun x => LInv (h ++ []) (fst x) /\ snd x = None).
Proof.
  intros GF IV CC. pose proof (linv_hist _ _ IV) as HO. destruct IV as (T & hh & W). unfold local. rewrite app_nil_r.
  pose proof (at_path_goodc ok C f GF p (numbered MIN_MSN h) (s_top s) hh None None [] (s_tree s) HO Logic.I W CC) as K.
  destruct (at_path p f None None [] (s_tree s)) as [t| |]; cbn [outc fst snd answered] in *; auto. destruct K as (K & _). split; [|reflexivity]. split; [exact T|]. exists hh. exact K.
Qed.

Lemma node_at_app p i : forall pend (t : tree E) pend' mx lk ch x, node_at p pend t = Some (pend', TNode mx lk ch) -> nth_error (seg_list ch) i = Some x ->
  node_at (p ++ [i]) pend t = Some (fst x ++ pend', snd x).
Proof.
  induction p as [|j p IH]; intros pend t pend' mx lk ch x N1 Nx; cbn [app node_at] in *.
  - injection N1 as -> ->. rewrite Nx. reflexivity.
  - destruct t as [|mx0 lk0 ch0]; [discriminate|]. destruct (nth_error (seg_list ch0) j); [|discriminate]. eapply IH; eauto.
Qed.

Lemma in_time_buf g p i s pend t : in_time_at g (p ++ [i]) s -> node_at p [] (s_tree s) = Some (pend, t) -> buf_fits g i t.
Proof.
  intros K N1 mx lk ch x -> Nx e Ie. destruct (K _ _ (node_at_app p i _ _ _ _ _ _ _ N1 Nx) e) as (Q1 & Q2); [apply in_or_app; auto|]. split; auto.
Qed.
Lemma gc_in_time_fits (o : option (G E)) p h s pend t : LInv h s -> gc_in_time o p s -> node_at p [] (s_tree s) = Some (pend, t) -> gc_fits (numbered MIN_MSN h) pend o.
Proof.
  intros (T & _) K N1 g ->. destruct (K g eq_refl) as (K1 & K2 & K3). split.
  - split.
    + intros n NE LT. eapply early_up; [exact K1|]. rewrite T. assert (h <> []) by (intros ->; apply NE; reflexivity).
      pose proof (numbered_last h MIN_MSN n H LT). lia.
    + intros x Ix. apply K2. rewrite T. apply numbered_le in Ix. lia.
  - intros e Ie. apply (K3 _ _ N1 e Ie).
Qed.

Definition lreply h o (r : option (option (L E))) : Prop :=
  match o with OQuery g k => exists v, r = Some v /\ made (numbered MIN_MSN h) k v | _ => r = None end.

Lemma lstep_ok h s o : LInv h s -> lawful o s -> outc (step o s) (fun x => LInv (h ++ injected o) (fst x) /\ lreply h o (snd x)).
Proof.
  intros IV LW. destruct o; cbn [step injected lreply lawful] in *;
    try (apply (llocal_ok _ _ (fun _ _ _ => True)); [apply good_goodc|exact IV|auto];
      auto using lock_chain_good, lock_cleaner_good, unlock_good, (split_good ok), (evict_good ok), (fetch_good ok), (stale_good ok); fail).
  - pose proof (linv_hist _ _ IV) as HO. destruct IV as (T & hh & W).
    assert (R : rel None None m) by (right; split; exact Logic.I).
    pose proof (inject_ok ok _ (s_top s) g m keep HO LW path hh None None (s_tree s) Logic.I W R) as K. cbv zeta in K.
    destruct (inject g (s_top s + 1) m keep path (s_tree s)) as [t| |]; cbn [outc fst snd] in *; auto. split; [|reflexivity].
    unfold LInv. cbn [s_top s_tree]. split; [rewrite T, app_length; cbn [length]; lia|]. exists hh. rewrite numbered_app. cbn [numbered]. rewrite <- T. exact K.
  - pose proof (linv_hist _ _ IV) as HO. destruct IV as (T & hh & W). pose proof (wf_height _ _ _ _ _ _ _ W) as HH. rewrite HH. unfold in_time_at in LW. rewrite HH in LW.
    pose proof (query_ok ok _ (s_top s) g k HO hh None None [] (s_tree s) Logic.I W (conj Logic.I Logic.I) LW) as K.
    destruct (query hh g k None None [] (s_tree s)) as [[[t an] r]| |]; cbn [outc fst snd answered] in *; auto. destruct K as (MK & K & _ & O). inversion MK; subst an.
    rewrite app_nil_r. split; [split; [exact T|exists hh; auto]|]. exists r. auto.
  - eapply (llocal_ok _ _ (fun _ _ t => buf_fits g i t)); [apply (flush_good ok)|exact IV|]. intros pend t N1. eapply in_time_buf; eauto.
  - destruct LW as (LW1 & LW2). eapply (llocal_ok _ _ (fun _ _ t => buf_fits g i t /\ buf_fits g' (S i) t)); [apply (merge_good ok)|exact IV|].
    intros pend t N1. split; eapply in_time_buf; eauto.
  - destruct IV as (T & hh & W). unfold local. pose proof (numbered_ok h MIN_MSN) as HO. rewrite <- T in HO.
    pose proof (new_root_ok _ (s_top s) hh (s_tree s) HO W) as K. destruct (new_root (s_tree s)) as [t| |]; cbn [outc fst snd answered] in *; auto. rewrite app_nil_r.
    split; [split; [exact T|exists (S hh); auto]|reflexivity].
  - destruct LW as (LW1 & LW2). eapply (llocal_ok _ _ (fun H pend _ => gc_fits H pend gm /\ gc_fits H pend gd)); [apply (write_good ok)|exact IV|].
    intros pend t N1. split; eapply gc_in_time_fits; eauto.
Qed.

Lemma linit_ok : LInv [] init.
Proof.
  split; [cbn [s_top init length N.of_nat]; rewrite N.add_0_r; reflexivity|]. exists 0. cbn [s_top s_tree init wf numbered]. unfold leaf_ok. cbn [l_parts l_max l_dirty seg_all seg_list].
  split; [intros e []|]. split; [unfold MIN_MSN; lia|]. split; [split; [exact Logic.I|]|intros _ e []].
  split; cbn; [|discriminate]. split; [|discriminate]. split.
  - split; [constructor|]. split; [constructor|]. intros k _. exists [], [], []. split; [reflexivity|]. split; [apply co_nil|]. split; [intros n m []|]. split; [intros n m []|].
    split; [intros g n m []|intros g n []].
  - cbn. split; [unfold MIN_MSN; lia|discriminate].
Qed.
End L.

(** With any information. *)
Section S.
Context {E : env} (ok : cmp_ok (kcmp E)).
#[local] Existing Instance any_time.
Local Notation msg := (gmsg (A E)).
Implicit Types (h : list msg) (s : state E) (o : op E).

Definition Inv h s : Prop :=
  exists (H : hist) hh, map snd H = h /\ hist_ok H (s_top s) /\ wf H (s_top s) hh None None [] (s_tree s).

Definition reply h o (r : option (option (L E))) : Prop :=
  match o with OQuery g k => exists v, r = Some v /\ outcome k h v | _ => r = None end.

Lemma local_ok h s C f p : goodc C f -> (forall H pend t, C H pend t) -> Inv h s ->
  outc (local s (at_path p f None None [] (s_tree s))) (fun x => Inv (h ++ []) (fst x) /\ snd x = None).
Proof.
  intros GF CC (H & hh & EH & HO & W). unfold local. rewrite app_nil_r.
  pose proof (at_path_goodc ok C f GF p H (s_top s) hh None None [] (s_tree s) HO Logic.I W (fun pend t _ => CC H pend t)) as K.
  destruct (at_path p f None None [] (s_tree s)) as [t| |]; cbn in *; auto. destruct K as (K & _). split; [|reflexivity]. exists H, hh. auto.
Qed.
Lemma any_fits (g : G E) n : fits g n.
Proof. split; exact Logic.I. Qed.
Lemma any_buf (g : G E) i t : buf_fits g i t.
Proof. intros mx lk ch x _ _ e _. apply any_fits. Qed.
Lemma any_gc (H : hist) (pend : list (ent E)) (o : option (G E)) : gc_fits H pend o.
Proof. intros g _. split; [split|]; intros; exact Logic.I. Qed.

Lemma step_ok h s o : Inv h s -> outc (step o s) (fun x => Inv (h ++ injected o) (fst x) /\ reply h o (snd x)).
Proof.
  intros IV. destruct o; cbn [step injected reply];
    try (apply (local_ok _ _ (fun _ _ _ => True)); [apply good_goodc|auto|exact IV];
      auto using lock_chain_good, lock_cleaner_good, unlock_good, (split_good ok), (evict_good ok), (fetch_good ok), (stale_good ok); fail).
  - destruct IV as (H & hh & EH & HO & W).
    assert (R : rel None None m) by (right; split; exact Logic.I).
    pose proof (inject_ok ok H (s_top s) g m keep HO (any_fits _ _) path hh None None (s_tree s) Logic.I W R) as K. cbv zeta in K.
    destruct (inject g (s_top s + 1) m keep path (s_tree s)) as [t| |]; cbn in *; auto. split; [|reflexivity].
    exists (H ++ [((s_top s + 1)%N, m)]), hh. split; [rewrite map_app; cbn; congruence|]. split; [apply (hist_grow H (s_top s) _ m HO); apply N.lt_add_pos_r; reflexivity|exact K].
  - destruct IV as (H & hh & EH & HO & W). rewrite (wf_height _ _ _ _ _ _ _ W).
    pose proof (query_ok ok H (s_top s) g k HO hh None None [] (s_tree s) Logic.I W (conj Logic.I Logic.I) ltac:(intros; apply any_fits)) as K.
    destruct (query hh g k None None [] (s_tree s)) as [[[t an] r]| |]; cbn in *; auto. destruct K as (MK & K & _ & O). inversion MK; subst an.
    rewrite app_nil_r. split; [exists H, hh; auto|]. exists r. split; [reflexivity|]. rewrite <- EH. apply made_outcome. exact O.
  - eapply local_ok; [apply (flush_good ok)| |exact IV]. intros. apply any_buf.
  - eapply local_ok; [apply (merge_good ok)| |exact IV]. intros. split; apply any_buf.
  - destruct IV as (H & hh & EH & HO & W). unfold local.
    pose proof (new_root_ok H (s_top s) hh (s_tree s) HO W) as K. destruct (new_root (s_tree s)) as [t| |]; cbn in *; auto. rewrite app_nil_r.
    split; [exists H, (S hh); auto|reflexivity].
  - eapply local_ok; [apply (write_good ok)| |exact IV]. intros. split; apply any_gc.
Qed.

Lemma init_ok : Inv [] init.
Proof.
  destruct (linit_ok (E:=E)) as (_ & hh & W). exists [], hh. split; [reflexivity|]. split; [split; constructor|exact W].
Qed.

Lemma reach_ok h s : reach h s -> Inv h s.
Proof.
  induction 1 as [|h s o s' r R IH ST]; [apply init_ok|]. pose proof (step_ok h s o IH) as K. rewrite ST in K. apply K.
Qed.

(** A query never waits when no flusher holds a lock. *)
Fixpoint idle (t : tree E) : Prop :=
  match t with
  | TLeaf _ => True
  | TNode _ lk ch => lk = Free /\
    (fix go (s : seg (list (ent E) * tree E)) : Prop :=
       match s with One x => idle (snd x) | Cons x _ s => idle (snd x) /\ go s end) ch
  end.
Lemma idle_node mx lk ch : idle (TNode mx lk ch) -> lk = Free /\ forall x, In x (seg_list ch) -> idle (snd x).
Proof.
  cbn. intros (A1 & A2). split; [exact A1|]. induction ch as [a|a p s IH]; cbn in *.
  - intros x [<-|[]]; auto.
  - intros x [<-|I]; [tauto|]. apply IH; tauto.
Qed.

Lemma leaf_pin_now {R} (g : G E) i (look : bound -> bound -> rows E -> R) lo hi an l : leaf_pin g i look lo hi an l <> Block.
Proof.
  unfold leaf_pin.
  match goal with |- match ?x with _ => _ end <> _ => destruct x as [[ps []]| |]; try discriminate end.
  destruct (l_dirty l).
  - destruct (if needs_every lo hi an ps then apply_every g lo hi an ps else (ps, an)) as [ps' an'].
    match goal with |- match ?x with _ => _ end <> _ => destruct x as [[? ?]| |]; discriminate end.
  - match goal with |- match ?x with _ => _ end <> _ => destruct x as [[? [? ?]]| |]; discriminate end.
Qed.
Lemma leaf_query_now (g : G E) k lo hi an l : leaf_query g k lo hi an l <> Block.
Proof.
  unfold leaf_query. destruct (PivotModel.which_child (kcmp E) (seg_pivots (l_parts l)) k); cbn; [|discriminate]. apply leaf_pin_now.
Qed.

Lemma query_now H top (g : G E) k : hist_ok H top -> forall (h : nat) lo hi an t, anc_ok H top lo hi an -> wf H top h lo hi (pend_of an) t -> in_rng (kcmp E) lo hi k -> idle t ->
  query h g k lo hi an t <> Block.
Proof.
  intros HO. induction h as [|h IH]; intros lo hi an [l|mx lk ch] AO W Rk ID; try contradiction.
  - cbn [query]. pose proof (leaf_query_now g k lo hi an l). destruct (leaf_query g k lo hi an l) as [[[? ?] ?]| |]; congruence.
  - cbn [query]. apply idle_node in ID. destruct ID as (-> & ID). cbn [free]. pose proof W as (T & IP & M & _ & SA). apply (seg_all_with_In ok) in SA.
    destruct (seg_which ok _ _ _ _ _ SA Rk) as (i & lo1 & hi1 & x & WC & Rk1 & ((BO & Wx) & Ix) & B1 & S1 & _ & AC). rewrite WC. cbn [must].
    match goal with |- context [seg_upd lo hi i ?f ch] => specialize (AC _ f) end. cbn beta in AC.
    destruct (node_child H top h lo hi (pend_of an) mx Free ch lo1 hi1 x W Ix S1) as (NC & _).
    assert (AO1 : anc_ok H top lo1 hi1 ((mx, fst x) :: an)).
    { destruct BO as (BO1 & BO2). cbn [anc_ok]. split; [exact BO1|]. split; [intros e Ie; apply BO2; auto|]. split; [intros e Ie; apply BO2; auto|].
      split; [exact T|]. split; [intros e Ie R; apply NC; auto|]. eapply anc_sub; eauto. }
    pose proof (IH lo1 hi1 ((mx, fst x) :: an) (snd x) AO1 Wx Rk1 (ID x Ix)) as NB.
    destruct (query h g k lo1 hi1 ((mx, fst x) :: an) (snd x)) as [[[u an1] r]| |]; [|congruence|cbn in AC; rewrite AC; discriminate].
    destruct an1 as [|[? ?] ?]; cbn beta iota in AC.
    + rewrite AC. discriminate.
    + destruct AC as (ch' & U & _). rewrite U. discriminate.
Qed.
End S.
