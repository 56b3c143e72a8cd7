(** The invariant of the tree. *)
From Verif Require Import Base Bytes LtSpec KOrd LtTreeProofs FtModel FtSpec FtSeg FtRows.
From Coq Require Import Sorted.
Open Scope nat_scope.

Section I.
Context {E : env} {TM : timing E} (ok : cmp_ok (kcmp E)).
Local Notation c := (kcmp E).
Local Notation L := (L E).
Local Notation G := (G E).
Local Notation msg := (gmsg (A E)).
Local Notation rows := (rows E).
Local Notation ent := (ent E).
Local Notation slot := (slot E).
Local Notation leaf := (leaf E).
Local Notation tree := (tree E).
Implicit Types (pend : list ent) (t : tree).

(** All messages injected so far, with their numbers. *)
Definition hist := list (N * msg).
Definition hist_ok (H : hist) (top : N) : Prop :=
  StronglySorted N.lt (map fst H) /\ Forall (fun x => (fst x <= top)%N) H.

Lemma hist_unique H top n m m' : hist_ok H top -> In (n, m) H -> In (n, m') H -> m = m'.
Proof.
  intros [S _]. induction H as [|[a b] H IH]; cbn; [tauto|]. cbn in S. inversion S as [|? ? S' F]; subst.
  rewrite Forall_map, Forall_forall in F. intros [Q|I] [Q'|I'].
  - congruence.
  - injection Q as -> ->. specialize (F _ I'). cbn in F. lia.
  - injection Q' as -> ->. specialize (F _ I). cbn in F. lia.
  - auto.
Qed.

(** Outcomes. *)
Lemma course_skips k (h h' : hist) (r : option L) gs : course k h r gs -> Forall (fun x => ~ concerns k (snd x)) h' -> course k (h ++ h') r gs.
Proof.
  intros O. revert h O. induction h' as [|[n m] h' IH]; intros h O F.
  - rewrite app_nil_r. exact O.
  - inversion F; subst. replace (h ++ (n, m) :: h') with ((h ++ [(n, m)]) ++ h') by (rewrite <- app_assoc; reflexivity).
    apply IH; auto. apply co_skip; auto.
Qed.
Lemma course_outcome k (h : hist) (r : option L) gs : course k h r gs -> outcome k (map snd h) r.
Proof. induction 1; rewrite ?map_app; cbn [map snd]; [apply out_nil|apply out_skip; auto|apply out_msg; auto|apply out_gc; auto]. Qed.

Lemma course_empty k (r : option L) gs : course k [] r gs -> r = None.
Proof. remember [] as h eqn:Q. induction 1; auto; try (destruct h; discriminate). specialize (IHcourse Q). discriminate. Qed.

(** [key_ok H k T r]: the messages about [k] up to some point have made [r],
    the later ones are those in [T]. *)
Definition key_ok (H : hist) (k : bytes) (T : N -> Prop) (r : option L) : Prop :=
  exists H1 H2 gs, H = H1 ++ H2 /\ course k H1 r gs /\
    (forall n m, In (n, m) H1 -> concerns k m -> ~ T n) /\
    (forall n m, In (n, m) H2 -> concerns k m -> T n) /\
    (forall g n m, In g gs -> In (n, m) H2 -> concerns k m -> early g n) /\
    (forall g n, In g gs -> (forall x, In x H -> (fst x < n)%N) -> early g n).

Lemma ko_ext H k (T T' : N -> Prop) r : key_ok H k T r ->
  (forall n m, In (n, m) H -> concerns k m -> (T n <-> T' n)) -> key_ok H k T' r.
Proof.
  intros (H1 & H2 & gs & -> & O & A1 & A2 & A3 & A4) X. exists H1, H2, gs. split; [reflexivity|]. split; [exact O|]. split; [|split].
  - intros n m I C. rewrite <- (X n m); eauto. apply in_or_app; auto.
  - intros n m I C. rewrite <- (X n m); eauto. apply in_or_app; auto.
  - auto.
Qed.

(** [g] may be used for message [n]. *)
Definition fits (g : G) (n : N) : Prop := early g n /\ late g n.

Lemma ko_apply H top k (T T' : N -> Prop) r g n m : hist_ok H top -> key_ok H k T r ->
  In (n, m) H -> concerns k m -> T n -> fits g n ->
  (forall n' m', In (n', m') H -> concerns k m' -> T n' -> (n <= n')%N) ->
  (forall n' m', In (n', m') H -> concerns k m' -> (T' n' <-> T n' /\ n' <> n)) ->
  key_ok H k T' (effect g m r).
Proof.
  intros HO (H1 & H2 & gs & EH & O & A1 & A2 & A3 & A4) I C Tn (F1 & F2) MIN X.
  assert (I2 : In (n, m) H2). { rewrite EH in I. apply in_app_or in I. destruct I as [I|I]; auto. exfalso. eapply A1; eauto. }
  pose proof I2 as I20. apply in_split in I2. destruct I2 as (P & Q & EQ).
  assert (S : forall x, In x P -> (fst x < n)%N).
  { intros x Ix. destruct HO as [S _]. rewrite EH, EQ, !map_app in S. apply SS_app in S. destruct S as (_ & S & _).
    apply SS_app in S. destruct S as (_ & _ & S).
    apply S; [apply in_map; auto|cbn; auto]. }
  assert (S2 : forall x, In x Q -> (n < fst x)%N).
  { intros x Ix. destruct HO as [HS _]. rewrite EH, EQ, !map_app in HS. apply SS_app in HS. destruct HS as (_ & HS & _).
    apply SS_app in HS. destruct HS as (_ & HS & _). cbn in HS. inversion HS as [|? ? _ F]; subst.
    rewrite Forall_forall in F. apply F. apply in_map. auto. }
  assert (NP : forall n' m', In (n', m') P -> ~ concerns k m').
  { intros n' m' Ix Cx. assert (In (n', m') H2) by (rewrite EQ; apply in_or_app; auto).
    assert (In (n', m') H) by (rewrite EH; apply in_or_app; auto).
    pose proof (MIN n' m' ltac:(auto) Cx (A2 _ _ ltac:(eauto) Cx)). specialize (S _ Ix). cbn in S. lia. }
  exists (H1 ++ P ++ [(n, m)]), Q, (g :: gs). split.
  - rewrite EH, EQ. rewrite <- !app_assoc. reflexivity.
  - split; [|split; [|split; [|split]]].
    + rewrite app_assoc. apply co_msg; auto.
      * apply course_skips; auto. rewrite Forall_forall. intros [n' m'] Ix. cbn. eapply NP; eauto.
      * intros x [<-|Ix]; [exact F1|]. eapply A3; eauto.
    + intros n' m' Ix Cx HT. assert (IH : In (n', m') H).
      { rewrite EH, EQ. rewrite !in_app_iff in *. cbn in *. tauto. }
      apply (X n' m' IH Cx) in HT. destruct HT as (HT & NE). rewrite !in_app_iff in Ix. destruct Ix as [Ix|[Ix|Ix]].
      * eapply A1; eauto.
      * eapply NP; eauto.
      * destruct Ix as [[= <- <-]|[]]. congruence.
    + intros n' m' Ix Cx. assert (I2 : In (n', m') H2) by (rewrite EQ; apply in_or_app; cbn; auto).
      apply (X n' m'); auto. { rewrite EH. apply in_or_app; auto. }
      split; [eapply A2; eauto|]. specialize (S2 _ Ix). cbn in S2. lia.
    + intros x n' m' [<-|Ix] I' C'; [eapply early_up; [exact F1|]; specialize (S2 _ I'); cbn in S2; lia|].
      eapply A3; eauto. rewrite EQ. apply in_or_app. cbn; auto.
    + intros x n' [<-|Ix] LT; [|apply A4; auto]. eapply early_up; [exact F1|]. specialize (LT _ I). cbn in LT. lia.
Qed.

(** [g] was gathered now: after all messages so far were sent, before all later ones. *)
Definition fresh_info (H : hist) (g : G) : Prop :=
  (forall n, H <> [] -> (forall x, In x H -> (fst x < n)%N) -> early g n) /\ (forall x, In x H -> late g (fst x)).

Lemma ko_gc H k T v g : key_ok H k T (Some v) -> fresh_info H g -> (forall n m, In (n, m) H -> concerns k m -> T n -> early g n) -> key_ok H k T (le_gc E g v).
Proof.
  intros (H1 & H2 & gs & EH & O & A1 & A2 & A3 & A4) (F1 & F2) X. exists H1, H2, (g :: gs). split; [exact EH|]. split.
  - apply co_gc; [exact O|]. intros n m I _. apply (F2 (n, m)). rewrite EH. apply in_or_app; auto.
  - split; [exact A1|]. split; [exact A2|]. split.
    + intros x n m [<-|Ix] I C; [|eapply A3; eauto]. apply (X n m); auto; [rewrite EH; apply in_or_app; auto|eapply A2; eauto].
    + intros x n [<-|Ix] LT; auto. apply F1; auto. intros Q. rewrite EH in Q. apply app_eq_nil in Q. destruct Q as (-> & _). apply course_empty in O. discriminate.
Qed.

Lemma ko_grow H k (T T' : N -> Prop) r n m : key_ok H k T r -> (forall x, In x H -> (fst x < n)%N) ->
  (forall n' m', In (n', m') H -> concerns k m' -> (T n' <-> T' n')) ->
  (concerns k m -> T' n) -> key_ok (H ++ [(n, m)]) k T' r.
Proof.
  intros (H1 & H2 & gs & -> & O & A1 & A2 & A3 & A4) LT X Y. exists H1, (H2 ++ [(n, m)]), gs. split; [rewrite app_assoc; reflexivity|]. split; [exact O|]. split; [|split; [|split]].
  - intros n' m' I C. rewrite <- (X n' m'); eauto. apply in_or_app; auto.
  - intros n' m' I C. apply in_app_or in I. destruct I as [I|[[= <- <-]|[]]]; auto.
    rewrite <- (X n' m'); eauto. apply in_or_app; auto.
  - intros g n' m' Ig I C. apply in_app_or in I. destruct I as [I|[[= <- <-]|[]]]; [eapply A3; eauto|]. apply A4; auto.
  - intros g n' Ig L. apply A4; auto. intros x Ix. apply L. apply in_or_app; auto.
Qed.

Lemma ko_course H k (T : N -> Prop) r : key_ok H k T r -> (forall n m, In (n, m) H -> concerns k m -> ~ T n) -> exists gs, course k H r gs.
Proof.
  intros (H1 & H2 & gs & -> & O & A1 & A2 & _) X. exists gs. apply course_skips; auto.
  rewrite Forall_forall. intros [n m] I C. apply (X n m); eauto. apply in_or_app; auto.
Qed.
Lemma ko_done H k (T : N -> Prop) r : key_ok H k T r -> (forall n m, In (n, m) H -> concerns k m -> ~ T n) -> outcome k (map snd H) r.
Proof. intros K X. destruct (ko_course H k T r K X) as (gs & C). eapply course_outcome; eauto. Qed.

(** Messages still to come for rows that have seen everything up to [mx]. *)
Definition mem (n : N) pend : Prop := exists e, In e pend /\ e_msn e = n.
Definition todo pend (mx n : N) : Prop := (mx < n)%N /\ mem n pend.
Definition in_hist (H : hist) pend : Prop := forall e, In e pend -> In (e_msn e, e_msg e) H.

Definition view (H : hist) (lo hi : bound) pend (mx : N) (r : rows) : Prop :=
  rsorted r /\ rin lo hi r /\ forall k, in_rng c lo hi k -> key_ok H k (todo pend mx) (rows_find k r).

Lemma view_ext H lo hi pend mx pend' mx' r : view H lo hi pend mx r ->
  (forall n m, In (n, m) H -> rel lo hi m -> (todo pend mx n <-> todo pend' mx' n)) -> view H lo hi pend' mx' r.
Proof.
  intros (S & I & K) X. split; [exact S|]. split; [exact I|]. intros k Rk. eapply ko_ext; [apply K; auto|].
  intros n m In_ C. apply (X n m); auto. eapply concerns_rel; eauto.
Qed.

Lemma view_sub H lo hi pend mx r lo' hi' r' : view H lo hi pend mx r -> sub c lo' hi' lo hi -> rsorted r' -> rin lo' hi' r' ->
  (forall k, in_rng c lo' hi' k -> rows_find k r' = rows_find k r) -> view H lo' hi' pend mx r'.
Proof.
  intros (S & I & K) SB S' I' X. split; [exact S'|]. split; [exact I'|]. intros k Rk. rewrite X by auto. auto.
Qed.

Lemma view_gc H lo hi pend mx r o : (forall g, o = Some g -> fresh_info H g /\ forall e, In e pend -> early g (e_msn e)) ->
  view H lo hi pend mx r -> view H lo hi pend mx (gc_rows o r).
Proof.
  destruct o as [g|]; cbn; [|auto]. intros FI (S & I & K). destruct (FI g eq_refl) as (F1 & F2). split; [apply rows_each_sorted; auto|].
  split; [apply (rows_each_Forall (in_rng c lo hi)); auto|]. intros k Rk. rewrite rows_find_each by auto.
  specialize (K k Rk). destruct (rows_find k r); [|exact K]. apply ko_gc; auto. intros n m _ _ (_ & e & Ie & <-). auto.
Qed.

(** ** Slots, leaves, nodes *)
Definition bn_ok (H : hist) (top : N) (lo hi : bound) pend (b : bn E) : Prop :=
  view H lo hi pend (b_max b) (b_rows b) /\ (b_max b <= top)%N /\
  (b_flag b = true -> forall e, In e pend -> once (e_msg e) = true -> in_rng c lo hi (m_key (e_msg e)) ->
    e_tag e <> Fresh -> (e_msn e <= b_max b)%N).

Definition slot_ok (H : hist) (top : N) pend (nmax : N) (dirty : bool) (lo hi : bound) (s : slot) : Prop :=
  match s_mem s with
  | Some b => bn_ok H top lo hi pend b /\ (dirty = false -> (nmax <= b_max b)%N)
  | None => dirty = false
  end /\ (dirty = false -> view H lo hi pend nmax (s_disk s)).

(** Every message to come has been seen by all basement nodes or by none. *)
Definition ec (lo hi : bound) pend (s : list slot) : Prop :=
  forall e, In e pend -> rel lo hi (e_msg e) ->
    (forall x b, In x s -> s_mem x = Some b -> (e_msn e <= b_max b)%N) \/
    (forall x b, In x s -> s_mem x = Some b -> (b_max b < e_msn e)%N).

Definition leaf_ok (H : hist) (top : N) (lo hi : bound) pend (ecp : list ent) (l : leaf) : Prop :=
  in_hist H pend /\ (l_max l <= top)%N /\
  seg_all c (slot_ok H top pend (l_max l) (l_dirty l)) lo hi (l_parts l) /\
  (l_dirty l = true -> ec lo hi ecp (seg_list (l_parts l))).

(** All inner nodes below have max_msn_applied_to_node_on_disk below [B]. *)
Fixpoint mx_lt (B : N) (t : tree) : Prop :=
  match t with
  | TLeaf _ => True
  | TNode mx _ ch => (mx < B)%N /\
    (fix go (s : seg (list ent * tree)) : Prop :=
       match s with One x => mx_lt B (snd x) | Cons x _ s => mx_lt B (snd x) /\ go s end) ch
  end.
Lemma mx_lt_node B mx lk ch : mx_lt B (TNode mx lk ch) <-> (mx < B)%N /\ (forall x, In x (seg_list ch) -> mx_lt B (snd x)).
Proof.
  cbn [mx_lt]. enough (K : (fix go (s : seg (list ent * tree)) : Prop :=
       match s with One x => mx_lt B (snd x) | Cons x _ s => mx_lt B (snd x) /\ go s end) ch <-> (forall x, In x (seg_list ch) -> mx_lt B (snd x))) by tauto.
  induction ch; cbn; [|rewrite IHch].
  - split; [intros K x [<-|[]]; exact K|intros K; apply K; auto].
  - split; [intros [K1 K2] x [<-|I]; auto|intros K; split; [apply K; auto|intros; apply K; auto]].
Qed.

(** No leaf below has seen a message from [B] on. *)
Definition slot_seen (B : N) (x : slot) : Prop := forall b, s_mem x = Some b -> (b_max b < B)%N.
Fixpoint seen_lt (B : N) (t : tree) : Prop :=
  match t with
  | TLeaf l => (l_max l < B)%N /\ (forall x, In x (seg_list (l_parts l)) -> slot_seen B x)
  | TNode mx _ ch =>
    (fix go (s : seg (list ent * tree)) : Prop :=
       match s with One x => seen_lt B (snd x) | Cons x _ s => seen_lt B (snd x) /\ go s end) ch
  end.
Lemma seen_lt_node B mx lk ch : seen_lt B (TNode mx lk ch) <-> (forall x, In x (seg_list ch) -> seen_lt B (snd x)).
Proof.
  cbn [seen_lt]. induction ch; cbn; [|rewrite IHch].
  - split; [intros K x [<-|[]]; exact K|intros K; apply K; auto].
  - split; [intros [K1 K2] x [<-|I]; auto|intros K; split; [apply K; auto|intros; apply K; auto]].
Qed.

Definition buf_ok (H : hist) (lo hi : bound) (mx : N) (buf : list ent) : Prop :=
  StronglySorted N.lt (map e_msn buf) /\
  forall e, In e buf -> In (e_msn e, e_msg e) H /\ rel lo hi (e_msg e) /\ (e_msn e <= mx)%N.

Definition chain_ok (lo hi : bound) pend t : Prop :=
  forall e, In e pend -> rel lo hi (e_msg e) ->
    (once (e_msg e) = true -> e_tag e = Fresh) /\ seen_lt (e_msn e) t.

Fixpoint wf (H : hist) (top : N) (h : nat) (lo hi : bound) pend (t : tree) : Prop :=
  match t, h with
  | TLeaf l, O => leaf_ok H top lo hi pend pend l
  | TNode mx lk ch, S h =>
    (mx <= top)%N /\ in_hist H pend /\
    (forall e, In e pend -> rel lo hi (e_msg e) -> mx_lt (e_msn e) t) /\
    (lk = Chain -> chain_ok lo hi pend t) /\
    seg_all c (fun lo hi x => buf_ok H lo hi mx (fst x) /\ wf H top h lo hi (fst x ++ pend) (snd x)) lo hi ch
  | _, _ => False
  end.

(** ** The same messages to come, up to marks *)
Definition psub (lo hi : bound) (p p' : list ent) : Prop :=
  forall e, In e p -> rel lo hi (e_msg e) -> exists e', In e' p' /\ e_msn e' = e_msn e /\ e_msg e' = e_msg e /\
    (once (e_msg e) = true -> (e_tag e' = Fresh <-> e_tag e = Fresh)).
Definition peq (lo hi : bound) (p p' : list ent) : Prop := psub lo hi p p' /\ psub lo hi p' p.

Lemma psub_sub lo hi lo' hi' p p' : psub lo hi p p' -> sub c lo' hi' lo hi -> psub lo' hi' p p'.
Proof. intros K S e I R. apply K; auto. eapply rel_sub; eauto. Qed.
Lemma psub_app lo hi p p' q : psub lo hi p p' -> psub lo hi (q ++ p) (q ++ p').
Proof.
  intros K e I R. apply in_app_or in I. destruct I as [I|I].
  - exists e. split; [apply in_or_app; auto|tauto].
  - destruct (K e I R) as (e' & I' & X). exists e'. split; [apply in_or_app; auto|exact X].
Qed.
Lemma peq_sub lo hi lo' hi' p p' : peq lo hi p p' -> sub c lo' hi' lo hi -> peq lo' hi' p p'.
Proof. intros [A1 A2] S. split; eapply psub_sub; eauto. Qed.
Lemma peq_app lo hi p p' q : peq lo hi p p' -> peq lo hi (q ++ p) (q ++ p').
Proof. intros [A1 A2]. split; apply psub_app; auto. Qed.
Lemma peq_refl lo hi p : peq lo hi p p.
Proof. split; intros e I R; exists e; tauto. Qed.

Lemma peq_mem H top lo hi p p' n m : hist_ok H top -> in_hist H p -> in_hist H p' -> peq lo hi p p' -> In (n, m) H -> rel lo hi m -> (mem n p <-> mem n p').
Proof.
  intros HO I1 I2 [P1 P2] I R. split.
  - intros (e & Ie & <-). assert (e_msg e = m) as <- by (eapply hist_unique; eauto).
    destruct (P1 e Ie R) as (e' & Ie' & Q & _). exists e'; auto.
  - intros (e & Ie & <-). assert (e_msg e = m) as <- by (eapply hist_unique; eauto).
    destruct (P2 e Ie R) as (e' & Ie' & Q & _). exists e'; auto.
Qed.

Lemma view_pend H top lo hi p p' mx r : hist_ok H top -> in_hist H p -> in_hist H p' -> peq lo hi p p' -> view H lo hi p mx r -> view H lo hi p' mx r.
Proof.
  intros HO I1 I2 P V. eapply view_ext; [exact V|]. intros n m I R. unfold todo.
  rewrite (peq_mem _ _ _ _ _ _ _ _ HO I1 I2 P I R). tauto.
Qed.

Lemma bn_pend H top lo hi p p' b : hist_ok H top -> in_hist H p -> in_hist H p' -> peq lo hi p p' -> bn_ok H top lo hi p b -> bn_ok H top lo hi p' b.
Proof.
  intros HO I1 I2 P (V & T & F). split; [apply (view_pend H top lo hi p p'); auto|]. split; [exact T|].
  intros Fl e Ie O R NF. destruct P as [P1 P2]. destruct (P2 e Ie (or_intror R)) as (e' & Ie' & Q1 & Q2 & Q3).
  rewrite <- Q1. apply (F Fl e' Ie'); [rewrite Q2; exact O|rewrite Q2; exact R|rewrite (Q3 O); exact NF].
Qed.

Lemma slot_pend H top lo hi p p' nm d s : hist_ok H top -> in_hist H p -> in_hist H p' -> peq lo hi p p' -> slot_ok H top p nm d lo hi s -> slot_ok H top p' nm d lo hi s.
Proof.
  intros HO I1 I2 P [K1 K2]. split.
  - destruct (s_mem s); auto. destruct K1; split; auto. apply (bn_pend H top lo hi p p'); auto.
  - intros D. apply (view_pend H top lo hi p p'); auto.
Qed.

Lemma ec_psub lo hi p p' s : ec lo hi p s -> psub lo hi p' p -> ec lo hi p' s.
Proof.
  intros K P e I R. destruct (P e I R) as (e' & I' & Q1 & Q2 & _). rewrite <- Q1. apply K; auto. rewrite Q2; auto.
Qed.

Lemma wf_pend H top : hist_ok H top -> forall h lo hi p p' t, wf H top h lo hi p t -> peq lo hi p p' -> in_hist H p' -> wf H top h lo hi p' t.
Proof.
  intros HO. induction h as [|h IH]; intros lo hi p p' [l|mx lk ch] W P IP; cbn in *; try contradiction.
  - destruct W as (I1 & T & S & EC). split; [auto|]. split; [auto|]. split.
    + eapply (seg_all_impl ok); [exact S|]. intros lo' hi' x Sx Hx. apply (slot_pend H top lo' hi' p p'); auto. eapply peq_sub; eauto.
    + intros D. eapply ec_psub; [apply EC; auto|apply P].
  - destruct W as (T & I1 & M & CH & S). split; [auto|]. split; [auto|]. split; [|split].
    + intros e Ie R. destruct P as [_ P2]. destruct (P2 e Ie R) as (e' & Ie' & Q1 & Q2 & _). rewrite <- Q1. apply M; auto. rewrite Q2; auto.
    + intros LK e Ie R. destruct P as [_ P2]. destruct (P2 e Ie R) as (e' & Ie' & Q1 & Q2 & Q3).
      destruct (CH LK e' Ie') as (K1 & K2); [rewrite Q2; auto|]. rewrite <- Q1. split; [|exact K2].
      intros O. apply Q3; auto. apply K1. rewrite Q2; auto.
    + eapply (seg_all_impl ok); [exact S|]. cbn. intros lo' hi' x Sx (B & W). split; [exact B|].
      eapply IH; [exact W|apply peq_app; eapply peq_sub; eauto|].
      intros e Ie. apply in_app_or in Ie. destruct Ie as [Ie|Ie]; auto. apply B. exact Ie.
Qed.

Lemma wf_in_hist H top h lo hi p t : wf H top h lo hi p t -> in_hist H p.
Proof. destruct t, h; cbn; try tauto. intros K. apply K. Qed.

(** ** Nothing in the tree is beyond [top] *)
Lemma wf_seen H top n : (top < n)%N -> forall h lo hi p t, wf H top h lo hi p t -> seen_lt n t /\ mx_lt n t.
Proof.
  intros LT. induction h as [|h IH]; intros lo hi p [l|mx lk ch] W; cbn [wf] in W; try contradiction.
  - destruct W as (I1 & T & S & EC). split; [|exact Logic.I]. split; [lia|]. intros x Ix b Eb.
    destruct (seg_all_In ok _ _ _ _ _ S Ix) as (lo' & hi' & _ & K & _). rewrite Eb in K. destruct K as ((_ & K & _) & _). lia.
  - destruct W as (T & I1 & M & CH & S). rewrite seen_lt_node, mx_lt_node. split; [|split; [lia|]].
    + intros x Ix. destruct (seg_all_In ok _ _ _ _ _ S Ix) as (lo' & hi' & _ & _ & K). eapply IH; eauto.
    + intros x Ix. destruct (seg_all_In ok _ _ _ _ _ S Ix) as (lo' & hi' & _ & _ & K). eapply IH; eauto.
Qed.

(** ** A new message *)
Definition grown (n : N) (m : msg) (lo hi : bound) (p p' : list ent) : Prop :=
  (forall e, In e p' -> In e p \/ e = Ent n m Fresh) /\ (forall e, In e p -> In e p') /\
  (rel lo hi m -> In (Ent n m Fresh) p').

Lemma grown_sub n m lo hi lo' hi' p p' q : grown n m lo hi p p' -> sub c lo' hi' lo hi -> grown n m lo' hi' (q ++ p) (q ++ p').
Proof.
  intros (A1 & A2 & A3) S. split; [|split].
  - intros e I. rewrite in_app_iff in *. destruct I as [I|I]; auto. destruct (A1 e I); auto.
  - intros e I. rewrite in_app_iff in *. destruct I; auto.
  - intros R. apply in_or_app. right. apply A3. eapply rel_sub; eauto.
Qed.

Lemma view_grow H top n m lo hi p p' mx r : hist_ok H top -> (top < n)%N -> in_hist H p -> grown n m lo hi p p' -> (mx <= top)%N ->
  view H lo hi p mx r -> view (H ++ [(n, m)]) lo hi p' mx r.
Proof.
  intros HO LT I1 (A1 & A2 & A3) LM (S & I & K). split; [exact S|]. split; [exact I|]. intros k Rk.
  eapply ko_grow; [apply K; auto| | |].
  - intros x Ix. destruct HO as [_ F]. rewrite Forall_forall in F. specialize (F _ Ix). lia.
  - intros n' m' I' C. unfold todo, mem. assert (n' <= top)%N. { destruct HO as [_ F]. rewrite Forall_forall in F. apply (F _ I'). }
    split; intros (Q1 & e & Ie & Q2); split; auto; exists e; split; auto. destruct (A1 e Ie) as [|Ee]; auto. subst e. cbn in Q2. lia.
  - intros C. split; [lia|]. exists (Ent n m Fresh). split; [|reflexivity]. apply A3. eapply concerns_rel; eauto.
Qed.

Lemma in_hist_grow H n m lo hi p p' : in_hist H p -> grown n m lo hi p p' -> in_hist (H ++ [(n, m)]) p'.
Proof.
  intros I (A1 & _) e Ie. apply in_or_app. destruct (A1 e Ie) as [Ie'|Ee]; [left; auto|]. subst e. right. cbn. auto.
Qed.

Lemma hist_grow H top n m : hist_ok H top -> (top < n)%N -> hist_ok (H ++ [(n, m)]) n.
Proof.
  intros [S F] LT. rewrite Forall_forall in F. split.
  - rewrite map_app. apply SS_app. split; [exact S|]. split; [constructor; constructor|].
    intros x y Ix [<-|[]]. apply in_map_iff in Ix. destruct Ix as (z & <- & Iz). specialize (F _ Iz). cbn. lia.
  - rewrite Forall_app, Forall_forall. split; [|constructor; [cbn; lia|constructor]]. intros x Ix. specialize (F _ Ix). cbn in *. lia.
Qed.

Lemma wf_grow H top n m : hist_ok H top -> (top < n)%N -> forall h lo hi p p' t, wf H top h lo hi p t -> grown n m lo hi p p' ->
  wf (H ++ [(n, m)]) n h lo hi p' t.
Proof.
  intros HO LT. induction h as [|h IH]; intros lo hi p p' [l|mx lk ch] W GR; pose proof W as W0; cbn [wf] in W; try contradiction.
  - destruct W as (I1 & T & S & EC). split; [eapply in_hist_grow; eauto|]. split; [lia|]. split.
    + eapply (seg_all_impl ok); [exact S|]. intros lo' hi' x Sx (K1 & K2).
      assert (GR' : grown n m lo' hi' p p') by (apply (grown_sub n m lo hi lo' hi' p p' [] GR Sx)).
      split.
      * destruct (s_mem x) as [b|]; auto. destruct K1 as ((V & T1 & F) & K1). split; [|exact K1]. split; [eapply view_grow; eauto|].
        split; [lia|]. intros Fl e Ie O R NF. destruct GR as (A1 & _). destruct (A1 e Ie) as [Ie'|Ee]; [auto|]. subst e. cbn in NF. congruence.
      * intros D. eapply view_grow; eauto.
    + intros D e Ie R. destruct GR as (A1 & A2 & _). destruct (A1 e Ie) as [Ie'|Ee].
      * apply EC; auto.
      * subst e. right. intros x b Ix Eb. destruct (wf_seen H top n LT 0 lo hi p (TLeaf l) W0) as ((_ & K) & _). exact (K x Ix b Eb).
  - destruct W as (T & I1 & M & CH & S). destruct (wf_seen H top n LT (Datatypes.S h) lo hi p (TNode mx lk ch) W0) as (SN & MX).
    destruct GR as (A1 & A2 & A3) eqn:EGR. clear EGR. cbn [wf]. split; [lia|]. split; [eapply in_hist_grow; eauto|]. split; [|split].
    + intros e Ie R. destruct (A1 e Ie) as [Ie'|Ee]; [auto|]. subst e. exact MX.
    + intros LK e Ie R. destruct (A1 e Ie) as [Ie'|Ee]; [apply CH; auto|]. subst e. cbn. auto.
    + eapply (seg_all_impl ok); [exact S|]. cbn. intros lo' hi' x Sx ((B1 & B2) & W). split.
      * split; [exact B1|]. intros e Ie. destruct (B2 e Ie) as (Q1 & Q2 & Q3). split; [apply in_or_app; auto|]. split; [auto|lia].
      * eapply IH; [exact W|]. eapply grown_sub; eauto.
Qed.
End I.
