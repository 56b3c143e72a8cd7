(** Putting messages into nodes; bringing leaves into memory. *)
From Verif Require Import Base Bytes LtSpec KOrd LtTreeProofs FtModel FtSpec FtSeg FtRows FtInv.
From Coq Require Import Sorted.
Open Scope nat_scope.

Section P.
Context {E : env} {TM : timing E} (ok : cmp_ok (kcmp E)).
Local Notation c := (kcmp E).
Local Notation L := (L E).
Local Notation G := (G E).
Local Notation msg := (gmsg (A E)).
Local Notation rows := (rows E).
Local Notation ent := (ent E).
Local Notation slot := (slot E).
Local Notation leaf := (leaf E).
Local Notation tree := (tree E).
Implicit Types (pend : list ent) (t : tree).

Lemma forallb_In {X} (f : X -> bool) l : forallb f l = true <-> forall x, In x l -> f x = true.
Proof. apply forallb_forall. Qed.

(** ** Fetching and dropping *)
Lemma slot_fetch_ok H top pend nm d lo hi s : (nm <= top)%N -> slot_ok H top pend nm d lo hi s -> slot_ok H top pend nm d lo hi (slot_fetch nm s).
Proof.
  intros T [K1 K2]. unfold slot_fetch. destruct (s_mem s) eqn:M.
  - split; rewrite ?M; auto.
  - split; cbn; auto. split; [|lia]. split; [auto|]. split; [exact T|]. cbn. discriminate.
Qed.

Lemma slot_fetch_mem nm (s : slot) : in_mem (slot_fetch nm s) = true.
Proof. unfold slot_fetch, in_mem. destruct (s_mem s) eqn:M; cbn; rewrite ?M; reflexivity. Qed.

Lemma dirty_all_mem H top pend nm lo hi lo' hi' s : seg_all c (slot_ok H top pend nm true) lo hi s -> lo' = lo -> hi' = hi -> forall x, In x (seg_list s) -> in_mem x = true.
Proof.
  intros K _ _ x I. destruct (seg_all_In ok _ _ _ _ _ K I) as (? & ? & _ & K1 & _).
  unfold in_mem. destruct (s_mem x); auto; try discriminate.
Qed.

Lemma map_id_In {X} (f : X -> X) l : (forall x, In x l -> f x = x) -> map f l = l.
Proof. induction l as [|x l IH]; cbn; intros K; auto. rewrite K, IH; auto. Qed.

Lemma leaf_fetch_ok H top lo hi pend ecp (l : leaf) : leaf_ok H top lo hi pend ecp l ->
  leaf_ok H top lo hi pend ecp (Leaf (l_max l) (l_dirty l) (seg_map (slot_fetch (l_max l)) (l_parts l))).
Proof.
  intros (I & T & S & EC). split; [exact I|]. split; [exact T|]. cbn. split.
  - eapply (seg_map_all ok); [exact S|]. intros. apply slot_fetch_ok; auto.
  - intros D. rewrite seg_list_map. rewrite map_id_In; auto. intros x Ix. rewrite D in S.
    pose proof (dirty_all_mem _ _ _ _ _ _ _ _ _ S eq_refl eq_refl x Ix) as M. unfold in_mem in M. unfold slot_fetch. destruct (s_mem x); congruence.
Qed.
Lemma wf_fetch H top h lo hi pend t : wf H top h lo hi pend t -> wf H top h lo hi pend (fetch_all t).
Proof. destruct t, h; cbn; auto. apply leaf_fetch_ok. Qed.
Lemma fetch_mx B t : mx_lt B t -> mx_lt B (fetch_all t).
Proof. destruct t; cbn; auto. Qed.
Lemma slot_fetch_seen B nm (x : slot) : (nm < B)%N -> slot_seen B x -> slot_seen B (slot_fetch nm x).
Proof. intros LT K b. unfold slot_fetch. destruct (s_mem x) eqn:M; [apply K|]. cbn. intros [= <-]. exact LT. Qed.
Lemma fetch_seen B t : seen_lt B t -> seen_lt B (fetch_all t).
Proof.
  destruct t as [l|]; cbn [fetch_all]; auto. intros (K1 & K2). split; [exact K1|]. cbn. intros x. rewrite seg_list_map, in_map_iff.
  intros (y & <- & Iy). apply slot_fetch_seen; auto.
Qed.
Lemma fetch_lock t : lock_of (fetch_all t) = lock_of t.
Proof. destruct t; reflexivity. Qed.
Lemma fetch_leaf t : is_leaf (fetch_all t) = is_leaf t.
Proof. destruct t; reflexivity. Qed.

Lemma slot_destroy_ok H top pend nm mx lo hi s : slot_ok H top pend nm false lo hi s -> slot_ok H top pend nm false lo hi (slot_destroy mx s).
Proof.
  intros [K1 K2]. unfold slot_destroy. destruct (s_mem s) as [b|] eqn:M.
  - destruct (mx <? b_max b)%N; split; cbn; rewrite ?M; auto.
  - split; rewrite ?M; auto.
Qed.
Lemma wf_destroy H top h lo hi pend t mx : wf H top h lo hi pend t -> wf H top h lo hi pend (destroy_blbs mx t).
Proof.
  destruct t as [l|]; cbn [wf destroy_blbs]; auto. destruct h; [|cbn; tauto].
  destruct ((1 <? length (seg_list (l_parts l))) && negb (l_dirty l)) eqn:Q; auto.
  apply andb_prop in Q. destruct Q as (_ & D). apply negb_true_iff in D. intros (I & T & S & EC).
  split; [exact I|]. split; [exact T|]. cbn. rewrite D in *. split; [|discriminate].
  eapply (seg_map_all ok); [exact S|]. intros. apply slot_destroy_ok; auto.
Qed.
Lemma destroy_mx B mx t : mx_lt B t -> mx_lt B (destroy_blbs mx t).
Proof. destruct t as [l|]; cbn [destroy_blbs]; auto. destruct ((1 <? length (seg_list (l_parts l))) && negb (l_dirty l)); auto. Qed.
Lemma destroy_seen B mx t : seen_lt B t -> seen_lt B (destroy_blbs mx t).
Proof.
  destruct t as [l|]; cbn [destroy_blbs]; auto. destruct ((1 <? length (seg_list (l_parts l))) && negb (l_dirty l)); auto.
  intros (K1 & K2). split; [exact K1|]. cbn. intros x. rewrite seg_list_map, in_map_iff. intros (y & <- & Iy) b.
  unfold slot_destroy. specialize (K2 y Iy). destruct (s_mem y) as [b'|] eqn:M; [|rewrite M; discriminate].
  destruct (mx <? b_max b')%N; [discriminate|]. rewrite M. intros [= <-]. apply K2. exact M.
Qed.

Lemma wf_pin H top h lo hi pend lk mx t : wf H top h lo hi pend t -> wf H top h lo hi pend (pin_child lk mx t).
Proof. intros W. unfold pin_child. apply wf_fetch. destruct lk; auto. apply wf_destroy. exact W. Qed.
Lemma pin_mx B lk mx t : mx_lt B t -> mx_lt B (pin_child lk mx t).
Proof. intros W. unfold pin_child. apply fetch_mx. destruct lk; auto. apply destroy_mx. exact W. Qed.
Lemma pin_seen B lk mx t : seen_lt B t -> seen_lt B (pin_child lk mx t).
Proof. intros W. unfold pin_child. apply fetch_seen. destruct lk; auto. apply destroy_seen. exact W. Qed.
Lemma pin_lock lk mx t : lock_of (pin_child lk mx t) = lock_of t.
Proof.
  unfold pin_child. rewrite fetch_lock. destruct lk; auto. destruct t as [l|]; cbn [destroy_blbs]; auto.
  destruct ((1 <? length (seg_list (l_parts l))) && negb (l_dirty l)); auto.
Qed.
Lemma pin_node lk mx m l ch : pin_child lk mx (TNode (E:=E) m l ch) = TNode m l ch.
Proof. unfold pin_child. destruct lk; reflexivity. Qed.
Lemma pin_leaf lk mx (l : leaf) : exists l', pin_child lk mx (TLeaf l) = TLeaf l' /\ (forall x, In x (seg_list (l_parts l')) -> in_mem x = true) /\ l_dirty l' = l_dirty l.
Proof.
  unfold pin_child. assert (K : forall l0 : leaf, exists l', fetch_all (TLeaf l0) = TLeaf l' /\ (forall x, In x (seg_list (l_parts l')) -> in_mem x = true) /\ l_dirty l' = l_dirty l0).
  { intros l0. cbn. eexists. split; [reflexivity|]. split; [|reflexivity]. cbn. intros x. rewrite seg_list_map, in_map_iff. intros (y & <- & _). apply slot_fetch_mem. }
  destruct lk; try apply K. cbn [destroy_blbs]. destruct ((1 <? length (seg_list (l_parts l))) && negb (l_dirty l)); [|apply K].
  match goal with |- context [fetch_all (TLeaf ?x)] => destruct (K x) as (l' & K1 & K2 & K3) end. exists l'. rewrite K1. auto.
Qed.

(** A leaf is about to be changed. *)
Lemma leaf_dirty H top lo hi pend ecp0 ecp (l : leaf) : leaf_ok H top lo hi pend ecp0 l -> (forall x, In x (seg_list (l_parts l)) -> in_mem x = true) ->
  ec lo hi ecp (seg_list (l_parts l)) -> leaf_ok H top lo hi pend ecp (Leaf (l_max l) true (l_parts l)).
Proof.
  intros (I & T & S & EC) M EC'. split; [exact I|]. split; [exact T|]. cbn. split; [|auto].
  clear EC EC'. revert S M. generalize (l_parts l). intros s.
  assert (X : forall lo hi x, slot_ok H top pend (l_max l) (l_dirty l) lo hi x -> in_mem x = true -> slot_ok H top pend (l_max l) true lo hi x).
  { intros lo2 hi2 x [K1 K2] M. split; [|discriminate]. unfold in_mem in M. destruct (s_mem x); [|discriminate]. destruct K1; split; auto. discriminate. }
  revert lo hi. induction s; cbn; intros lo hi K M.
  - destruct K; split; auto.
  - destruct K as (B & K & K'). split; [exact B|]. split; auto.
Qed.

Lemma fetch_id_dirty (l : leaf) : (forall x, In x (seg_list (l_parts l)) -> in_mem x = true) -> seg_list (seg_map (slot_fetch (l_max l)) (l_parts l)) = seg_list (l_parts l).
Proof.
  intros K. rewrite seg_list_map. apply map_id_In. intros x Ix. specialize (K x Ix). unfold in_mem in K. unfold slot_fetch. destruct (s_mem x); congruence.
Qed.

(** After pinning under a locked parent, the leaf may be dirtied. *)
Lemma pin_ec H top lo hi buf pend lk mx (l l' : leaf) : leaf_ok H top lo hi (buf ++ pend) (buf ++ pend) l ->
  lk <> Free ->
  (lk = Chain -> forall e, In e pend -> rel lo hi (e_msg e) -> seen_lt (e_msn e) (TLeaf l)) ->
  (forall e, In e pend -> rel lo hi (e_msg e) -> (mx < e_msn e)%N) ->
  pin_child lk mx (TLeaf l) = TLeaf l' -> ec lo hi pend (seg_list (l_parts l')).
Proof.
  intros (I & T & S & EC) NF CH MX PC e Ie R.
  destruct lk; [congruence| |].
  - right. specialize (CH eq_refl e Ie R). apply (pin_seen _ Chain mx) in CH. rewrite PC in CH. destruct CH as (_ & CH).
    intros x b Ix Eb. exact (CH x Ix b Eb).
  - unfold pin_child in PC. destruct (l_dirty l) eqn:D.
    + cbn [destroy_blbs] in PC. rewrite D, andb_false_r in PC. cbn in PC. injection PC as <-. cbn. rewrite fetch_id_dirty.
      * apply (EC eq_refl); [apply in_or_app; auto|exact R].
      * intros x Ix. eapply dirty_all_mem; eauto.
    + cbn [destroy_blbs] in PC. rewrite D in PC. cbn [negb] in PC. rewrite andb_true_r in PC.
      destruct (1 <? length (seg_list (l_parts l))) eqn:LEN; injection PC as <-; cbn [l_parts l_max].
      * specialize (MX e Ie R). destruct (N.ltb_spec mx (l_max l)).
        -- destruct (N.le_gt_cases (e_msn e) (l_max l)).
           ++ left. intros x b. rewrite !seg_list_map, map_map, in_map_iff. intros (y & <- & Iy).
              destruct (seg_all_In ok _ _ _ _ _ S Iy) as (lo' & hi' & _ & K & _).
              unfold slot_destroy. destruct (s_mem y) as [b'|] eqn:M.
              ** destruct (N.ltb_spec mx (b_max b')); unfold slot_fetch; cbn; rewrite ?M; cbn; rewrite ?M; intros [= <-]; cbn; try lia.
              ** unfold slot_fetch. rewrite M. cbn. intros [= <-]. cbn. lia.
           ++ right. intros x b. rewrite !seg_list_map, map_map, in_map_iff. intros (y & <- & Iy).
              destruct (seg_all_In ok _ _ _ _ _ S Iy) as (lo' & hi' & _ & K & _).
              unfold slot_destroy. destruct (s_mem y) as [b'|] eqn:M.
              ** destruct (N.ltb_spec mx (b_max b')); unfold slot_fetch; cbn; rewrite ?M; cbn; rewrite ?M; intros [= <-]; cbn; try lia.
              ** unfold slot_fetch. rewrite M. cbn. intros [= <-]. cbn. lia.
        -- right. intros x b. rewrite !seg_list_map, map_map, in_map_iff. intros (y & <- & Iy).
           unfold slot_destroy. destruct (s_mem y) as [b'|] eqn:M.
           ** destruct (N.ltb_spec mx (b_max b')); unfold slot_fetch; cbn; rewrite ?M; cbn; rewrite ?M; intros [= <-]; cbn; try lia.
           ** unfold slot_fetch. rewrite M. cbn. intros [= <-]. cbn. lia.
      * destruct (l_parts l) as [x|x p s]; [|exfalso; apply Nat.ltb_ge in LEN; cbn in LEN; destruct s; cbn in LEN; lia].
        cbn. destruct (s_mem (slot_fetch (l_max l) x)) as [b|] eqn:M.
        -- destruct (N.le_gt_cases (e_msn e) (b_max b)); [left|right]; intros y b' [<-|[]]; rewrite M; intros [= <-]; lia.
        -- left. intros y b' [<-|[]]. congruence.
Qed.

(** ** One message into a leaf *)
Lemma in_hist_cons H e (p : list ent) : in_hist H (e :: p) <-> In (e_msn e, e_msg e) H /\ in_hist H p.
Proof.
  unfold in_hist. split.
  - intros K. split; [apply K; cbn; auto|intros; apply K; cbn; auto].
  - intros [K1 K2] x [<-|I]; auto.
Qed.

Lemma slot_put_ok H top (e : ent) rest nm nm' lo hi (s : slot) (g : G) : hist_ok H top -> in_hist H (e :: rest) ->
  slot_ok H top (e :: rest) nm true lo hi s -> rel lo hi (e_msg e) ->
  (forall e', In e' rest -> rel lo hi (e_msg e') -> (e_msn e < e_msn e')%N) -> fits g (e_msn e) ->
  slot_ok H top rest nm' true lo hi (slot_put g (e_msn e) (e_msg e) s).
Proof.
  intros HO IH [K1 _] R LT FI. pose proof IH as IH'. apply in_hist_cons in IH'. destruct IH' as (IE & IR).
  unfold slot_put. destruct (s_mem s) as [b|] eqn:M; [|discriminate]. destruct K1 as ((V & T & F) & _).
  assert (TOP : (e_msn e <= top)%N). { destruct HO as [_ FA]. rewrite Forall_forall in FA. exact (FA _ IE). }
  assert (MEM : forall n m, In (n, m) H -> rel lo hi m -> mem n rest -> (e_msn e < n)%N).
  { intros n m I Rm (e' & Ie' & <-). apply LT; auto. rewrite <- (hist_unique _ _ _ _ _ HO I (IR _ Ie')). exact Rm. }
  destruct (N.ltb_spec (b_max b) (e_msn e)) as [BL|BG].
  - split; [cbn|discriminate]. split; [|discriminate]. destruct V as (S & RI & K). split; [|split; [exact TOP|]].
    + split; [apply (bn_apply_sorted ok); auto|]. split; [apply bn_apply_rin; auto|]. intros k Rk. cbn.
      destruct (concerns_dec ok k (e_msg e)) as [C|NC].
      * rewrite (bn_apply_find ok) by auto. eapply ko_apply; [exact HO|apply K; auto|exact IE|exact C| |exact FI| |].
        -- split; [exact BL|]. exists e. cbn. auto.
        -- intros n' m' I' C' (_ & e' & [<-|Ie'] & Q); [lia|]. apply N.lt_le_incl. eapply MEM; eauto.
           ++ eapply concerns_rel; eauto.
           ++ exists e'; auto.
        -- intros n' m' I' C'. pose proof (concerns_rel ok _ _ _ _ Rk C') as Rm. unfold todo, mem. split.
           ++ intros (Q1 & e' & Ie' & Q2). split; [|lia]. split; [lia|]. exists e'. cbn; auto.
           ++ intros ((Q1 & e' & Ie' & Q2) & NE). destruct Ie' as [<-|Ie']; [congruence|].
              split; [|exists e'; auto]. eapply MEM; eauto. exists e'; auto.
      * rewrite (bn_apply_other ok) by auto. eapply ko_ext; [apply K; auto|]. intros n' m' I' C'.
        pose proof (concerns_rel ok _ _ _ _ Rk C') as Rm. unfold todo, mem. split.
        -- intros (Q1 & e' & Ie' & Q2). destruct Ie' as [<-|Ie'].
           ++ exfalso. apply NC. subst n'. rewrite (hist_unique _ _ _ _ _ HO IE I'). exact C'.
           ++ split; [|exists e'; auto]. eapply MEM; eauto. exists e'; auto.
        -- intros (Q1 & e' & Ie' & Q2). split; [lia|]. exists e'. cbn; auto.
    + cbn. intros Fl e' Ie' O RR NF. specialize (F Fl e' (or_intror Ie') O RR NF). lia.
  - split; [rewrite M|discriminate]. split; [|discriminate]. split; [|split; [exact T|]].
    + eapply view_ext; [exact ok|exact V|]. intros n m I Rm. unfold todo, mem. split.
      * intros (Q1 & e' & Ie' & Q2). split; [exact Q1|]. destruct Ie' as [<-|Ie']; [lia|]. exists e'; auto.
      * intros (Q1 & e' & Ie' & Q2). split; [exact Q1|]. exists e'. cbn; auto.
    + intros Fl e' Ie' O RR NF. apply F; cbn; auto.
Qed.

Lemma peq_drop lo hi (e : ent) rest : ~ rel lo hi (e_msg e) -> peq lo hi (e :: rest) rest.
Proof.
  intros NR. split; intros x Ix R.
  - destruct Ix as [<-|Ix]; [contradiction|]. exists x; tauto.
  - exists x. cbn. tauto.
Qed.

Lemma slot_put_seen B (g : G) n (m : msg) (x : slot) : (n < B)%N -> slot_seen B x -> slot_seen B (slot_put g n m x).
Proof.
  intros LT K b. unfold slot_put. destruct (s_mem x) as [b'|] eqn:M; [|rewrite M; discriminate].
  destruct (b_max b' <? n)%N; cbn; [intros [= <-]; cbn; lia|]. apply K.
Qed.

Lemma ec_put lo hi (ecp : list ent) (s s' : list slot) (g : G) n (m : msg) : ec lo hi ecp s -> (forall e, In e ecp -> rel lo hi (e_msg e) -> (n < e_msn e)%N) ->
  (forall x, In x s' -> In x s \/ exists y, In y s /\ x = slot_put g n m y) -> ec lo hi ecp s'.
Proof.
  intros K LT X e Ie R. specialize (LT e Ie R). destruct (K e Ie R) as [K1|K1]; [left|right]; intros x b Ix Eb.
  - destruct (X x Ix) as [I|(y & Iy & ->)]; [eauto|]. unfold slot_put in Eb. destruct (s_mem y) as [b'|] eqn:M; [|congruence].
    specialize (K1 y b' Iy M). destruct (N.ltb_spec (b_max b') n); cbn in Eb; [injection Eb as <-; cbn; lia|]. rewrite M in Eb. injection Eb as <-. lia.
  - destruct (X x Ix) as [I|(y & Iy & ->)]; [eauto|]. unfold slot_put in Eb. destruct (s_mem y) as [b'|] eqn:M; [|congruence].
    specialize (K1 y b' Iy M). destruct (N.ltb_spec (b_max b') n); cbn in Eb; [injection Eb as <-; cbn; lia|]. rewrite M in Eb. injection Eb as <-. lia.
Qed.

Lemma leaf_put_ok H top lo hi (e : ent) rest ecp (g : G) (l : leaf) : hist_ok H top ->
  leaf_ok H top lo hi (e :: rest) ecp l -> l_dirty l = true -> rel lo hi (e_msg e) ->
  (forall e', In e' rest -> rel lo hi (e_msg e') -> (e_msn e < e_msn e')%N) ->
  (forall e', In e' ecp -> rel lo hi (e_msg e') -> (e_msn e < e_msn e')%N) -> fits g (e_msn e) ->
  exists l', leaf_put g (e_msn e) (e_msg e) l = Ok l' /\ leaf_ok H top lo hi rest ecp l' /\ l_dirty l' = true /\
    (forall B, (e_msn e < B)%N -> seen_lt B (TLeaf l) -> seen_lt B (TLeaf l')).
Proof.
  intros HO (I & T & S & EC) D R LT LT2 FI. rewrite D in S. specialize (EC D). pose proof I as I'. apply in_hist_cons in I'. destruct I' as (IE & IR).
  assert (TOP : (e_msn e <= top)%N). { destruct HO as [_ FA]. rewrite Forall_forall in FA. exact (FA _ IE). }
  unfold leaf_put.
  rewrite (proj2 (forallb_In in_mem _)) by (intros x Ix; eapply dirty_all_mem; eauto).
  set (mx := if (l_max l <? e_msn e)%N then e_msn e else l_max l).
  assert (MX : (mx <= top)%N) by (unfold mx; destruct (l_max l <? e_msn e)%N; auto).
  assert (MXB : forall B, (e_msn e < B)%N -> (l_max l < B)%N -> (mx < B)%N) by (intros; unfold mx; destruct (l_max l <? e_msn e)%N; auto).
  destruct (once (e_msg e)) eqn:O.
  - destruct R as [R|R]; [congruence|].
    destruct (seg_which ok _ _ _ _ _ S R) as (i & lo' & hi' & a & W & Ra & Pa & Ba & Sa & Ia & AC).
    rewrite W. cbn [must].
    rewrite (seg_upd_bounds (fun s => Ok (One (slot_put g (e_msn e) (e_msg e) s), tt)) (l_parts l) None None lo hi i).
    specialize (AC _ (fun _ _ s => Ok (One (slot_put g (e_msn e) (e_msg e) s), tt))). cbn beta iota in AC.
    destruct AC as (s' & -> & IN & K). eexists. split; [reflexivity|].
    assert (IN' : forall x, In x (seg_list s') -> In x (seg_list (l_parts l)) \/ exists y, In y (seg_list (l_parts l)) /\ x = slot_put g (e_msn e) (e_msg e) y).
    { intros x Ix. destruct (IN x Ix) as [|[<-|[]]]; eauto. }
    split; [split; [exact IR|split; [exact MX|cbn; split]]|split; [reflexivity|]].
    + apply K.
      * intros lo2 hi2 b (K1 & _) Sb Db. split; [|discriminate].
        assert (NR : ~ rel lo2 hi2 (e_msg e)). { intros [|Q]; [congruence|]. exact (Db _ Ra Q). }
        destruct (s_mem b); [|discriminate]. destruct K1; split; [|discriminate]. apply (bn_pend ok H top lo2 hi2 (e :: rest) rest); auto. apply peq_drop; auto.
      * cbn. split; [exact Ba|]. eapply slot_put_ok; eauto.
        -- right. exact Ra.
        -- intros e' Ie' Re'. apply LT; auto. eapply rel_sub; eauto.
    + intros _. eapply ec_put; eauto.
    + intros B LB (S1 & S2). split; [cbn; auto|]. cbn. intros x Ix. destruct (IN' x Ix) as [Q|(y & Iy & ->)]; auto. apply slot_put_seen; auto.
  - eexists. split; [reflexivity|].
    split; [split; [exact IR|split; [exact MX|cbn; split]]|split; [reflexivity|]].
    + eapply (seg_map_all ok); [exact S|]. intros lo' hi' a Sa Ka. eapply slot_put_ok; eauto.
      * left. exact O.
      * intros e' Ie' Re'. apply LT; auto. eapply rel_sub; eauto.
    + intros _. eapply ec_put; eauto. intros x. rewrite seg_list_map, in_map_iff. intros (y & <- & Iy). right; eauto.
    + intros B LB (S1 & S2). split; [cbn; auto|]. cbn. intros x. rewrite seg_list_map, in_map_iff. intros (y & <- & Iy). apply slot_put_seen; auto.
Qed.

Lemma put_all_leaf H top lo hi ecp (g : G) : hist_ok H top -> forall buf (l : leaf),
  leaf_ok H top lo hi (buf ++ ecp) ecp l -> l_dirty l = true ->
  StronglySorted N.lt (map e_msn buf) -> (forall e, In e buf -> rel lo hi (e_msg e)) ->
  (forall e e', In e buf -> In e' ecp -> rel lo hi (e_msg e') -> (e_msn e < e_msn e')%N) -> (forall e, In e buf -> fits g (e_msn e)) ->
  exists l', put_all g buf (TLeaf l) = Ok (TLeaf l') /\ leaf_ok H top lo hi ecp ecp l' /\ l_dirty l' = true /\
    (forall B, (forall e, In e buf -> (e_msn e < B)%N) -> seen_lt B (TLeaf l) -> seen_lt B (TLeaf l')).
Proof.
  intros HO. induction buf as [|e buf IH]; intros l K D SS R LT FI.
  - exists l. cbn in *. auto.
  - cbn in SS. inversion SS as [|? ? SS' FA]; subst. rewrite Forall_map, Forall_forall in FA.
    destruct (leaf_put_ok H top lo hi e (buf ++ ecp) ecp g l HO K D) as (l1 & P1 & K1 & D1 & SN1).
    + apply R. cbn; auto.
    + intros e' Ie' Re'. apply in_app_or in Ie'. destruct Ie' as [Ie'|Ie']; auto. apply LT; cbn; auto.
    + intros e' Ie' Re'. apply LT; cbn; auto.
    + apply FI; cbn; auto.
    + destruct (IH l1 K1 D1 SS') as (l2 & P2 & K2 & D2 & SN2).
      * intros; apply R; cbn; auto.
      * intros; apply LT; cbn; auto.
      * intros; apply FI; cbn; auto.
      * exists l2. cbn. rewrite P1. split; [exact P2|]. split; [exact K2|]. split; [exact D2|].
        intros B LB SB. apply SN2; [intros; apply LB; cbn; auto|]. apply SN1; auto; apply LB; cbn; auto.
Qed.

(** ** One message into an inner node *)
Lemma demote_fresh (g : tag) : demote g = Fresh <-> g = Fresh.
Proof. destruct g; cbn; split; congruence. Qed.

Lemma peq_ins lo hi (e : ent) b rest : peq lo hi (b ++ e :: rest) ((b ++ [Ent (e_msn e) (e_msg e) (demote (e_tag e))]) ++ rest).
Proof.
  split; intros x Ix R.
  - apply in_app_or in Ix. destruct Ix as [Ix|[<-|Ix]].
    + exists x. split; [rewrite !in_app_iff; auto|tauto].
    + exists (Ent (e_msn e) (e_msg e) (demote (e_tag e))). split; [rewrite !in_app_iff; cbn; auto|]. cbn. split; [auto|]. split; [auto|]. intros _. apply demote_fresh.
    + exists x. split; [rewrite !in_app_iff; auto|tauto].
  - rewrite !in_app_iff in Ix. destruct Ix as [[Ix|[<-|[]]]|Ix].
    + exists x. split; [rewrite !in_app_iff; auto|tauto].
    + exists e. split; [rewrite !in_app_iff; cbn; auto|]. cbn. split; [auto|]. split; [auto|]. intros _. symmetry. apply demote_fresh.
    + exists x. split; [rewrite !in_app_iff; cbn; auto|tauto].
Qed.

Lemma node_put_ok H top h lo hi (e : ent) rest (g : G) mx lk ch : hist_ok H top ->
  wf H top (S h) lo hi (e :: rest) (TNode mx lk ch) -> lk = Free -> rel lo hi (e_msg e) ->
  (forall e', In e' rest -> rel lo hi (e_msg e') -> (e_msn e < e_msn e')%N) ->
  exists ch', node_put g (e_msn e) (e_msg e) (e_tag e) (TNode mx lk ch) = Ok (TNode (e_msn e) lk ch') /\
    wf H top (S h) lo hi rest (TNode (e_msn e) lk ch') /\
    (forall B, (e_msn e < B)%N -> mx_lt B (TNode mx lk ch) -> mx_lt B (TNode (e_msn e) lk ch')) /\
    (forall B, seen_lt B (TNode mx lk ch) -> seen_lt B (TNode (e_msn e) lk ch')).
Proof.
  intros HO (T & I & M & CH & S) LK R LT. pose proof I as I'. apply in_hist_cons in I'. destruct I' as (IE & IR).
  assert (TOP : (e_msn e <= top)%N). { destruct HO as [_ FA]. rewrite Forall_forall in FA. exact (FA _ IE). }
  pose proof (M e (or_introl eq_refl) R) as ME. apply mx_lt_node in ME. destruct ME as (MXE & ME).
  unfold node_put. rewrite (proj2 (N.ltb_lt _ _) MXE).
  (* the buffer of a child that gets the message *)
  assert (INS : forall lo' hi' x, sub c lo' hi' lo hi -> rel lo' hi' (e_msg e) ->
    buf_ok H lo' hi' mx (fst x) /\ wf H top h lo' hi' (fst x ++ e :: rest) (snd x) ->
    buf_ok H lo' hi' (e_msn e) (fst (ins (e_msn e) (e_msg e) (e_tag e) x)) /\
    wf H top h lo' hi' (fst (ins (e_msn e) (e_msg e) (e_tag e) x) ++ rest) (snd (ins (e_msn e) (e_msg e) (e_tag e) x))).
  { intros lo' hi' x Sx Rx ((B1 & B2) & W). cbn [ins fst snd]. split.
    - split.
      + rewrite map_app. apply SS_app. split; [exact B1|]. split; [constructor; constructor|].
        intros a b Ia [<-|[]]. apply in_map_iff in Ia. destruct Ia as (z & <- & Iz). destruct (B2 z Iz) as (_ & _ & Q). cbn. lia.
      + intros z. rewrite in_app_iff. intros [Iz|[<-|[]]]; cbn; auto.
        * destruct (B2 z Iz) as (Q1 & Q2 & Q3). split; [auto|]. split; [auto|lia].
        * split; [auto|]. split; [auto|lia].
    - eapply (wf_pend ok H top HO); [exact W|apply peq_ins|]. intros z. rewrite !in_app_iff. intros [[Iz|[<-|[]]]|Iz]; auto. apply B2; auto. }
  assert (OTHER : forall lo' hi' x, sub c lo' hi' lo hi -> ~ rel lo' hi' (e_msg e) ->
    buf_ok H lo' hi' mx (fst x) /\ wf H top h lo' hi' (fst x ++ e :: rest) (snd x) ->
    buf_ok H lo' hi' (e_msn e) (fst x) /\ wf H top h lo' hi' (fst x ++ rest) (snd x)).
  { intros lo' hi' x Sx Rx ((B1 & B2) & W). split.
    - split; auto. intros z Iz. destruct (B2 z Iz) as (Q1 & Q2 & Q3). split; [auto|]. split; [auto|lia].
    - eapply (wf_pend ok H top HO); [exact W|apply peq_app; apply peq_drop; exact Rx|]. intros z. rewrite in_app_iff. intros [Iz|Iz]; auto. apply B2; auto. }
  assert (FIN : forall ch', (forall x, In x (seg_list ch') -> In x (seg_list ch) \/ exists y, In y (seg_list ch) /\ x = ins (e_msn e) (e_msg e) (e_tag e) y) ->
    (forall B, (e_msn e < B)%N -> mx_lt B (TNode mx lk ch) -> mx_lt B (TNode (e_msn e) lk ch')) /\
    (forall B, seen_lt B (TNode mx lk ch) -> seen_lt B (TNode (e_msn e) lk ch'))).
  { intros ch' IN. split; intros B.
    - intros LB. rewrite !mx_lt_node. intros (_ & K). split; [exact LB|]. intros x Ix. destruct (IN x Ix) as [|(y & Iy & ->)]; cbn; auto.
    - rewrite !seen_lt_node. intros K x Ix. destruct (IN x Ix) as [|(y & Iy & ->)]; cbn; auto. }
  assert (FIN2 : forall ch', (forall x, In x (seg_list ch') -> In x (seg_list ch) \/ exists y, In y (seg_list ch) /\ x = ins (e_msn e) (e_msg e) (e_tag e) y) ->
    seg_all c (fun lo hi x => buf_ok H lo hi (e_msn e) (fst x) /\ wf H top h lo hi (fst x ++ rest) (snd x)) lo hi ch' ->
    wf H top (Datatypes.S h) lo hi rest (TNode (e_msn e) lk ch')).
  { intros ch' IN K. cbn [wf]. split; [exact TOP|]. split; [exact IR|]. split; [|split; [congruence|exact K]].
    intros e' Ie' Re'. apply (proj1 (FIN ch' IN)); auto. apply M; cbn; auto. }
  destruct (once (e_msg e)) eqn:O.
  - destruct R as [R|R]; [congruence|].
    destruct (seg_which ok _ _ _ _ _ S R) as (i & lo' & hi' & a & W & Ra & Pa & Ba & Sa & Ia & AC).
    rewrite W. cbn [must].
    rewrite (seg_upd_bounds (fun x => Ok (One (ins (e_msn e) (e_msg e) (e_tag e) x), tt)) ch None None lo hi i).
    specialize (AC _ (fun _ _ x => Ok (One (ins (e_msn e) (e_msg e) (e_tag e) x), tt))). cbn beta iota in AC.
    destruct AC as (ch' & -> & IN & K). exists ch'. split; [reflexivity|].
    assert (IN' : forall x, In x (seg_list ch') -> In x (seg_list ch) \/ exists y, In y (seg_list ch) /\ x = ins (e_msn e) (e_msg e) (e_tag e) y).
    { intros x Ix. destruct (IN x Ix) as [|[<-|[]]]; eauto. }
    split; [|apply FIN; exact IN'].
    apply FIN2; [exact IN'|]. apply K.
    + intros lo2 hi2 b Kb Sb Db. apply OTHER; auto. intros [|Q]; [congruence|]. exact (Db _ Ra Q).
    + cbn. split; [exact Ba|]. apply (INS lo' hi' a); auto. right. exact Ra.
  - exists (seg_map (ins (e_msn e) (e_msg e) (e_tag e)) ch). split; [reflexivity|].
    assert (IN' : forall x, In x (seg_list (seg_map (ins (e_msn e) (e_msg e) (e_tag e)) ch)) -> In x (seg_list ch) \/ exists y, In y (seg_list ch) /\ x = ins (e_msn e) (e_msg e) (e_tag e) y).
    { intros x. rewrite seg_list_map, in_map_iff. intros (y & <- & Iy). right; eauto. }
    split; [|apply FIN; exact IN']. apply FIN2; [exact IN'|].
    eapply (seg_map_all ok); [exact S|]. intros lo' hi' a Sa Ka. apply INS; auto. left; exact O.
Qed.

Lemma put_all_node H top h lo hi ecp (g : G) : hist_ok H top -> forall buf mx ch,
  wf H top (S h) lo hi (buf ++ ecp) (TNode mx Free ch) ->
  StronglySorted N.lt (map e_msn buf) -> (forall e, In e buf -> rel lo hi (e_msg e)) ->
  (forall e e', In e buf -> In e' ecp -> rel lo hi (e_msg e') -> (e_msn e < e_msn e')%N) ->
  exists mx' ch', put_all g buf (TNode mx Free ch) = Ok (TNode mx' Free ch') /\ wf H top (S h) lo hi ecp (TNode mx' Free ch') /\
    (forall B, (forall e, In e buf -> (e_msn e < B)%N) -> mx_lt B (TNode mx Free ch) -> mx_lt B (TNode mx' Free ch')) /\
    (forall B, seen_lt B (TNode mx Free ch) -> seen_lt B (TNode mx' Free ch')).
Proof.
  intros HO. induction buf as [|e buf IH]; intros mx ch K SS R LT.
  - exists mx, ch. cbn [put_all app] in *. auto.
  - cbn in SS. inversion SS as [|? ? SS' FA]; subst. rewrite Forall_map, Forall_forall in FA.
    destruct (node_put_ok H top h lo hi e (buf ++ ecp) g mx Free ch HO K eq_refl) as (ch1 & P1 & K1 & M1 & SN1).
    + apply R. cbn; auto.
    + intros e' Ie' Re'. apply in_app_or in Ie'. destruct Ie' as [Ie'|Ie']; auto. apply LT; cbn; auto.
    + destruct (IH _ _ K1 SS') as (mx2 & ch2 & P2 & K2 & M2 & SN2).
      * intros; apply R; cbn; auto.
      * intros; apply LT; cbn; auto.
      * exists mx2, ch2. cbn [put_all]. rewrite P1. split; [exact P2|]. split; [exact K2|]. split.
        -- intros B LB SB. apply M2; [intros; apply LB; cbn; auto|]. apply M1; auto; apply LB; cbn; auto.
        -- intros B SB. auto.
Qed.
End P.
