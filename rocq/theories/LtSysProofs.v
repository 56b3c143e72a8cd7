(** The row lock system: what holds of every reachable state. *)
From Coq Require Import Sorting.Sorted Sorting.Permutation.
From Verif Require Import Base Bytes LtTreeModel RangeBufModel LtModel WfgModel LtSpec LtSysModel
  LtTreeProofs RangeBufProofs LtProofs LtEscalate WfgProofs.
Open Scope N_scope.

(** ** Histories *)

Lemma snoc_split {A} (h : list A) e h1 a h2 : h ++ [e] = h1 ++ a :: h2 ->
  (h2 = [] /\ h = h1 /\ e = a) \/ exists h3, h2 = h3 ++ [e] /\ h = h1 ++ a :: h3.
Proof.
  intros H. destruct h2 as [|b h3 _] using rev_ind.
  - left. apply app_inj_tail in H. intuition.
  - right. rewrite app_comm_cons, app_assoc in H. apply app_inj_tail in H. destruct H as [-> ->]. eauto.
Qed.

Lemma holds_snoc h e x g : holds (h ++ [e]) x g <-> (holds h x g /\ e <> RelStart x) \/ e = Grant x g.
Proof.
  split.
  - intros (h1 & h2 & E & H). apply snoc_split in E. destruct E as [(-> & -> & ->)|(h3 & -> & ->)]; auto.
    left. rewrite in_app_iff in H. cbn in H. split; [|intros ->; tauto]. exists h1, h3. split; auto.
  - intros [[(h1 & h2 & -> & H) He]| ->].
    + exists h1, (h2 ++ [e]). rewrite <- app_assoc. split; auto. rewrite in_app_iff. cbn. intuition.
    + exists h, []. auto.
Qed.

Lemma notrel_snoc h e x g : not_released (h ++ [e]) x g <-> (not_released h x g /\ e <> RelDone x) \/ e = Grant x g.
Proof.
  split.
  - intros (h1 & h2 & E & H). apply snoc_split in E. destruct E as [(-> & -> & ->)|(h3 & -> & ->)]; auto.
    left. rewrite in_app_iff in H. cbn in H. split; [|intros ->; tauto]. exists h1, h3. split; auto.
  - intros [[(h1 & h2 & -> & H) He]| ->].
    + exists h1, (h2 ++ [e]). rewrite <- app_assoc. split; auto. rewrite in_app_iff. cbn. intuition.
    + exists h, []. auto.
Qed.

Lemma holds_grant h x g : holds h x g -> In (Grant x g) h.
Proof. intros (h1 & h2 & -> & _). apply in_or_app. right. left. auto. Qed.

Lemma notrel_grant h x g : not_released h x g -> In (Grant x g) h.
Proof. intros (h1 & h2 & -> & _). apply in_or_app. right. left. auto. Qed.

(** ** Maps *)

Definition memsum (ms : maps) : N := fold_right (fun e a => rb_mem (snd e) + a) 0 ms.

Lemma map_find_in x b ms : map_find x ms = Some b -> In (x, b) ms.
Proof.
  induction ms as [|[y c] ms IH]; cbn; [discriminate|]. destruct (x =? y) eqn:E; auto.
  intros [= ->]. apply N.eqb_eq in E. subst. auto.
Qed.

Lemma map_find_none x ms : map_find x ms = None <-> ~ In x (map fst ms).
Proof.
  induction ms as [|[y c] ms IH]; cbn; [tauto|]. destruct (x =? y) eqn:E.
  - apply N.eqb_eq in E. subst. split; [discriminate|tauto].
  - apply N.eqb_neq in E. rewrite IH. intuition congruence.
Qed.

Lemma map_put_find x b y ms : map_find y (map_put x b ms) = if y =? x then Some b else map_find y ms.
Proof.
  induction ms as [|[z c] ms IH]; cbn.
  - destruct (y =? x); auto.
  - destruct (x =? z) eqn:E; cbn.
    + apply N.eqb_eq in E. subst z. destruct (y =? x); auto.
    + rewrite IH. destruct (y =? z) eqn:E2; auto. destruct (y =? x) eqn:E3; auto. lia.
Qed.

Lemma map_put_keys x b ms : incl (map fst (map_put x b ms)) (x :: map fst ms).
Proof.
  induction ms as [|[z c] ms IH]; cbn; [apply incl_refl|].
  destruct (x =? z); cbn; [intros a Ha; right; exact Ha|].
  intros a [<- |Ha]; [right; left; auto|]. apply IH in Ha. destruct Ha as [<- |Ha]; [left; auto|right; right; auto].
Qed.

Lemma map_put_nodup x b ms : NoDup (map fst ms) -> NoDup (map fst (map_put x b ms)).
Proof.
  induction ms as [|[z c] ms IH]; cbn; intros H; [repeat constructor; auto|].
  inversion H; subst. destruct (x =? z) eqn:E; cbn; [constructor; auto|].
  constructor; auto. intros Hi. apply map_put_keys in Hi. destruct Hi as [-> |Hi]; [|easy].
  rewrite N.eqb_refl in E. discriminate.
Qed.

Lemma map_put_in x b y c ms : In (y, c) (map_put x b ms) -> (y = x /\ c = b) \/ In (y, c) ms.
Proof.
  induction ms as [|[z d] ms IH]; cbn; [intros [[= <- <-]|[]]; auto|].
  destruct (x =? z) eqn:E; cbn.
  - apply N.eqb_eq in E. intros [[= <- <-]|H]; auto.
  - intros [H|H]; auto. destruct (IH H); auto.
Qed.

Lemma map_put_mem x b ms :
  memsum (map_put x b ms) + match map_find x ms with Some o => rb_mem o | None => 0 end = memsum ms + rb_mem b.
Proof.
  unfold memsum. induction ms as [|[z d] ms IH]; cbn; [lia|]. destruct (x =? z); cbn in *; lia.
Qed.

Lemma map_find_mem x b ms : map_find x ms = Some b -> rb_mem b <= memsum ms.
Proof.
  unfold memsum. induction ms as [|[z d] ms IH]; cbn; [discriminate|]. destruct (x =? z); [intros [= ->]; lia|].
  intros H. apply IH in H. cbn in *. lia.
Qed.

Lemma map_del_find x y ms : NoDup (map fst ms) ->
  map_find y (map_del x ms) = if y =? x then None else map_find y ms.
Proof.
  induction ms as [|[z c] ms IH]; cbn; intros H; [destruct (y =? x); auto|].
  inversion H; subst. destruct (x =? z) eqn:E; cbn.
  - apply N.eqb_eq in E. subst z. destruct (y =? x) eqn:E2; auto.
    apply N.eqb_eq in E2. subst y. apply map_find_none; auto.
  - rewrite IH by auto. destruct (y =? z) eqn:E2; auto. destruct (y =? x) eqn:E3; auto. lia.
Qed.

Lemma map_del_in x e ms : In e (map_del x ms) -> In e ms.
Proof.
  induction ms as [|[z c] ms IH]; cbn; auto. destruct (x =? z); cbn; intuition.
Qed.

Lemma map_del_nodup x ms : NoDup (map fst ms) -> NoDup (map fst (map_del x ms)).
Proof.
  induction ms as [|[z c] ms IH]; cbn; intros H; auto. inversion H; subst.
  destruct (x =? z); cbn; auto. constructor; auto. intros Hi. apply H2.
  apply in_map_iff in Hi. destruct Hi as ([a d] & <- & Hi). apply map_del_in in Hi.
  apply in_map_iff. exists (a, d). auto.
Qed.

Lemma map_del_mem x b ms : map_find x ms = Some b -> memsum (map_del x ms) + rb_mem b = memsum ms.
Proof.
  unfold memsum. induction ms as [|[z d] ms IH]; cbn; [discriminate|]. destruct (x =? z); cbn; [intros [= ->]; lia|].
  intros H. apply IH in H. cbn in *. lia.
Qed.

(** ** Pending requests *)

Definition psorted (p : pending) : Prop := StronglySorted (fun a b => fst a < fst b) p.

Lemma find_req_none x p : find_req x p = None <-> ~ In x (map fst p).
Proof.
  induction p as [|[y g] p IH]; cbn; [tauto|]. destruct (x =? y) eqn:E.
  - apply N.eqb_eq in E. subst. split; [discriminate|tauto].
  - apply N.eqb_neq in E. rewrite IH. intuition congruence.
Qed.

Lemma insert_req_forall a x g p p' : insert_req x g p = Some p' -> a < x ->
  Forall (fun e : txnid * rng => a < fst e) p -> Forall (fun e => a < fst e) p'.
Proof.
  revert p'. induction p as [|[y h] p IH]; cbn; intros p' E Ha F.
  - injection E as <-. repeat constructor; auto.
  - inversion F; subst. destruct (x <? y); [injection E as <-; constructor; auto|].
    destruct (x =? y); [discriminate|]. destruct (insert_req x g p); [|discriminate].
    injection E as <-. constructor; auto.
Qed.

Lemma insert_req_ok x g p : psorted p -> find_req x p = None ->
  exists p', insert_req x g p = Some p' /\ psorted p' /\
    (forall e, In e p' <-> e = (x, g) \/ In e p) /\
    (forall y, find_req y p' = if y =? x then Some g else find_req y p).
Proof.
  induction p as [|[y h] p IH]; intros S F; cbn.
  - eexists. split; [reflexivity|]. split; [repeat constructor|]. split; [cbn; intuition|].
    intros z. cbn. destruct (z =? x); auto.
  - inversion S; subst. cbn in F. destruct (x =? y) eqn:Exy; [discriminate|].
    destruct (x <? y) eqn:El.
    + eexists. split; [reflexivity|]. split.
      { constructor; auto. apply N.ltb_lt in El. constructor; auto.
        eapply Forall_impl; [|eauto]. intros a Ha. cbn in *. eapply N.lt_trans; eauto. }
      split; [cbn; intuition|]. intros z. cbn. destruct (z =? x); auto.
    + destruct (IH H1 F) as (p' & E & S' & Hi & Hf). rewrite E. eexists. split; [reflexivity|]. split.
      { constructor; auto. eapply insert_req_forall; eauto. cbn. lia. }
      split.
      { intros e. cbn. rewrite Hi. intuition. }
      intros z. cbn. rewrite Hf. destruct (z =? y) eqn:Ez; auto. destruct (z =? x) eqn:Ezx; auto. lia.
Qed.

Lemma remove_req_in x p p' e : remove_req x p = Some p' -> In e p' -> In e p.
Proof.
  revert p'. induction p as [|[y h] p IH]; cbn; intros p' E Hi; [discriminate|].
  destruct (x =? y); [injection E as <-; auto|]. destruct (remove_req x p); [|discriminate].
  injection E as <-. destruct Hi as [<- |Hi]; auto. right. eapply IH; eauto.
Qed.

Lemma find_req_gt x p : Forall (fun e : txnid * rng => x < fst e) p -> find_req x p = None.
Proof.
  induction p as [|[y g] p IH]; intros F; auto. inversion F; subst. cbn in *.
  replace (x =? y) with false by lia. auto.
Qed.

Lemma remove_req_ok x p : psorted p -> find_req x p <> None ->
  exists p', remove_req x p = Some p' /\ psorted p' /\
    (forall y, find_req y p' = if y =? x then None else find_req y p).
Proof.
  induction p as [|[y h] p IH]; intros S F; cbn in *; [easy|].
  inversion S; subst. destruct (x =? y) eqn:Exy.
  - apply N.eqb_eq in Exy. subst y. exists p. split; auto. split; auto.
    intros z. destruct (z =? x) eqn:Ez; auto. apply N.eqb_eq in Ez. subst z. apply find_req_gt; auto.
  - destruct (IH H1 F) as (p' & E & S' & Hf). rewrite E. eexists. split; [reflexivity|]. split.
    + constructor; auto. rewrite Forall_forall in *. intros e He. apply H2. eapply remove_req_in; eauto.
    + intros z. cbn. rewrite Hf. destruct (z =? y) eqn:Ez; auto. destruct (z =? x) eqn:Ezx; auto. lia.
Qed.

(** ** The invariant *)

Section Sys.

Variable kcmp : bytes -> bytes -> comparison.
Hypothesis OK : cmp_ok kcmp.
Variable overhead : N.
Variable max : N.

Notation valid := (valid kcmp).
Notation apart := (apart kcmp).
Notation within := (within kcmp).
Notation pin := (pin kcmp).
Notation lt_inv := (lt_inv kcmp overhead).
Notation regroup := (regroup kcmp).
Notation grants := (grants kcmp).
Notation spans := (spans kcmp).

Lemma ends_within a a' b : ends a = ends a' -> within a b -> within a' b.
Proof. intros E [H1 H2]. injection E as E1 E2. split; congruence. Qed.

Lemma ends_within_r a b b' : ends b = ends b' -> within a b -> within a b'.
Proof. intros E [H1 H2]. injection E as E1 E2. split; congruence. Qed.

Lemma ends_apart a a' b : ends a = ends a' -> apart a b -> apart a' b.
Proof.
  intros E [H|H]; injection E as E1 E2; [left|right]; unfold rlt in *; congruence.
Qed.

Lemma ends_valid a b : ends a = ends b -> valid a -> valid b.
Proof. intros E H. injection E as E1 E2. unfold LtTreeProofs.valid in *. congruence. Qed.

Lemma ends_pin p a b : ends a = ends b -> pin p a -> pin p b.
Proof. intros E [H1 H2]. injection E as E1 E2. split; congruence. Qed.

Lemma within_not_apart a b c : within a b -> ~ apart a c -> ~ apart b c.
Proof. intros W H A. apply H. eapply within_apart; eauto. Qed.

Lemma valid_not_apart a : valid a -> ~ apart a a.
Proof. intros V. eapply pin_not_apart; eauto; apply pin_l; auto. Qed.

(** The ranges in the transaction's list. *)
Definition mapr (ms : maps) (x : txnid) (r : rng) : Prop :=
  exists b rs, map_find x ms = Some b /\ rb_records b = Some rs /\ In r rs.

(** The ranges that the transaction will release. *)
Definition rem (s : sys) (y : txnid) (r : rng) : Prop :=
  match s_rel s y with
  | Releasing l _ => In r l
  | Released => False
  | Idle => mapr (s_maps s) y r \/ s_req s y = RGranted r
  end.

(** A list of ranges in a buffer. *)
Definition buf_ok (b : rbuf) : Prop :=
  exists rs, rb_rep b rs /\ rs <> [] /\ Forall goodg rs /\ Forall valid rs.

Lemma buf_ok_records b : buf_ok b -> exists rs, rb_records b = Some rs /\ rs <> [] /\
  Forall goodg rs /\ Forall valid rs.
Proof.
  intros (rs0 & R & Hn & G & V). destruct (rep_records b rs0 R) as (rs & E & P & S & _).
  exists rs. split; auto. split.
  - intros ->. apply Hn. apply Permutation_nil in P. destruct rs0; easy.
  - eapply ends_props; eauto.
Qed.

(** The part about the locks [L]. *)
Record core (L : list rlock) (s : sys) (h : list event) : Prop := {
  c_own : forall k y, In (k, y) L -> exists r, rem s y r /\ ~ apart r k;
  c_ids : forall k y, In (k, y) L -> y <= s_last s /\ y <> 0;
  c_cover : forall x g, holds h x g -> exists k, In (k, x) L /\ within g k;
  c_map : forall x r, s_rel s x = Idle -> mapr (s_maps s) x r -> exists k, In (k, x) L /\ within r k;
  c_un : forall k y, map_find y (s_maps s) = None -> In (k, y) L ->
    exists g, s_req s y = RGranted g /\ within k g /\ within g k;
  c_exact : ~ In Escalated h -> forall k y p, In (k, y) L -> pin p k ->
    exists g, not_released h y g /\ pin p g }.

(** The part about the book-keeping. *)
Record book (s : sys) (h : list event) : Prop := {
  b_nodup : NoDup (map fst (s_maps s));
  b_bufs : forall x b, In (x, b) (s_maps s) -> buf_ok b /\ x <= s_last s /\ x <> 0;
  b_granted : forall x g, s_req s x = RGranted g ->
    holds h x g /\ In x (s_live s) /\ goodg g /\ valid g;
  b_blocked : forall x g cs, s_req s x = RBlocked g cs ->
    In x (s_live s) /\ goodg g /\ valid g /\ cs <> [] /\ ~ In x cs;
  b_psorted : psorted (s_pend s);
  b_pend : forall x g, In (x, g) (s_pend s) -> In x (s_live s) /\ goodg g /\ valid g;
  b_one : forall x, find_req x (s_pend s) <> None -> s_req s x = RNone;
  b_live : forall x, In x (s_live s) -> x <= s_last s /\ x <> 0 /\ s_rel s x = Idle;
  b_rel : forall x, s_rel s x <> Idle -> x <= s_last s /\ ~ In x (s_live s) /\ (forall g, ~ holds h x g);
  b_releasing : forall x l b, s_rel s x = Releasing l b ->
    map_find x (s_maps s) <> None /\ Forall goodg l /\ Forall valid l;
  b_released : forall x, s_rel s x = Released -> map_find x (s_maps s) = None;
  b_start : forall x, In (RelStart x) h -> s_rel s x <> Idle;
  b_done : forall x, In (RelDone x) h <-> s_rel s x = Released;
  b_grants : forall x g, In (Grant x g) h -> x <= s_last s /\ x <> 0 /\ goodg g /\ valid g;
  b_sto : lt_sto (s_lt s) <> TXNID_NONE -> s_rel s (lt_sto (s_lt s)) = Idle /\
    find_req (lt_sto (s_lt s)) (s_pend s) = None /\
    forall g cs, s_req s (lt_sto (s_lt s)) <> RBlocked g cs }.

Definition inv (s : sys) (gs : list rng) (h : list event) : Prop :=
  lt_inv (s_lt s) gs (memsum (s_maps s)) /\ core (locks (s_lt s) gs) s h /\ book s h.

(** ** Consequences *)

(** All locks belong to one transaction, or they are in the tree. *)
Lemma locks_cases s gs ext : lt_inv s gs ext ->
  (lt_sto s = TXNID_NONE /\ gs = [] /\ locks s gs = elems (lt_tree s)) \/
  (lt_sto s <> TXNID_NONE /\ lt_tree s = E /\ locks s gs = tag (lt_sto s) gs /\ gs <> []).
Proof.
  intros I. destruct (N.eq_dec (lt_sto s) TXNID_NONE) as [E|E].
  - left. pose proof (li_none _ _ _ _ _ I E) as ->. split; auto. split; auto. apply locks_none.
  - right. destruct (li_sto _ _ _ _ _ I E) as [Et Hg]. split; auto. split; auto. split; auto.
    unfold locks. rewrite Et. reflexivity.
Qed.

Lemma locks_valid s gs ext e : lt_inv s gs ext -> In e (locks s gs) -> valid (fst e).
Proof.
  intros I H. unfold locks in H. apply in_app_or in H. destruct H as [H|H].
  - eapply dsorted_valid; [apply I|auto].
  - destruct e as [k y]. apply in_tag in H. destruct H as [_ H].
    pose proof (li_bufv _ _ _ _ _ I) as F. rewrite Forall_forall in F. apply F; auto.
Qed.

(** Locks of different transactions are apart. *)
Lemma SS_pair {A} (R : A -> A -> Prop) l a b : StronglySorted R l -> In a l -> In b l ->
  a = b \/ R a b \/ R b a.
Proof.
  induction 1 as [|c l S IH F]; intros Ha Hb; [easy|]. rewrite Forall_forall in F.
  destruct Ha as [-> |Ha], Hb as [-> |Hb]; auto.
Qed.

Lemma locks_apart s gs ext k y k' y' : lt_inv s gs ext -> In (k, y) (locks s gs) ->
  In (k', y') (locks s gs) -> y <> y' -> apart k k'.
Proof.
  intros I H H' Hn. destruct (locks_cases s gs ext I) as [(_ & _ & E)|(_ & _ & E & _)]; rewrite E in *.
  - destruct (li_sorted _ _ _ _ _ I) as [S _].
    destruct (SS_pair _ _ _ _ S H H') as [Eq|[B|B]]; [congruence|left; auto|right; auto].
  - apply in_tag in H. apply in_tag in H'. intuition congruence.
Qed.

Lemma regroup_owner L L' k y : regroup L L' -> In (k, y) L' -> exists k0, In (k0, y) L.
Proof. intros R H. destruct (rg_based _ _ _ R _ _ H) as (g & ? & _). eauto. Qed.

(** ** Steps that keep the system's book-keeping *)

(** The same locks, regrouped. *)
Lemma core_regroup L L' s h : core L s h -> regroup L L' ->
  (forall e, In e L -> valid (fst e)) -> (forall e, In e L' -> valid (fst e)) -> core L' s h.
Proof.
  intros C R V V'. constructor.
  - intros k y H. destruct (rg_based _ _ _ R _ _ H) as (k0 & H0 & W).
    destruct (c_own _ _ _ C _ _ H0) as (r & Hr & Ha). exists r. split; auto.
    intros A. apply Ha. apply apart_sym. apply apart_sym in A. eapply within_apart; eauto.
  - intros k y H. destruct (rg_based _ _ _ R _ _ H) as (k0 & H0 & W). eapply c_ids; eauto.
  - intros x g H. destruct (c_cover _ _ _ C _ _ H) as (k & Hk & W).
    destruct (rg_keep _ _ _ R _ _ Hk) as (k' & Hk' & W'). exists k'. split; auto. eapply within_trans; eauto.
  - intros x r Hi H. destruct (c_map _ _ _ C _ _ Hi H) as (k & Hk & W).
    destruct (rg_keep _ _ _ R _ _ Hk) as (k' & Hk' & W'). exists k'. split; auto. eapply within_trans; eauto.
  - intros k y Hm H. destruct (rg_based _ _ _ R _ _ H) as (k0 & H0 & W).
    destruct (c_un _ _ _ C _ _ Hm H0) as (g & Hg & W1 & W2). exists g. split; auto.
    split; [|eapply within_trans; eauto].
    assert (Vk := V' _ H). cbn in Vk.
    assert (P : forall p, pin p k -> pin p g).
    { intros p Hp. destruct (rg_exact _ _ _ R p _ _ H Hp) as (k1 & H1 & P1).
      destruct (c_un _ _ _ C _ _ Hm H1) as (g1 & Hg1 & W3 & _). rewrite Hg in Hg1. injection Hg1 as <-.
      eapply pin_within; eauto. }
    destruct (P (r_l k)) as [Pl _]; [split; [apply le_refl; auto|exact Vk]|].
    destruct (P (r_r k)) as [_ Pr]; [split; [exact Vk|apply le_refl; auto]|].
    split; auto.
  - intros He k y p H Hp. destruct (rg_exact _ _ _ R p _ _ H Hp) as (k1 & H1 & P1).
    eapply c_exact; eauto.
Qed.

(** ** Events *)

Definition quiet (e : event) : Prop :=
  match e with Refuse _ _ _ | Deadlock _ _ | OutOfLocks _ _ | Timeout _ _ => True | _ => False end.

Lemma quiet_holds h e x g : quiet e -> (holds (h ++ [e]) x g <-> holds h x g).
Proof.
  intros Q. rewrite holds_snoc. split; [intros [[? _]| ->]; easy|]. intros H. left. split; auto.
  intros ->. easy.
Qed.

Lemma quiet_notrel h e x g : quiet e -> (not_released (h ++ [e]) x g <-> not_released h x g).
Proof.
  intros Q. rewrite notrel_snoc. split; [intros [[? _]| ->]; easy|]. intros H. left. split; auto.
  intros ->. easy.
Qed.

Lemma in_snoc {A} (a e : A) h : In a (h ++ [e]) <-> In a h \/ a = e.
Proof. rewrite in_app_iff. cbn. intuition. Qed.

Lemma core_quiet L s h e : quiet e -> core L s h -> core L s (h ++ [e]).
Proof.
  intros Q [C1 C2 C3 C4 C5 C6]. constructor; auto.
  - intros x g H. apply quiet_holds in H; auto.
  - intros He k y p H Hp. destruct (C6 ltac:(rewrite in_snoc in He; tauto) k y p H Hp) as (g & Hg & P).
    exists g. split; auto. apply quiet_notrel; auto.
Qed.

Lemma book_quiet s h e : quiet e -> book s h -> book s (h ++ [e]).
Proof.
  intros Q []. constructor; auto.
  - intros x g H. rewrite quiet_holds; auto.
  - intros x H. destruct (b_rel0 x H) as (? & ? & Hh). split; auto. split; auto. intros g. rewrite quiet_holds; auto.
  - intros x H. apply in_snoc in H. destruct H as [H| <-]; [auto|easy].
  - intros x. rewrite in_snoc, <- b_done0. split; [intros [H| <-]; [auto|easy]|auto].
  - intros x g H. apply in_snoc in H. destruct H as [H| <-]; [eauto|easy].
Qed.

Lemma inv_quiet s gs h e : quiet e -> inv s gs h -> inv s gs (h ++ [e]).
Proof. intros Q (I & C & B). split; auto. split; auto using core_quiet, book_quiet. Qed.

Lemma core_same L s s' h : s_maps s' = s_maps s -> s_last s' = s_last s -> s_rel s' = s_rel s ->
  (forall y g, s_req s y = RGranted g <-> s_req s' y = RGranted g) -> core L s h -> core L s' h.
Proof.
  intros Em El Er Eq [C1 C2 C3 C4 C5 C6]. constructor; rewrite ?Em, ?El, ?Er; auto.
  - intros k y H. destruct (C1 k y H) as (r & Hr & Ha). exists r. split; auto.
    unfold rem in *. rewrite Er, Em. destruct (s_rel s y); auto. rewrite <- Eq. auto.
  - intros k y Hm H. destruct (C5 k y Hm H) as (g & Hg & W). exists g. rewrite <- Eq. auto.
Qed.

Lemma upd_same {A} (f : txnid -> A) x a : upd f x a x = a.
Proof. unfold upd. rewrite N.eqb_refl. auto. Qed.

Lemma upd_other {A} (f : txnid -> A) x a y : y <> x -> upd f x a y = f y.
Proof. intros H. unfold upd. apply N.eqb_neq in H. rewrite H. auto. Qed.

Lemma upd_cases {A} (f : txnid -> A) x a y b : upd f x a y = b -> (y = x /\ a = b) \/ (y <> x /\ f y = b).
Proof.
  unfold upd. destruct (y =? x) eqn:E; intros H.
  - apply N.eqb_eq in E. auto.
  - apply N.eqb_neq in E. auto.
Qed.

(** ** A granted request *)

Lemma sto_owner s gs ext k y : lt_inv s gs ext -> lt_sto s <> TXNID_NONE -> In (k, y) (locks s gs) -> y = lt_sto s.
Proof.
  intros I Hn H. destruct (locks_cases s gs ext I) as [(E & _)|(_ & _ & E & _)]; [easy|].
  rewrite E in H. apply in_tag in H. tauto.
Qed.

Lemma grant_inv s gs h x g l p' :
  inv s gs h -> In x (s_live s) -> s_req s x = RNone -> goodg g -> valid g ->
  (forall y, find_req y p' = if y =? x then None else find_req y (s_pend s)) -> psorted p' ->
  acquire_lock kcmp overhead (s_lt s) x g = Some (Granted, l) ->
  exists gs', inv (Sys l (s_maps s) (s_live s) (s_last s) (upd (s_req s) x (RGranted g)) (s_rel s) p')
                  gs' (h ++ [Grant x g]) /\
    grants (locks (s_lt s) gs) x g (locks l gs') /\
    (forall k y, In (k, y) (locks (s_lt s) gs) -> y <> x -> apart g k).
Proof.
  intros (I & C & B) Hl Hq G V Hp Sp Ha.
  destruct (b_live _ _ B x Hl) as (Hx1 & Hx2 & Hx3).
  destruct (acquire_lock_ok kcmp OK overhead (s_lt s) gs (memsum (s_maps s)) x g I Hx2 V G)
    as (an & l' & gs' & E & I' & A & _).
  rewrite Ha in E. injection E as <- <-. destruct A as [A Ap].
  exists gs'. split; [|auto]. split; [exact I'|]. split.
  - cbn [s_lt]. destruct C as [C1 C2 C3 C4 C5 C6]. constructor; cbn [s_maps s_last s_rel s_req].
    + intros k y H. destruct (gr_based _ _ _ _ _ A _ _ H) as [(k0 & H0 & W)|[-> W]].
      * destruct (C1 _ _ H0) as (r & Hr & Hap). exists r. split.
        -- unfold rem in *. cbn [s_rel s_maps s_req]. destruct (s_rel s y); auto.
           destruct Hr as [Hr|Hr]; auto. right. rewrite upd_other; auto. intros ->. congruence.
        -- intros Q. apply Hap. apply apart_sym. apply apart_sym in Q. eapply within_apart; eauto.
      * exists g. split.
        -- unfold rem. cbn [s_rel s_maps s_req]. rewrite Hx3. right. apply upd_same.
        -- intros Q. apply (valid_not_apart g V). apply apart_sym in Q. eapply within_apart; eauto.
    + intros k y H. destruct (gr_based _ _ _ _ _ A _ _ H) as [(k0 & H0 & W)|[-> W]]; eauto.
    + intros y q H. apply holds_snoc in H. destruct H as [[H _]|[= <- <-]].
      * destruct (C3 _ _ H) as (k & Hk & W). destruct (gr_keep _ _ _ _ _ A _ _ Hk) as (k' & Hk' & W').
        exists k'. split; auto. eapply within_trans; eauto.
      * apply (gr_has _ _ _ _ _ A).
    + intros y r Hi H. destruct (C4 _ _ Hi H) as (k & Hk & W).
      destruct (gr_keep _ _ _ _ _ A _ _ Hk) as (k' & Hk' & W').
      exists k'. split; auto. eapply within_trans; eauto.
    + intros k y Hm H.
      assert (Hno : forall k0 y0, map_find y0 (s_maps s) = None -> In (k0, y0) (locks (s_lt s) gs) -> y0 <> x).
      { intros k0 y0 Hm0 H0 ->. destruct (C5 _ _ Hm0 H0) as (q & Hq' & _). congruence. }
      destruct (gr_based _ _ _ _ _ A _ _ H) as [(k0 & H0 & W)|[-> W]].
      * destruct (C5 _ _ Hm H0) as (q & Hq' & W1 & W2). assert (Hyx := Hno _ _ Hm H0).
        exists q. rewrite upd_other by auto. split; auto. split; [|eapply within_trans; eauto].
        assert (P : forall p, pin p k -> pin p q).
        { intros p Hpp. destruct (gr_exact _ _ _ _ _ A p _ _ H Hpp) as [(k1 & H1 & P1)|[-> _]]; [|easy].
          destruct (C5 _ _ Hm H1) as (q1 & Hq1 & W3 & _). rewrite Hq' in Hq1. injection Hq1 as <-.
          eapply pin_within; eauto. }
        assert (Vk : valid k) by (apply (locks_valid _ _ _ _ I' H)).
        destruct (P (r_l k)) as [Pl _]; [split; [apply le_refl; auto|exact Vk]|].
        destruct (P (r_r k)) as [_ Pr]; [split; [exact Vk|apply le_refl; auto]|].
        split; auto.
      * exists g. rewrite upd_same. split; auto. split; auto.
        assert (P : forall p, pin p k -> pin p g).
        { intros p Hpp. destruct (gr_exact _ _ _ _ _ A p _ _ H Hpp) as [(k1 & H1 & P1)|[_ Q]]; auto.
          exfalso. apply (Hno _ _ Hm H1). auto. }
        assert (Vk : valid k) by (apply (locks_valid _ _ _ _ I' H)).
        destruct (P (r_l k)) as [Pl _]; [split; [apply le_refl; auto|exact Vk]|].
        destruct (P (r_r k)) as [_ Pr]; [split; [exact Vk|apply le_refl; auto]|].
        split; auto.
    + intros He k y p H Hpp. destruct (gr_exact _ _ _ _ _ A p _ _ H Hpp) as [(k1 & H1 & P1)|[-> Q]].
      * destruct (C6 ltac:(rewrite in_snoc in He; tauto) _ _ _ H1 P1) as (q & Hq' & Q). exists q. split; auto.
        apply notrel_snoc. left. split; auto. discriminate.
      * exists g. split; auto. apply notrel_snoc. auto.
  - destruct B. constructor; cbn [s_lt s_maps s_live s_last s_req s_rel s_pend]; auto.
    + intros y q H. apply upd_cases in H. destruct H as [[-> [= <-]]|[Hn H]].
      * split; [apply holds_snoc; auto|auto].
      * destruct (b_granted0 _ _ H) as (H1 & H2). split; auto. apply holds_snoc. left. split; auto. discriminate.
    + intros y q cs H. apply upd_cases in H. destruct H as [[-> ?]|[Hn H]]; [discriminate|eauto].
    + intros y q H. assert (Hy : find_req y p' <> None).
      { rewrite find_req_none. intros Q. apply Q. apply (in_map fst) in H. exact H. }
      assert (Hf : find_req y p' = Some q).
      { clear - Sp H. induction p' as [|[z r] p IH]; [easy|]. inversion Sp; subst. cbn.
        destruct H as [[= -> ->]|H]; [rewrite N.eqb_refl; auto|].
        rewrite Forall_forall in H3. specialize (H3 _ H). cbn in H3.
        replace (y =? z) with false by lia. auto. }
      rewrite Hp in Hf. destruct (y =? x); [discriminate|]. apply find_req_in in Hf. eauto.
    + intros y H. rewrite Hp in H. destruct (y =? x) eqn:Ey; [easy|]. apply N.eqb_neq in Ey.
      rewrite upd_other by auto. auto.
    + intros y H. destruct (b_rel0 y H) as (H1 & H2 & H3). split; auto. split; auto.
      intros q Hh. apply holds_snoc in Hh. destruct Hh as [[Hh _]|[= <- <-]]; [eapply H3; eauto|easy].
    + intros y H. apply in_snoc in H. destruct H as [H|H]; [auto|discriminate].
    + intros y. rewrite in_snoc, <- b_done0. split; [intros [H|H]; [auto|discriminate]|auto].
    + intros y q H. apply in_snoc in H. destruct H as [H|[= <- <-]]; [eauto|auto].
    + intros Hs. assert (lt_sto l = x) as ->.
      { destruct (gr_has _ _ _ _ _ A) as (k & Hk & _). symmetry. eapply sto_owner; eauto. }
      split; auto. split; [rewrite Hp, N.eqb_refl; auto|]. intros q cs. rewrite upd_same. discriminate.
Qed.

(** A refused request. *)
Lemma refuse_inv s gs h x g l cs :
  inv s gs h -> x <> 0 -> goodg g -> valid g ->
  acquire_lock kcmp overhead (s_lt s) x g = Some (NotGranted cs, l) ->
  exists gs', inv (set_lt s l) gs' (h ++ [Refuse x g cs]) /\ cs <> [] /\
    regroup (locks (s_lt s) gs) (locks l gs') /\
    (forall y, In y cs <-> blocks kcmp (locks (s_lt s) gs) x g y).
Proof.
  intros (I & C & B) Hx G V Ha.
  destruct (acquire_lock_ok kcmp OK overhead (s_lt s) gs (memsum (s_maps s)) x g I Hx V G)
    as (an & l' & gs' & E & I' & A & Hs).
  rewrite Ha in E. injection E as <- <-. destruct A as (A & Hc & Hb).
  exists gs'. split; [|auto]. apply inv_quiet; [exact Logic.I|]. split; [exact I'|]. split.
  - eapply core_same with (s := s); cbn [set_lt s_maps s_last s_rel s_req]; auto; [intros; reflexivity|].
    eapply core_regroup; [exact C|exact A| |]; intros e He; [apply (locks_valid _ _ _ _ I He)|apply (locks_valid _ _ _ _ I' He)].
  - specialize (Hs ltac:(discriminate)). destruct B. constructor; auto. cbn [s_lt set_lt]. intros Q. congruence.
Qed.

(** Only the request changes, and not to or from a granted one. *)
Lemma set_req_inv s gs h x r : inv s gs h -> (forall g, s_req s x <> RGranted g) ->
  (forall g, r <> RGranted g) -> lt_sto (s_lt s) = TXNID_NONE \/ r = RNone ->
  match r with
  | RBlocked g cs => In x (s_live s) /\ goodg g /\ valid g /\ cs <> [] /\ ~ In x cs /\
                     find_req x (s_pend s) = None
  | _ => True
  end -> inv (set_req s x r) gs h.
Proof.
  intros (I & C & B) H1 H2 Hs Hr. split; [exact I|]. split.
  - eapply core_same with (s := s); auto. intros y g. cbn [set_req s_req]. unfold upd.
    destruct (y =? x) eqn:E; [|tauto]. apply N.eqb_eq in E. subst y.
    split; intros H; exfalso; [eapply H1|eapply H2]; eauto.
  - destruct B. constructor; cbn [set_req s_lt s_maps s_live s_last s_req s_rel s_pend]; auto.
    + intros y g H. apply upd_cases in H. destruct H as [[-> H]|[Hn H]]; [exfalso; eapply H2; eauto|eauto].
    + intros y g cs H. apply upd_cases in H. destruct H as [[-> H]|[Hn H]]; [|eauto]. subst r. tauto.
    + intros y H. unfold upd. destruct (y =? x) eqn:E; auto. apply N.eqb_eq in E. subst y.
      destruct r; auto; [|exfalso; eapply H2; eauto]. tauto.
    + intros Hn. destruct Hs as [Hs| ->]; [congruence|]. destruct (b_sto0 Hn) as (Q1 & Q2 & Q3).
      split; auto. split; auto. intros g cs H. apply upd_cases in H. destruct H as [[_ ?]|[_ H]]; [discriminate|].
      eapply Q3; eauto.
Qed.

(** Fewer pending requests. *)
Lemma less_pend_inv s gs h p : inv s gs h -> psorted p -> (forall e, In e p -> In e (s_pend s)) ->
  (forall y, find_req y p <> None -> find_req y (s_pend s) <> None) -> inv (set_pend s p) gs h.
Proof.
  intros (I & C & B) S Hi Hf. split; [exact I|]. split.
  - eapply core_same with (s := s); auto. intros; reflexivity.
  - destruct B. constructor; cbn [set_pend s_lt s_maps s_live s_last s_req s_rel s_pend]; auto.
    intros Hn. destruct (b_sto0 Hn) as (Q1 & Q2 & Q3). split; auto. split; auto.
    destruct (find_req (lt_sto (s_lt s)) p) eqn:E; auto. exfalso. apply (Hf (lt_sto (s_lt s))); congruence.
Qed.

(** The tree is rearranged, with the same content. *)
Lemma lsame_inv s gs h l : inv s gs h -> lt_inv l gs (memsum (s_maps s)) -> lsame (s_lt s) l ->
  inv (set_lt s l) gs h.
Proof.
  intros (I & C & B) I' [E1 E2]. split; [exact I'|]. cbn [set_lt s_lt].
  assert (locks l gs = locks (s_lt s) gs) as -> by (unfold locks; congruence). split.
  - eapply core_same with (s := s); auto. intros; reflexivity.
  - destruct B. constructor; auto. cbn [set_lt s_lt s_rel s_pend s_req]. rewrite E2. auto.
Qed.

(** ** Noting a lock *)

Lemma rep_in b rs0 rs : rb_rep b rs0 -> rb_records b = Some rs ->
  (forall r, In r rs -> exists r0, In r0 rs0 /\ ends r0 = ends r) /\
  (forall r0, In r0 rs0 -> exists r, In r rs /\ ends r = ends r0).
Proof.
  intros R E. destruct (rep_records b rs0 R) as (rs' & E' & P & _). rewrite E in E'. injection E' as <-. split.
  - intros r H. apply (in_map ends) in H. apply (Permutation_in _ P) in H. apply in_map_iff in H.
    destruct H as (r0 & ? & ?). eauto.
  - intros r H. apply (in_map ends) in H. apply (Permutation_in _ (Permutation_sym P)) in H.
    apply in_map_iff in H. destruct H as (r0 & ? & ?). eauto.
Qed.

Lemma mapr_rep ms x b rs0 : map_find x ms = Some b -> rb_rep b rs0 ->
  (forall r, mapr ms x r -> exists r0, In r0 rs0 /\ ends r0 = ends r) /\
  (forall r0, In r0 rs0 -> exists r, mapr ms x r /\ ends r = ends r0).
Proof.
  intros Hf R. destruct (rep_records b rs0 R) as (rs & E & _). destruct (rep_in b rs0 rs R E) as [H1 H2].
  split.
  - intros r (b' & rs' & Hf' & E' & Hi). rewrite Hf in Hf'. injection Hf' as <-. rewrite E in E'. injection E' as <-. auto.
  - intros r0 Hi. destruct (H2 r0 Hi) as (r & Hr & Ee). exists r. split; auto. exists b, rs. auto.
Qed.

Lemma mapr_other ms x b y r : y <> x -> (mapr (map_put x b ms) y r <-> mapr ms y r).
Proof.
  intros Hn. unfold mapr. rewrite map_put_find. apply N.eqb_neq in Hn. rewrite Hn. tauto.
Qed.

Lemma lt_inv_mem s gs ext m ext' : lt_inv s gs ext -> m + ext = lt_mem s + ext' -> lt_inv (set_mem s m) gs ext'.
Proof.
  intros [] H. constructor; cbn [set_mem lt_tree lt_sto lt_buf lt_mem]; auto.
  rewrite li_mem in H. lia.
Qed.

Lemma note_inv s gs h x g : inv s gs h -> s_req s x = RGranted g ->
  exists ms m, note_lock (s_maps s) (lt_mem (s_lt s)) x g = Some (ms, m) /\
    inv (Sys (set_mem (s_lt s) m) ms (s_live s) (s_last s) (upd (s_req s) x RNone) (s_rel s) (s_pend s)) gs h.
Proof.
  intros (I & C & B) Hq. destruct (b_granted _ _ B x g Hq) as (Hh & Hl & G & V).
  destruct (b_live _ _ B x Hl) as (Hx1 & Hx2 & Hx3).
  unfold note_lock. set (old := match map_find x (s_maps s) with Some b => b | None => rb_empty end).
  assert (HO : exists rs, rb_rep old rs /\ Forall goodg rs /\ Forall valid rs).
  { unfold old. destruct (map_find x (s_maps s)) as [b|] eqn:E.
    - apply map_find_in in E. destruct (b_bufs _ _ B _ _ E) as ((rs & R & _ & G' & V') & _). eauto.
    - exists []. split; [apply rep_empty|auto]. }
  destruct HO as (rs & R & Gr & Vr).
  destruct (rep_append old rs g R (good_storable g G)) as (b & Ea & R' & Hm). rewrite Ea.
  replace (rb_mem old <? rb_mem b) with true by (symmetry; apply N.ltb_lt; auto).
  eexists _, _. split; [reflexivity|].
  assert (Hnew : forall r, mapr (map_put x b (s_maps s)) x r -> (exists r0, mapr (s_maps s) x r0 /\ ends r0 = ends r) \/ ends g = ends r).
  { intros r Hr. destruct (mapr_rep (map_put x b (s_maps s)) x b (rs ++ [g])) as [M1 _]; auto.
    { rewrite map_put_find, N.eqb_refl. auto. }
    destruct (M1 r Hr) as (r0 & Hi & Ee). apply in_app_or in Hi. destruct Hi as [Hi|[<- |[]]]; auto.
    left. unfold old in R. destruct (map_find x (s_maps s)) as [b0|] eqn:E0.
    - destruct (mapr_rep _ _ _ _ E0 R) as [_ M2]. destruct (M2 r0 Hi) as (r1 & ? & ?). exists r1. split; auto. congruence.
    - exfalso. destruct (rep_nil_iff rb_empty rs R) as [Hr1 _]. rewrite Hr1 in Hi by reflexivity. easy. }
  assert (Hkeep : forall r, mapr (s_maps s) x r \/ r = g -> exists r', mapr (map_put x b (s_maps s)) x r' /\ ends r' = ends r).
  { intros r Hr. destruct (mapr_rep (map_put x b (s_maps s)) x b (rs ++ [g])) as [_ M2]; auto.
    { rewrite map_put_find, N.eqb_refl. auto. }
    destruct Hr as [Hr| ->].
    - pose proof Hr as (b0 & rs1 & E0 & E1 & Hi). unfold old in R. rewrite E0 in R.
      destruct (mapr_rep _ _ _ _ E0 R) as [M1 _]. destruct (M1 r Hr) as (r0 & Hr0 & Ee).
      destruct (M2 r0) as (r' & ? & ?); [apply in_or_app; auto|]. exists r'. split; auto. congruence.
    - apply M2. apply in_or_app. right. left. auto. }
  split; [|split]; cbn [s_lt s_maps].
  - eapply lt_inv_mem; [exact I|]. pose proof (map_put_mem x b (s_maps s)) as Hmm.
    unfold old in *. destruct (map_find x (s_maps s)); [|change (rb_mem rb_empty) with 0 in *]; lia.
  - change (locks (set_mem (s_lt s) _) gs) with (locks (s_lt s) gs).
    destruct C as [C1 C2 C3 C4 C5 C6]. constructor; cbn [s_maps s_last s_rel s_req]; auto.
    + intros k y H. destruct (C1 _ _ H) as (r & Hr & Ha). unfold rem in *. cbn [s_rel s_maps s_req].
      destruct (N.eq_dec y x) as [-> |Hn].
      * rewrite Hx3 in *. destruct (Hkeep r) as (r' & Hr' & Ee).
        { destruct Hr as [Hr|Hr]; auto. right. congruence. }
        exists r'. split; auto. intros Q. apply Ha. eapply ends_apart; [|exact Q]. auto.
      * exists r. split; auto. destruct (s_rel s y); auto. rewrite mapr_other, upd_other; auto.
    + intros y r Hi Hr. destruct (N.eq_dec y x) as [-> |Hn].
      * destruct (Hnew r Hr) as [(r0 & Hr0 & Ee)|Ee].
        -- destruct (C4 _ _ Hi Hr0) as (k & Hk & W). exists k. split; auto. eapply ends_within; eauto.
        -- destruct (C3 _ _ Hh) as (k & Hk & W). exists k. split; auto. eapply ends_within; eauto.
      * apply mapr_other in Hr; auto.
    + intros k y Hm' H. rewrite map_put_find in Hm'. destruct (y =? x) eqn:E; [discriminate|].
      apply N.eqb_neq in E. rewrite upd_other by auto. auto.
  - destruct B. constructor; cbn [s_lt s_maps s_live s_last s_req s_rel s_pend set_mem lt_sto]; auto.
    + apply map_put_nodup; auto.
    + intros y c H. apply map_put_in in H. destruct H as [[-> ->]|H]; auto. split; auto.
      exists (rs ++ [g]). split; auto. split; [destruct rs; easy|].
      split; apply Forall_app; auto.
    + intros y q H. apply upd_cases in H. destruct H as [[_ ?]|[_ H]]; [discriminate|auto].
    + intros y q cs H. apply upd_cases in H. destruct H as [[_ ?]|[_ H]]; [discriminate|eauto].
    + intros y H. unfold upd. destruct (y =? x); auto.
    + intros y l c H. destruct (b_releasing0 y l c H) as (H1 & H2). split; auto.
      rewrite map_put_find. destruct (y =? x); [discriminate|auto].
    + intros y H. rewrite map_put_find. destruct (y =? x) eqn:E; auto. apply N.eqb_eq in E. congruence.
    + intros Hn. destruct (b_sto0 Hn) as (Q1 & Q2 & Q3). split; auto. split; auto.
      intros q cs H. apply upd_cases in H. destruct H as [[_ ?]|[_ H]]; [discriminate|]. eapply Q3; eauto.
Qed.

(** ** Beginning and ending *)

Lemma begin_inv s gs h : inv s gs h ->
  inv (Sys (s_lt s) (s_maps s) (s_last s + 1 :: s_live s) (s_last s + 1) (s_req s) (s_rel s) (s_pend s)) gs h.
Proof.
  intros (I & C & B). split; [exact I|]. split.
  - destruct C. constructor; auto. cbn [s_last]. intros k y H. destruct (c_ids0 k y H). split; auto. lia.
  - destruct B. constructor; cbn [s_lt s_maps s_live s_last s_req s_rel s_pend]; auto.
    + intros x b H. destruct (b_bufs0 x b H) as (? & ? & ?). split; auto. split; auto. lia.
    + intros x g H. destruct (b_granted0 x g H) as (? & ? & ?). split; auto. split; auto. right; auto.
    + intros x g cs H. destruct (b_blocked0 x g cs H) as (? & ?). split; auto. right; auto.
    + intros x g H. destruct (b_pend0 x g H) as (? & ?). split; auto. right; auto.
    + intros x [<- |H].
      * split; [lia|]. split; [lia|]. destruct (s_rel s (s_last s + 1)) eqn:E; auto;
        destruct (b_rel0 (s_last s + 1)) as (Hf & _); try congruence; lia.
      * destruct (b_live0 x H) as (? & ? & ?). split; auto. lia.
    + intros x H. destruct (b_rel0 x H) as (H1 & H2 & H3). split; [lia|]. split; auto.
      intros [<- |Hi]; [lia|easy].
    + intros x g H. destruct (b_grants0 x g H) as (H1 & H2). split; auto. lia.
Qed.

Lemma end_inv s gs h x : inv s gs h -> s_req s x = RNone -> find_req x (s_pend s) = None ->
  inv (Sys (s_lt s) (s_maps s) (filter (fun y => negb (y =? x)) (s_live s)) (s_last s)
           (s_req s) (s_rel s) (s_pend s)) gs h.
Proof.
  intros (I & C & B) Hq Hp. split; [exact I|].
  assert (Hf : forall y, In y (filter (fun y => negb (y =? x)) (s_live s)) <-> In y (s_live s) /\ y <> x).
  { intros y. rewrite filter_In. rewrite negb_true_iff, N.eqb_neq. tauto. }
  split.
  - destruct C. constructor; auto.
  - destruct B. constructor; cbn [s_lt s_maps s_live s_last s_req s_rel s_pend]; auto.
    + intros y g H. destruct (b_granted0 y g H) as (? & ? & ?). split; auto. split; auto. apply Hf. split; auto. congruence.
    + intros y g cs H. destruct (b_blocked0 y g cs H) as (? & ?). split; auto. apply Hf. split; auto. congruence.
    + intros y g H. destruct (b_pend0 y g H) as (? & ?). split; auto. apply Hf. split; auto. intros ->.
      apply find_req_none in Hp. apply Hp. apply (in_map fst) in H. exact H.
    + intros y H. apply Hf in H. apply b_live0; tauto.
    + intros y H. destruct (b_rel0 y H) as (H1 & H2 & H3). split; auto. split; auto. rewrite Hf. tauto.
Qed.

(** ** Release *)

Lemma no_req_dead s h x : book s h -> ~ In x (s_live s) -> s_req s x = RNone.
Proof.
  intros B Hl. destruct (s_req s x) as [|g cs|g] eqn:E; auto.
  - destruct (b_blocked _ _ B _ _ _ E); easy.
  - destruct (b_granted _ _ B _ _ E) as (_ & ? & _); easy.
Qed.

Lemma rel_start_book s h x l r : book s h -> x <= s_last s -> ~ In x (s_live s) -> s_rel s x = Idle ->
  (forall k b, r = Releasing k b -> map_find x (s_maps s) <> None /\ Forall goodg k /\ Forall valid k) ->
  r <> Idle -> (r = Released -> map_find x (s_maps s) = None) ->
  (lt_sto l <> TXNID_NONE -> lt_sto l = lt_sto (s_lt s) /\ lt_sto l <> x) ->
  book (set_rel s l x r) (h ++ RelStart x :: match r with Released => [RelDone x] | _ => [] end).
Proof.
  intros B Hx Hl Hi Hr Hne Hrd Hs. set (tl := match r with Released => [RelDone x] | _ => [] end).
  assert (Htl : forall e, In e tl -> e = RelDone x) by (unfold tl; destruct r; cbn; intuition).
  assert (Hh : forall y g, holds (h ++ RelStart x :: tl) y g -> holds h y g /\ y <> x).
  { intros y g. change (RelStart x :: tl) with ([RelStart x] ++ tl). rewrite app_assoc.
    unfold tl. destruct r; rewrite ?app_nil_r; rewrite ?holds_snoc.
    - easy.
    - intros [[H Hn]|H]; [|discriminate]. split; auto. congruence.
    - intros [[[[H Hn]|H] _]|H]; [|discriminate|discriminate]. split; auto. congruence. }
  assert (Hh' : forall y g, holds h y g -> y <> x -> holds (h ++ RelStart x :: tl) y g).
  { intros y g (h1 & h2 & -> & Hn) Hne'. exists h1, (h2 ++ RelStart x :: tl). rewrite <- app_assoc. split; auto.
    rewrite in_app_iff. intros [H|[H|H]]; [easy|congruence|]. apply Htl in H. discriminate. }
  assert (Hin : forall e, In e (h ++ RelStart x :: tl) <-> In e h \/ e = RelStart x \/ In e tl).
  { intros e. rewrite in_app_iff. cbn. intuition. }
  destruct B. constructor; cbn [set_rel s_lt s_maps s_live s_last s_req s_rel s_pend]; auto.
  - intros y g H. destruct (b_granted0 y g H) as (H1 & H2 & H3). split; auto. apply Hh'; auto. intros ->. easy.
  - intros y H. destruct (b_live0 y H) as (H1 & H2 & H3). split; auto. split; auto.
    rewrite upd_other; auto. intros ->. easy.
  - intros y H. unfold upd in H. destruct (y =? x) eqn:E.
    + apply N.eqb_eq in E. subst y. split; auto. split; auto. intros g Hg. apply Hh in Hg. tauto.
    + destruct (b_rel0 y H) as (H1 & H2 & H3). split; auto. split; auto. intros g Hg. apply Hh in Hg.
      eapply H3. apply Hg.
  - intros y k b H. apply upd_cases in H. destruct H as [[-> H]|[_ H]]; eauto.
  - intros y H. apply upd_cases in H. destruct H as [[-> H]|[_ H]]; eauto.
  - intros y H. apply Hin in H. unfold upd. destruct (y =? x) eqn:E; auto.
    destruct H as [H|[[= ->]|H]]; auto; [rewrite N.eqb_refl in E; discriminate|]. apply Htl in H. discriminate.
  - intros y. rewrite Hin. unfold upd. destruct (y =? x) eqn:E.
    + apply N.eqb_eq in E. subst y. split.
      * intros [H|[H|H]]; [apply b_done0 in H; congruence|discriminate|]. unfold tl in H. destruct r; easy.
      * intros ->. right; right. unfold tl. left; auto.
    + apply N.eqb_neq in E. rewrite <- b_done0. split; auto. intros [H|[H|H]]; auto; [discriminate|].
      apply Htl in H. congruence.
  - intros y g H. apply Hin in H. destruct H as [H|[H|H]]; [eauto|discriminate|]. apply Htl in H. discriminate.
  - intros Hn. destruct (Hs Hn) as [Es Hsx]. rewrite Es in Hn.
    destruct (b_sto0 Hn) as (Q1 & Q2 & Q3). rewrite Es in *.
    split; [rewrite upd_other; auto|]. split; auto.
Qed.

Lemma holds_rel h x tl y g : (forall e, In e tl -> e = RelDone x) ->
  holds (h ++ RelStart x :: tl) y g -> holds h y g /\ y <> x.
Proof.
  intros Htl (h1 & h2 & E & Hn).
  assert (HG : ~ In (Grant y g) (RelStart x :: tl)).
  { intros [H|H]; [discriminate|]. apply Htl in H. discriminate. }
  assert (Hsp : exists h3, h2 = h3 ++ RelStart x :: tl /\ h = h1 ++ Grant y g :: h3).
  { clear Hn. revert h1 E. induction h as [|a h IH]; intros h1 E.
    - exfalso. apply HG. cbn [app] in E. rewrite E. apply in_or_app. right. left. auto.
    - destruct h1 as [|b h1]; cbn in E; injection E as E1 E2.
      + subst. exists h. auto.
      + destruct (IH h1 E2) as (h3 & ? & ?). exists h3. subst. auto. }
  destruct Hsp as (h3 & -> & ->). rewrite in_app_iff in Hn. cbn in Hn. split.
  - exists h1, h3. split; auto.
  - intros ->. apply Hn. auto.
Qed.

Lemma notrel_rel h x tl y g : (forall e, In e tl -> e = RelDone x) -> y <> x ->
  not_released h y g -> not_released (h ++ RelStart x :: tl) y g.
Proof.
  intros Htl Hn (h1 & h2 & -> & H). exists h1, (h2 ++ RelStart x :: tl). rewrite <- app_assoc. split; auto.
  rewrite in_app_iff. intros [Q|[Q|Q]]; [easy|discriminate|]. apply Htl in Q. congruence.
Qed.

Lemma rel_inv s gs h x : inv s gs h -> legal kcmp s (Rel x) ->
  exists s' ev gs', step kcmp overhead max s (Rel x) = Some (s', ev) /\ inv s' gs' (h ++ ev) /\
    s_pend s' = s_pend s /\ (forall k y, y <> x -> In (k, y) (locks (s_lt s') gs') <-> In (k, y) (locks (s_lt s) gs)).
Proof.
  intros (I & C & B) (Hx & Hx0 & Hl & Hi). cbn [step].
  pose proof (no_req_dead s h x B Hl) as Hq.
  destruct (map_find x (s_maps s)) as [b|] eqn:Em.
  - assert (Hb : buf_ok b) by (apply (b_bufs _ _ B x b); apply map_find_in; auto).
    destruct (buf_ok_records b Hb) as (rs & Er & Hrs & Gr & Vr).
    assert (Hlock : exists k, In (k, x) (locks (s_lt s) gs)).
    { destruct rs as [|r rs]; [easy|]. destruct (c_map _ _ _ C x r Hi) as (k & Hk & _); [|eauto].
      exists b, (r :: rs). split; auto. split; auto. left; auto. }
    destruct Hlock as (k & Hk).
    destruct (sto_try_release_ok kcmp overhead (s_lt s) gs (memsum (s_maps s)) x I) as (rel & l & E & Hrel).
    { intros Hn. symmetry. eapply sto_owner; eauto. }
    rewrite E. destruct rel.
    + destruct Hrel as (Es & Hn & I' & EL & Et & Es'). cbv iota.
      exists (set_rel s l x (Releasing [] (negb true))), [RelStart x], []. split; [reflexivity|].
      assert (Hall : forall k0 y0, In (k0, y0) (locks (s_lt s) gs) -> y0 = x).
      { intros k0 y0 H0. rewrite <- Es. eapply sto_owner; eauto. }
      split; [|split; [reflexivity|]].
      2:{ intros k0 y0 Hy. cbn [set_rel s_lt]. rewrite EL. split; [easy|]. intros H. apply Hall in H. easy. }
      split; [exact I'|]. split.
      * cbn [set_rel s_lt]. rewrite EL.
        constructor; cbn [set_rel s_lt s_maps s_live s_last s_req s_rel s_pend]; try easy.
        -- intros y g H. apply (holds_rel h x []) in H; [|easy]. destruct H as [H Hyx].
           destruct (c_cover _ _ _ C _ _ H) as (k0 & H0 & _). apply Hall in H0. easy.
        -- intros y r Hy Hr. apply upd_cases in Hy. destruct Hy as [[_ Hy]|[Hyx Hy]]; [discriminate|].
           destruct (c_map _ _ _ C _ _ Hy Hr) as (k0 & H0 & _). apply Hall in H0. easy.
      * apply (rel_start_book s h x l (Releasing [] (negb true))); auto; try discriminate.
        -- intros k0 b0 [= <- <-]. split; [congruence|auto].
        -- congruence.
    + destruct Hrel as (-> & Es & ->). rewrite Er.
      exists (set_rel s (s_lt s) x (Releasing rs (negb false))), [RelStart x], []. split; [reflexivity|].
      split; [|split; [reflexivity|reflexivity]]. split; [exact I|]. split.
      * destruct C as [C1 C2 C3 C4 C5 C6].
        constructor; cbn [set_rel s_lt s_maps s_live s_last s_req s_rel s_pend]; auto.
        -- intros k0 y H. destruct (C1 _ _ H) as (r & Hr & Ha). exists r. split; auto. unfold rem in *.
           cbn [set_rel s_rel s_maps s_req]. unfold upd. destruct (y =? x) eqn:E1; auto.
           apply N.eqb_eq in E1. subst y. rewrite Hi in Hr. destruct Hr as [(b' & rs' & H1 & H2 & H3)|Hr]; congruence.
        -- intros y g H. apply (holds_rel h x []) in H; [|easy]. apply C3. tauto.
        -- intros y r Hy Hr. apply upd_cases in Hy. destruct Hy as [[_ Hy]|[Hyx Hy]]; [discriminate|]. auto.
        -- intros He k0 y p H Hp. rewrite in_snoc in He.
           destruct (C6 ltac:(tauto) _ _ _ H Hp) as (g & Hg & P). exists g. split; auto.
           apply notrel_snoc. left. split; auto. discriminate.
      * apply (rel_start_book s h x (s_lt s) (Releasing rs (negb false))); auto; try discriminate.
        intros k0 b0 [= <- <-]. split; [congruence|auto].
  - exists (set_rel s (s_lt s) x Released), [RelStart x; RelDone x], gs. split; [reflexivity|].
    assert (Hno : forall k, ~ In (k, x) (locks (s_lt s) gs)).
    { intros k H. destruct (c_un _ _ _ C _ _ Em H) as (g & ? & _). congruence. }
    split; [|split; [reflexivity|reflexivity]]. split; [exact I|]. split.
    + destruct C as [C1 C2 C3 C4 C5 C6].
      assert (Htl : forall e, In e [RelDone x] -> e = RelDone x) by (intros e [<- |[]]; auto).
      constructor; cbn [set_rel s_lt s_maps s_live s_last s_req s_rel s_pend]; auto.
      * intros k0 y H. destruct (C1 _ _ H) as (r & Hr & Ha). exists r. split; auto. unfold rem in *.
        cbn [set_rel s_rel s_maps s_req]. rewrite upd_other; auto. intros ->. eapply Hno; eauto.
      * intros y g H. apply (holds_rel h x [RelDone x]) in H; [|auto]. apply C3. tauto.
      * intros y r Hy Hr. apply upd_cases in Hy. destruct Hy as [[_ Hy]|[Hyx Hy]]; [discriminate|]. auto.
      * intros He k0 y p H Hp. rewrite in_app_iff in He. destruct (C6 ltac:(tauto) _ _ _ H Hp) as (g & Hg & P).
        exists g. split; auto. apply notrel_rel; auto. intros ->. eapply Hno; eauto.
    + apply (rel_start_book s h x (s_lt s) Released); auto; try discriminate.
      intros Hn. split; auto. intros Es. destruct (locks_cases _ _ _ I) as [(Q & _)|(_ & _ & EL & Hg)]; [easy|].
      destruct gs as [|g gs]; [easy|]. apply (Hno g). rewrite EL, Es. left. auto.
Qed.

Lemma relnext_inv s gs h x g l b : inv s gs h -> s_rel s x = Releasing (g :: l) b ->
  exists t, remove_overlapping kcmp overhead (s_lt s) x g = Some t /\
    inv (set_rel s t x (Releasing l b)) gs h /\
    (forall k y, y <> x -> In (k, y) (locks t gs) <-> In (k, y) (locks (s_lt s) gs)).
Proof.
  intros (I & C & B) Hr.
  destruct (b_releasing _ _ B _ _ _ Hr) as (Hm & Gl & Vl). inversion Gl; subst. inversion Vl; subst.
  destruct (b_rel _ _ B x ltac:(congruence)) as (Hx & Hlive & Hnh).
  destruct (remove_overlapping_ok kcmp OK overhead (s_lt s) gs (memsum (s_maps s)) x g I) as (t & E & I' & Es & Hin); auto.
  assert (HL : forall k y, In (k, y) (locks t gs) <-> In (k, y) (locks (s_lt s) gs) /\ (y = x -> apart g k)).
  { intros k y. unfold locks. rewrite !in_app_iff, Hin, Es. cbn [fst snd]. rewrite !in_tag. split.
    - intros [[H Hap]|[-> H]]; [auto|]. split; auto. intros Q. exfalso.
      assert (Hn : lt_sto (s_lt s) <> TXNID_NONE).
      { intros Z. pose proof (li_none _ _ _ _ _ I Z). subst gs. easy. }
      destruct (b_sto _ _ B Hn) as (Q1 & _). congruence.
    - intros [[H|H] Hap]; auto. }
  exists t. split; auto. split; [|intros k y Hy; rewrite HL; tauto].
  split; [exact I'|]. split.
  - destruct C as [C1 C2 C3 C4 C5 C6]. cbn [set_rel s_lt].
    constructor; cbn [set_rel s_lt s_maps s_live s_last s_req s_rel s_pend].
    + intros k y H. apply HL in H. destruct H as [H Hap]. destruct (C1 _ _ H) as (r & Hr' & Ha). exists r. split; auto.
      unfold rem in *. cbn [set_rel s_rel s_maps s_req]. unfold upd. destruct (y =? x) eqn:Ey; auto.
      apply N.eqb_eq in Ey. subst y. rewrite Hr in Hr'. destruct Hr' as [<- |Hr']; auto.
      exfalso. apply Ha. auto.
    + intros k y H. apply HL in H. eapply C2. apply H.
    + intros y q H. destruct (C3 _ _ H) as (k & Hk & W). exists k. split; auto. apply HL. split; auto.
      intros ->. exfalso. eapply Hnh; eauto.
    + intros y r Hy Hrr. apply upd_cases in Hy. destruct Hy as [[_ ?]|[Hyx Hy]]; [discriminate|].
      destruct (C4 _ _ Hy Hrr) as (k & Hk & W). exists k. split; auto. apply HL. split; auto. easy.
    + intros k y Hmm H. apply HL in H. eapply C5; eauto. apply H.
    + intros He k y p H. apply HL in H. apply C6; auto. apply H.
  - destruct B. constructor; cbn [set_rel s_lt s_maps s_live s_last s_req s_rel s_pend]; auto.
    + intros y H. destruct (b_live0 y H) as (Q1 & Q2 & Q3). split; auto. split; auto.
      rewrite upd_other; auto. intros ->. easy.
    + intros y H. unfold upd in H. destruct (y =? x) eqn:Ey; auto. apply N.eqb_eq in Ey. subst y. auto.
    + intros y k c H. apply upd_cases in H. destruct H as [[-> [= <- <-]]|[_ H]]; eauto.
    + intros y H. apply upd_cases in H. destruct H as [[_ ?]|[_ H]]; [discriminate|auto].
    + intros y H. unfold upd. destruct (y =? x); auto. discriminate.
    + intros y. rewrite b_done0. unfold upd. destruct (y =? x) eqn:Ey; [|tauto].
      apply N.eqb_eq in Ey. subst y. rewrite Hr. split; discriminate.
    + rewrite Es. intros Hn. destruct (b_sto0 Hn) as (Q1 & Q2). split; auto.
      rewrite upd_other; auto. intros Q. rewrite Q in Q1. congruence.
Qed.

Lemma bump_inv s gs ext : lt_inv s gs ext -> lt_inv (bump_score s) gs ext.
Proof. intros []. constructor; auto. Qed.

Lemma relfin_inv s gs h x bump : inv s gs h -> s_rel s x = Releasing [] bump ->
  exists s' ev, step kcmp overhead max s (RelFin x) = Some (s', ev) /\ inv s' gs (h ++ ev) /\
    s_pend s' = s_pend s /\ locks (s_lt s') gs = locks (s_lt s) gs.
Proof.
  intros (I & C & B) Hr. cbn [step]. rewrite Hr.
  destruct (b_releasing _ _ B _ _ _ Hr) as (Hm & _).
  destruct (b_rel _ _ B x ltac:(congruence)) as (Hx & Hlive & Hnh).
  destruct (map_find x (s_maps s)) as [b|] eqn:Em; [|easy].
  set (l := if bump then bump_score (s_lt s) else s_lt s).
  assert (Il : lt_inv l gs (memsum (s_maps s))) by (unfold l; destruct bump; auto using bump_inv).
  assert (El : locks l gs = locks (s_lt s) gs) by (unfold l; destruct bump; reflexivity).
  assert (Esl : lt_sto l = lt_sto (s_lt s)) by (unfold l; destruct bump; reflexivity).
  unfold mem_released.
  pose proof (map_del_mem x b (s_maps s) Em) as Hmd.
  pose proof (li_mem _ _ _ _ _ Il) as Hmem.
  replace (rb_mem b <=? lt_mem l) with true by (symmetry; apply N.leb_le; lia).
  eexists _, _. split; [reflexivity|].
  assert (Hno : forall k, ~ In (k, x) (locks (s_lt s) gs)).
  { intros k H. destruct (c_own _ _ _ C _ _ H) as (r & Hrr & _). unfold rem in Hrr. rewrite Hr in Hrr. easy. }
  split; [|split; [reflexivity|exact El]].
  split; [|split]; cbn [s_lt s_maps].
  - eapply lt_inv_mem; [exact Il|]. lia.
  - change (locks (set_mem l _) gs) with (locks l gs). rewrite El.
    destruct C as [C1 C2 C3 C4 C5 C6].
    constructor; cbn [s_maps s_last s_rel s_req]; auto.
    + intros k y H. destruct (C1 _ _ H) as (r & Hrr & Ha). exists r. split; auto.
      assert (Hn : y <> x) by (intros ->; eapply Hno; eauto).
      unfold rem in *. cbn [s_rel s_maps s_req]. rewrite upd_other by auto. destruct (s_rel s y); auto.
      unfold mapr in *. rewrite map_del_find by apply B. apply N.eqb_neq in Hn. rewrite Hn. auto.
    + intros y g H. apply holds_snoc in H. destruct H as [[H _]|H]; [auto|discriminate].
    + intros y r Hy Hrr. apply upd_cases in Hy. destruct Hy as [[_ ?]|[Hyx Hy]]; [discriminate|].
      unfold mapr in *. rewrite map_del_find in Hrr by apply B. apply N.eqb_neq in Hyx. rewrite Hyx in Hrr. auto.
    + intros k y Hmm H. rewrite map_del_find in Hmm by apply B.
      destruct (y =? x) eqn:E; [|eapply C5; eauto]. apply N.eqb_eq in E. subst y. exfalso. eapply Hno; eauto.
    + intros He k y p H Hp. rewrite in_snoc in He.
      destruct (C6 ltac:(tauto) _ _ _ H Hp) as (g & Hg & P). exists g. split; auto.
      apply notrel_snoc. left. split; auto. intros [= ->]. eapply Hno; eauto.
  - destruct B. constructor; cbn [s_lt s_maps s_live s_last s_req s_rel s_pend set_mem lt_sto]; auto.
    + apply map_del_nodup; auto.
    + intros y c H. apply map_del_in in H. auto.
    + intros y g H. destruct (b_granted0 y g H) as (Q1 & Q2). split; auto. apply holds_snoc. left. split; auto. discriminate.
    + intros y H. destruct (b_live0 y H) as (Q1 & Q2 & Q3). split; auto. split; auto.
      rewrite upd_other; auto. intros ->. easy.
    + intros y H. assert (Hy : s_rel s y <> Idle).
      { unfold upd in H. destruct (y =? x) eqn:Ey; auto. apply N.eqb_eq in Ey. subst y. congruence. }
      destruct (b_rel0 y Hy) as (Q1 & Q2 & Q3). split; auto. split; auto.
      intros g Hg. apply holds_snoc in Hg. destruct Hg as [[Hg _]|Hg]; [eapply Q3; eauto|discriminate].
    + intros y k c H. apply upd_cases in H. destruct H as [[_ ?]|[Hyx H]]; [discriminate|].
      destruct (b_releasing0 y k c H) as (Q1 & Q2). split; auto. rewrite map_del_find by auto.
      apply N.eqb_neq in Hyx. rewrite Hyx. auto.
    + intros y H. rewrite map_del_find by auto. destruct (y =? x) eqn:Ey; auto.
      apply b_released0. unfold upd in H. rewrite Ey in H. auto.
    + intros y H. apply in_snoc in H. destruct H as [H|H]; [|discriminate].
      unfold upd. destruct (y =? x); auto. discriminate.
    + intros y. rewrite in_snoc. unfold upd. destruct (y =? x) eqn:Ey.
      * apply N.eqb_eq in Ey. subst y. split; auto.
      * apply N.eqb_neq in Ey. rewrite <- b_done0. split; auto. intros [H|H]; auto. congruence.
    + intros y g H. apply in_snoc in H. destruct H as [H|H]; [eauto|discriminate].
    + rewrite Esl. intros Hn. destruct (b_sto0 Hn) as (Q1 & Q2). split; auto.
      rewrite upd_other; auto. intros Q. rewrite Q in Q1. congruence.
Qed.

(** ** Escalation *)

Lemma append_all_ok gs : Forall storable gs -> forall b rs, rb_rep b rs ->
  exists b', append_all b gs = Some b' /\ rb_rep b' (rs ++ gs).
Proof.
  induction 1 as [|g gs Hg _ IH]; intros b rs R; cbn.
  - exists b. rewrite app_nil_r. auto.
  - destruct (rep_append b rs g R Hg) as (b1 & -> & R1 & _).
    destruct (IH b1 _ R1) as (b2 & E & R2). exists b2. rewrite <- app_assoc in R2. auto.
Qed.

Lemma is_live_iff x l : is_live x l = true <-> In x l.
Proof. apply existsb_in. Qed.

(** The callbacks of all owners. *)
Lemma escalate_cbs_ok live fs last bs : NoDup (map fst bs) ->
  (forall x b, In (x, b) bs -> rb_rep b (fs x) /\ fs x <> [] /\ Forall goodg (fs x) /\ Forall valid (fs x) /\
     x <= last /\ x <> 0) ->
  forall ms base, NoDup (map fst ms) -> (forall x b, In (x, b) ms -> buf_ok b /\ x <= last /\ x <> 0) ->
  (forall x, In x (map fst bs) -> In x live -> map_find x ms = None -> length (fs x) = 1%nat) ->
  exists ms' m', escalate_cbs live ms (base + memsum ms) bs = Some (ms', m') /\
    m' = base + memsum ms' /\ NoDup (map fst ms') /\
    (forall x b, In (x, b) ms' -> buf_ok b /\ x <= last /\ x <> 0) /\
    (forall x, map_find x ms' = None <-> map_find x ms = None) /\
    (forall x, In x (map fst bs) -> In x live -> map_find x ms <> None ->
       exists b' rs, map_find x ms' = Some b' /\ rb_rep b' rs /\ Permutation (map ends rs) (map ends (fs x))) /\
    (forall x, ~ In x (map fst bs) \/ ~ In x live -> map_find x ms' = map_find x ms).
Proof.
  induction bs as [|[x b] bs IH]; intros Nd Hb ms base Nm Hm H1.
  { exists ms, (base + memsum ms). cbn. split; auto. split; auto. split; auto. split; auto.
    split; [tauto|]. split; [easy|auto]. }
  inversion Nd as [|? ? Nx Nb]; subst.
  destruct (Hb x b) as (R & Hne & G & V & Hx & Hx0); [left; auto|].
  cbn [escalate_cbs]. unfold escalate_cb.
  destruct (is_live x live) eqn:El.
  - apply is_live_iff in El. destruct (map_find x ms) as [old|] eqn:Ef.
    + unfold mem_released. pose proof (map_find_mem x old ms Ef) as Hle.
      replace (rb_mem old <=? base + memsum ms) with true by (symmetry; apply N.leb_le; lia).
      destruct (rep_records b _ R) as (rs & Er & P & Sn & _). rewrite Er.
      destruct (ends_props kcmp _ _ P Sn G V) as [Gr Vr].
      assert (Sr : Forall storable rs).
      { eapply Forall_impl; [|exact Gr]. intros. apply good_storable; auto. }
      destruct (append_all_ok rs Sr rb_empty [] rep_empty) as (b' & Ea & R'). rewrite Ea. cbn [app] in R'.
      pose proof (map_put_mem x b' ms) as Hmp. rewrite Ef in Hmp.
      replace (base + memsum ms - rb_mem old + rb_mem b') with (base + memsum (map_put x b' ms)) by lia.
      assert (Hrs : rs <> []).
      { intros ->. cbn in P. apply Permutation_nil in P. destruct (fs x); easy. }
      destruct (IH Nb) with (ms := map_put x b' ms) (base := base)
        as (ms' & m' & E & Hm' & N' & B' & F1 & F2 & F3).
      * intros y c Hi. apply Hb. right; auto.
      * apply map_put_nodup; auto.
      * intros y c Hi. apply map_put_in in Hi. destruct Hi as [[-> ->]|Hi]; auto. split; auto.
        exists rs. auto.
      * intros y Hy Hyl Hn. apply H1; [right; auto|auto|]. rewrite map_put_find in Hn.
        destruct (y =? x); [discriminate|auto].
      * exists ms', m'. split; auto. split; auto. split; auto. split; auto. split; [|split].
        -- intros y. rewrite F1, map_put_find. destruct (y =? x) eqn:E1; [|tauto].
           apply N.eqb_eq in E1. subst y. rewrite Ef. split; discriminate.
        -- intros y [<- |Hy] Hyl Hn.
           ++ rewrite F3 by auto. rewrite map_put_find. cbn [fst]. rewrite N.eqb_refl. eauto.
           ++ apply F2; auto. rewrite map_put_find. destruct (y =? x); [discriminate|auto].
        -- intros y Hy. assert (Hyx : y <> x).
           { intros ->. destruct Hy as [Hy|Hy]; [apply Hy; left; auto|easy]. }
           rewrite F3, map_put_find; [apply N.eqb_neq in Hyx; rewrite Hyx; auto|].
           destruct Hy as [Hy|Hy]; auto. left. intros Q. apply Hy. right; auto.
    + assert (length (fs x) = 1%nat) as Hl by (apply H1; auto; left; auto).
      rewrite (rep_num _ _ R), Hl. cbn [N.of_nat Pos.of_succ_nat N.eqb Pos.eqb].
      destruct (IH Nb) with (ms := ms) (base := base) as (ms' & m' & E & Hm' & N' & B' & F1 & F2 & F3); auto.
      * intros y c Hi. apply Hb. right; auto.
      * intros y Hy. apply H1. right; auto.
      * exists ms', m'. split; auto. split; auto. split; auto. split; auto. split; auto. split.
        -- intros y [<- |Hy] Hyl Hn; [cbn in Hn; congruence|auto].
        -- intros y Hy. apply F3. destruct Hy as [Hy|Hy]; auto. left. intros Q. apply Hy. right; auto.
  - assert (~ In x live) as Hnl.
    { intros Q. apply is_live_iff in Q. congruence. }
    destruct (IH Nb) with (ms := ms) (base := base) as (ms' & m' & E & Hm' & N' & B' & F1 & F2 & F3); auto.
    + intros y c Hi. apply Hb. right; auto.
    + intros y Hy. apply H1. right; auto.
    + exists ms', m'. split; auto. split; auto. split; auto. split; auto. split; auto. split.
      * intros y [<- |Hy] Hyl Hn; [easy|auto].
      * intros y Hy. apply F3. destruct Hy as [Hy|Hy]; auto. left. intros Q. apply Hy. right; auto.
Qed.

Lemma of_owner_in x F g : In g (of_owner x F) <-> In (g, x) F.
Proof.
  unfold of_owner. rewrite in_map_iff. split.
  - intros ([k y] & <- & H). apply filter_In in H. destruct H as [H E]. cbn in *. apply N.eqb_eq in E. subst. auto.
  - intros H. exists (g, x). split; auto. apply filter_In. split; auto. apply N.eqb_refl.
Qed.

Lemma same_ends_in F L k x : same_ends F L -> In (k, x) L -> exists k0, In (k0, x) F /\ ends k0 = ends k.
Proof.
  intros P H. apply (in_map tends) in H. apply (Permutation_in _ (Permutation_sym P)) in H.
  apply in_map_iff in H. destruct H as ([k0 x0] & E & Hi). unfold tends in E. cbn in E. injection E as E1 E2 E3.
  exists k0. subst x0. split; auto. unfold ends. congruence.
Qed.

Lemma same_ends_in' F L k x : same_ends F L -> In (k, x) F -> exists k0, In (k0, x) L /\ ends k0 = ends k.
Proof. intros P. apply same_ends_in. apply Permutation_sym. exact P. Qed.

Lemma sorted_nodup bs : StronglySorted (fun a b : N * rbuf => fst b < fst a) bs -> NoDup (map fst bs).
Proof.
  induction 1 as [|e bs S IH F]; cbn; constructor; auto. intros H. apply in_map_iff in H.
  destruct H as (e' & E & Hi). rewrite Forall_forall in F. specialize (F _ Hi). cbn in F. lia.
Qed.

(** A transaction with two locks has noted a range. *)
Lemma one_lock F x g : dsorted kcmp F -> (forall k, In (k, x) F -> within k g /\ within g k) -> valid g ->
  (length (of_owner x F) <= 1)%nat.
Proof.
  intros [S Vf] H V. unfold of_owner. rewrite map_length.
  assert (Hf : forall e, In e (filter (fun e => snd e =? x) F) -> within g (fst e)).
  { intros [k y] Hi. apply filter_In in Hi. destruct Hi as [Hi E]. cbn in E. apply N.eqb_eq in E. subst y. apply H; auto. }
  assert (S' : StronglySorted (before kcmp) (filter (fun e => snd e =? x) F)).
  { apply (dsorted_filter kcmp (fun e => snd e =? x) F). split; auto. }
  destruct (filter (fun e => snd e =? x) F) as [|a [|b l]]; cbn; try lia.
  exfalso. inversion S' as [|? ? ? Fa]; subst. inversion Fa; subst.
  assert (Wa := Hf a ltac:(left; auto)). assert (Wb := Hf b ltac:(right; left; auto)).
  assert (A : apart g g).
  { left. eapply rlt_within; eauto. }
  eapply valid_not_apart; eauto.
Qed.

Lemma escalate_inv s gs h : inv s gs h ->
  exists s', do_escalate kcmp overhead s = Some s' /\ inv s' [] (h ++ [Escalated]) /\
    lt_sto (s_lt s') = TXNID_NONE /\ s_live s' = s_live s /\ s_req s' = s_req s /\ s_rel s' = s_rel s /\
    s_pend s' = s_pend s /\ s_last s' = s_last s /\
    exists L1, regroup (locks (s_lt s) gs) L1 /\ spans L1 (locks (s_lt s') []) /\ dsorted kcmp L1 /\
      (length (locks (s_lt s') []) <= length L1)%nat /\
      (lt_sto (s_lt s) = TXNID_NONE -> L1 = locks (s_lt s) gs).
Proof.
  intros (I & C & B). unfold do_escalate.
  destruct (escalate_ok kcmp OK overhead (s_lt s) gs (memsum (s_maps s)) I)
    as (l & bs & F & E & I' & Es & (L1 & R1 & Sp & Hlen & EL1 & D1) & SE & DF & BR & GF).
  rewrite E.
  set (L' := elems (lt_tree l)).
  assert (VL1 : forall e, In e L1 -> valid (fst e)) by (intros e He; exact (dsorted_valid kcmp L1 e D1 He)).
  assert (C1 : core L1 s h).
  { eapply core_regroup; [exact C|exact R1| |auto]. intros e He. apply (locks_valid _ _ _ _ I He). }
  assert (VF : forall k y, In (k, y) F -> valid k) by (intros k y Hk; exact (dsorted_valid kcmp F (k, y) DF Hk)).
  (* facts about the new locks *)
  assert (Keep : forall k y, In (k, y) L1 -> exists k', In (k', y) L' /\ within k k').
  { intros k y H. destruct (sp_keep _ _ _ Sp _ _ H) as (k0 & H0 & W).
    destruct (same_ends_in' _ _ _ _ SE H0) as (k' & H' & Ee). exists k'. split; auto. eapply ends_within_r; [symmetry; exact Ee|exact W]. }
  assert (Span : forall k' y, In (k', y) L' -> exists a b, In (a, y) L1 /\ In (b, y) L1 /\
            r_l k' = r_l a /\ r_r k' = r_r b /\ within a k' /\ within b k').
  { intros k' y H. destruct (same_ends_in _ _ _ _ SE H) as (k0 & H0 & Ee).
    destruct (sp_span _ _ _ Sp _ _ H0) as (a & b & Ha & Hb & El & Er & Wa & Wb). exists a, b.
    injection Ee as E1 E2. rewrite <- E1, <- E2. split; auto. split; auto. split; auto. split; auto.
    split; (eapply ends_within_r with (b := k0); [unfold ends; congruence|assumption]). }
  assert (Un : forall y, map_find y (s_maps s) = None -> forall k, In (k, y) L' ->
            exists g, s_req s y = RGranted g /\ within k g /\ within g k).
  { intros y Hn k H. destruct (Span _ _ H) as (a & b & Ha & Hb & El & Er & Wa & Wb).
    destruct (c_un _ _ _ C1 _ _ Hn Ha) as (g & Hg & Wag & Wga).
    destruct (c_un _ _ _ C1 _ _ Hn Hb) as (g' & Hg' & Wbg & Wgb). rewrite Hg in Hg'. injection Hg' as <-.
    exists g. split; auto. split; [|eapply within_trans; eauto].
    destruct Wag, Wbg. split; congruence. }
  destruct (escalate_cbs_ok (s_live s) (fun x => of_owner x F) (s_last s) bs) with (ms := s_maps s)
    (base := mem overhead L' + rb_mem (lt_buf l)) as (ms & m & Ecb & Hm & Nd & Bk & F1 & F2 & F3).
  { apply sorted_nodup. apply BR. }
  { intros x b Hi. destruct (br_rep _ _ BR _ _ Hi) as (R & Hne). split; auto. split; auto.
    split; [|split].
    - rewrite Forall_forall in *. intros g Hg. apply of_owner_in in Hg. apply (GF _ Hg).
    - rewrite Forall_forall. intros g Hg. apply of_owner_in in Hg. eapply VF; eauto.
    - destruct (of_owner x F) as [|g0 ?] eqn:Eo; [easy|].
      assert (Hg0 : In (g0, x) F) by (apply of_owner_in; rewrite Eo; left; auto).
      destruct (sp_span _ _ _ Sp _ _ Hg0) as (a & _ & Ha & _). apply (c_ids _ _ _ C1 _ _ Ha). }
  { apply B. } { apply B. }
  { intros x Hx Hl Hn.
    assert (Hne : of_owner x F <> []).
    { apply in_map_iff in Hx. destruct Hx as ([x' b] & <- & Hi). apply (br_rep _ _ BR _ _ Hi). }
    destruct (of_owner x F) as [|g0 gr] eqn:Eo; [easy|].
    assert (Hg0 : In (g0, x) F) by (apply of_owner_in; rewrite Eo; left; auto).
    destruct (same_ends_in' _ _ _ _ SE Hg0) as (k0 & Hk0 & Ee0).
    destruct (Un x Hn _ Hk0) as (g & Hg & _). destruct (b_granted _ _ B _ _ Hg) as (_ & _ & _ & Vg).
    assert (Hle : (length (of_owner x F) <= 1)%nat).
    { eapply one_lock with (g := g); eauto. intros k Hk. destruct (same_ends_in' _ _ _ _ SE Hk) as (k' & Hk' & Ee).
      destruct (Un x Hn _ Hk') as (g' & Hg' & W1 & W2). rewrite Hg in Hg'. injection Hg' as <-.
      split; [eapply ends_within; [exact Ee|exact W1]|eapply ends_within_r; [exact Ee|exact W2]]. }
    rewrite Eo in Hle. cbn in *. lia. }
  pose proof (li_mem _ _ _ _ _ I') as Hmem.
  replace (lt_mem l) with (mem overhead L' + rb_mem (lt_buf l) + memsum (s_maps s)) by (unfold L'; lia).
  rewrite Ecb. eexists. split; [reflexivity|].
  assert (EL' : locks l [] = L').
  { unfold locks, L'. cbn. apply app_nil_r. }
  cbn [s_lt s_live s_req s_rel s_pend s_last set_mem lt_sto].
  change (locks (set_mem l m) []) with (locks l []). rewrite EL'.
  split; [|do 6 (split; [auto|])].
  2:{ exists L1. split; auto. split.
      { constructor; [exact Keep|exact Span]. }
      split; auto. split; auto. apply Permutation_length in SE. rewrite !map_length in SE. fold L' in SE. lia. }
  split; [|split]; cbn [s_lt s_maps].
  - eapply lt_inv_mem; [exact I'|]. rewrite Hm, Hmem. unfold L'. lia.
  - change (locks (set_mem l m) []) with (locks l []). rewrite EL'.
    destruct C1 as [D1' D2 D3 D4 D5 D6].
    constructor; cbn [s_maps s_last s_rel s_req].
    + intros k y H. destruct (Span _ _ H) as (a & b & Ha & Hb & El & Er & Wa & Wb).
      destruct (D1' _ _ Ha) as (r & Hr & Hap).
      assert (Hap' : ~ apart r k).
      { intros Q. apply Hap. apply apart_sym. apply apart_sym in Q. eapply within_apart; eauto. }
      unfold rem in *. cbn [s_rel s_maps s_req].
      destruct (s_rel s y) eqn:Er'; [|eauto|easy].
      destruct (map_find y (s_maps s)) as [old|] eqn:Em.
      * destruct (in_dec N.eq_dec y (s_live s)) as [Hl|Hl].
        -- destruct (same_ends_in _ _ _ _ SE H) as (k0 & H0 & Ee).
           assert (Hy : In y (map fst bs)).
           { destruct (br_all _ _ BR _ _ H0) as (c & Hc). apply (in_map fst) in Hc. exact Hc. }
           destruct (F2 y Hy Hl ltac:(congruence)) as (b' & rs & Ef' & R' & P').
           destruct (mapr_rep _ _ _ _ Ef' R') as [_ M2].
           assert (Hk0 : exists r0, In r0 rs /\ ends r0 = ends k0).
           { apply of_owner_in in H0. apply (in_map ends) in H0. apply (Permutation_in _ (Permutation_sym P')) in H0.
             apply in_map_iff in H0. destruct H0 as (r0 & ? & ?). eauto. }
           destruct Hk0 as (r0 & Hr0 & Ee0). destruct (M2 r0 Hr0) as (r1 & Hr1 & Ee1).
           exists r1. split; auto. assert (Vk : valid k).
           { eapply ends_valid; [exact Ee|]. eapply VF; eauto. }
           intros Q. apply (valid_not_apart k Vk). eapply ends_apart; [|exact Q]. congruence.
        -- exists r. split; auto. destruct Hr as [Hr|Hr]; auto. left. unfold mapr in *. rewrite F3; auto.
      * exists r. split; auto. destruct Hr as [Hr|Hr]; auto. exfalso.
        destruct Hr as (? & ? & ? & _). congruence.
    + intros k y H. destruct (Span _ _ H) as (a & _ & Ha & _). eapply D2; eauto.
    + intros x g H. apply holds_snoc in H. destruct H as [[H _]|H]; [|discriminate].
      destruct (D3 _ _ H) as (k & Hk & W). destruct (Keep _ _ Hk) as (k' & Hk' & W').
      exists k'. split; auto. eapply within_trans; eauto.
    + intros x r Hi Hr.
      assert (Hold : mapr (s_maps s) x r -> exists k, In (k, x) L' /\ within r k).
      { intros Hr'. destruct (D4 _ _ Hi Hr') as (k & Hk & W). destruct (Keep _ _ Hk) as (k' & Hk' & W').
        exists k'. split; auto. eapply within_trans; eauto. }
      destruct (in_dec N.eq_dec x (map fst bs)) as [Hb|Hb]; [|apply Hold; unfold mapr in *; rewrite F3 in Hr; auto].
      destruct (in_dec N.eq_dec x (s_live s)) as [Hl|Hl]; [|apply Hold; unfold mapr in *; rewrite F3 in Hr; auto].
      assert (Hne : map_find x (s_maps s) <> None).
      { destruct Hr as (c & ? & Hc & _). intros Q. apply F1 in Q. congruence. }
      destruct (F2 x Hb Hl Hne) as (b' & rs & Ef' & R' & P').
      destruct (mapr_rep _ _ _ _ Ef' R') as [M1 _]. destruct (M1 r Hr) as (r0 & Hr0 & Ee).
      apply (in_map ends) in Hr0. apply (Permutation_in _ P') in Hr0. apply in_map_iff in Hr0.
      destruct Hr0 as (g0 & Eg0 & Hg0). apply of_owner_in in Hg0.
      destruct (same_ends_in' _ _ _ _ SE Hg0) as (k & Hk & Ek). exists k. split; auto.
      eapply ends_within_r with (b := r); [congruence|]. apply within_refl; auto.
    + intros k y Hn H. apply F1 in Hn. eapply Un; eauto.
    + intros Q. exfalso. apply Q. apply in_snoc. auto.
  - destruct B. constructor; cbn [s_lt s_maps s_live s_last s_req s_rel s_pend set_mem lt_sto]; auto.
    + intros x g H. destruct (b_granted0 x g H) as (Q1 & Q2). split; auto. apply holds_snoc. left. split; auto. discriminate.
    + intros x H. destruct (b_rel0 x H) as (Q1 & Q2 & Q3). split; auto. split; auto.
      intros g Hg. apply holds_snoc in Hg. destruct Hg as [[Hg _]|Hg]; [eapply Q3; eauto|discriminate].
    + intros x k b H. destruct (b_releasing0 x k b H) as (Q1 & Q2). split; auto. rewrite F1. auto.
    + intros x H. apply F1. auto.
    + intros x H. apply in_snoc in H. destruct H as [H|H]; [auto|discriminate].
    + intros x. rewrite in_snoc, <- b_done0. split; [intros [H|H]; [auto|discriminate]|auto].
    + intros x g H. apply in_snoc in H. destruct H as [H|H]; [eauto|discriminate].
    + congruence.
Qed.

End Sys.
