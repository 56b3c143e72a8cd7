(** Invariant of the transaction manager. *)
From Verif Require Import Base UleModel MgrModel MgrSpec.
From Coq Require Import Sorting.Sorted.
Open Scope N_scope.
Global Arguments TXNID_MAX : simpl never.

(** ** Lists *)

Lemma in_live_list_iff l x : in_live_list l x = true <-> In x l.
Proof.
  unfold in_live_list. rewrite existsb_exists. split.
  - intros (y & H & E). apply N.eqb_eq in E. subst. auto.
  - intros H. exists x. rewrite N.eqb_refl. auto.
Qed.

Lemma in_live_list_false l x : in_live_list l x = false <-> ~ In x l.
Proof. rewrite <- in_live_list_iff. destruct (in_live_list l x); split; congruence. Qed.

Lemma in_without x y l : In y (without x l) <-> In y l /\ y <> x.
Proof.
  unfold without. rewrite filter_In. destruct (N.eqb_spec y x); cbn; split; intros [? ?]; split;
    auto; congruence.
Qed.

Lemma without_notin x l : ~ In x l -> without x l = l.
Proof.
  induction l as [|y l IH]; intros H; cbn; auto.
  destruct (N.eqb_spec y x); cbn.
  - subst. exfalso. apply H. left. auto.
  - f_equal. apply IH. intros ?. apply H. right. auto.
Qed.

Definition sorted := StronglySorted N.lt.

Lemma sorted_filter {A} (R : A -> A -> Prop) f l : StronglySorted R l -> StronglySorted R (filter f l).
Proof.
  induction 1 as [|a l H IH F]; cbn; [constructor|].
  destruct (f a); auto. constructor; auto.
  rewrite Forall_forall in *. intros y Hy. apply filter_In in Hy. apply F. tauto.
Qed.

Lemma sorted_app_one {A} (R : A -> A -> Prop) l x : StronglySorted R l ->
  (forall y, In y l -> R y x) -> StronglySorted R (l ++ [x]).
Proof.
  induction 1 as [|a l H IH F]; intros Hx; cbn.
  - repeat constructor.
  - constructor.
    + apply IH. intros; apply Hx; right; auto.
    + rewrite Forall_forall in *. intros y Hy. apply in_app_or in Hy.
      destruct Hy as [Hy|[<-|[]]]; auto. apply Hx. left; auto.
Qed.

Lemma sorted_nodup l : sorted l -> NoDup l.
Proof.
  induction 1 as [|a l H IH F]; constructor; auto.
  rewrite Forall_forall in F. intros Hi. apply F in Hi. lia.
Qed.

Lemma remove_live_ok x l : NoDup l -> In x l -> remove_live x l = Some (without x l).
Proof.
  induction l as [|y l IH]; intros N H; [destruct H|].
  inversion N; subst. cbn. destruct (N.eqb_spec y x) as [->|Hn]; cbn.
  - fold (without x l). rewrite without_notin; auto.
  - fold (without x l). destruct H as [->|H]; [congruence|]. rewrite IH; auto.
Qed.

Definition snap_lt (a b : snap) : Prop := s_id a < s_id b.

Lemma count_younger_ok x l : StronglySorted snap_lt l ->
  count_younger x (rev l) = N.of_nat (length (filter (fun n => x <? s_id n) l)).
Proof.
  intros H. induction l as [|a l IH] using rev_ind; [reflexivity|].
  rewrite rev_app_distr, filter_app, app_length. cbn [rev app count_younger filter].
  assert (H' : StronglySorted snap_lt l).
  { clear IH. induction l; cbn in *; [constructor|]. inversion H; subst. constructor; auto.
    rewrite Forall_forall in *. intros; apply H3. apply in_or_app; auto. }
  assert (Hl : forall y, In y l -> s_id y < s_id a).
  { clear -H. induction l; cbn in *; [tauto|]. inversion H; subst.
    intros y [<-|Hy]; auto. rewrite Forall_forall in H3. apply (H3 a). apply in_or_app. right; left; auto. }
  destruct (N.ltb_spec x (s_id a)); cbn [length].
  - rewrite IH by auto. lia.
  - replace (filter _ l) with (@nil snap); [reflexivity|].
    symmetry. clear -H0 Hl. induction l as [|b l IH]; cbn; auto.
    destruct (N.ltb_spec x (s_id b)).
    + specialize (Hl b (or_introl eq_refl)). lia.
    + apply IH. intros; apply Hl; right; auto.
Qed.

Lemma filter_ext_in' {A} (f g : A -> bool) l : (forall x, In x l -> f x = g x) -> filter f l = filter g l.
Proof. intros. apply filter_ext_in. auto. Qed.

(** ** The two ways of dropping references *)

Definition dec1 (live : list txnid) (t : rxt) : rxt :=
  if in_live_list live (rx_begin t) then mkRxt (rx_begin t) (rx_end t) (rx_refs t - 1) else t.

Definition dec_spec (live : list txnid) (ref : list rxt) : list rxt :=
  filter (fun t => negb (rx_refs t =? 0)) (map (dec1 live) ref).

Lemma dec_spec_step live t ref : dec_spec live (t :: ref) =
  if rx_refs (dec1 live t) =? 0 then dec_spec live ref else dec1 live t :: dec_spec live ref.
Proof. unfold dec_spec. cbn. destruct (_ =? 0); reflexivity. Qed.

Lemma dec1_in live t : in_live_list live (rx_begin t) = true ->
  dec1 live t = mkRxt (rx_begin t) (rx_end t) (rx_refs t - 1).
Proof. unfold dec1. intros ->. auto. Qed.
Lemma dec1_out live t : in_live_list live (rx_begin t) = false -> dec1 live t = t.
Proof. unfold dec1. intros ->. auto. Qed.

Lemma by_live_list_ok live ref : Forall (fun t => 0 < rx_refs t) ref ->
  note_end_by_live_list live ref = Some (dec_spec live ref).
Proof.
  induction 1 as [|t ref Ht F IH]; [reflexivity|]. rewrite dec_spec_step.
  cbn [note_end_by_live_list]. destruct (in_live_list live (rx_begin t)) eqn:E.
  - rewrite dec1_in, IH by auto. cbn [rx_refs].
    destruct (N.ltb_spec 0 (rx_refs t)); [|lia].
    destruct (rx_refs t - 1 =? 0) eqn:Ez; auto.
  - rewrite dec1_out, IH by auto. destruct (N.eqb_spec (rx_refs t) 0); [lia|]. reflexivity.
Qed.

Definition rxt_lt (a b : rxt) : Prop := rx_begin a < rx_begin b.

Lemma dec_spec_none live ref : Forall (fun t => 0 < rx_refs t) ref ->
  (forall t, In t ref -> ~ In (rx_begin t) live) -> dec_spec live ref = ref.
Proof.
  induction 1 as [|t ref Ht F IH]; intros Hn; [reflexivity|]. rewrite dec_spec_step.
  rewrite dec1_out.
  - destruct (N.eqb_spec (rx_refs t) 0); [lia|]. f_equal. apply IH. intros; apply Hn. right; auto.
  - apply in_live_list_false. apply Hn. left; auto.
Qed.

Lemma dec_ref_ok x ref : Forall (fun t => 0 < rx_refs t) ref -> StronglySorted rxt_lt ref ->
  dec_ref x ref = Some (dec_spec [x] ref).
Proof.
  induction ref as [|t ref IH]; intros F S; [reflexivity|].
  inversion F; subst. inversion S; subst. rewrite dec_spec_step. cbn [dec_ref].
  destruct (N.eqb_spec (rx_begin t) x) as [E|E].
  - destruct (N.ltb_spec 0 (rx_refs t)); [|lia].
    rewrite dec1_in by (apply in_live_list_iff; left; auto).
    rewrite dec_spec_none; auto.
    + cbn [rx_refs]. destruct (rx_refs t - 1 =? 0); reflexivity.
    + intros u Hu [Hx|[]]. rewrite Forall_forall in H4. specialize (H4 u Hu). unfold rxt_lt in H4. lia.
  - rewrite dec1_out by (apply in_live_list_false; intros [?|[]]; congruence).
    rewrite IH by auto. destruct (N.eqb_spec (rx_refs t) 0); [lia|]. reflexivity.
Qed.

Lemma dec_spec_pos live ref : Forall (fun t => 0 < rx_refs t) (dec_spec live ref).
Proof.
  apply Forall_forall. intros t H. apply filter_In in H.
  destruct H as [_ H]. destruct (N.eqb_spec (rx_refs t) 0); cbn in H; [discriminate|lia].
Qed.

Lemma dec1_begin live t : rx_begin (dec1 live t) = rx_begin t.
Proof. unfold dec1. destruct (in_live_list _ _); auto. Qed.
Lemma dec1_end live t : rx_end (dec1 live t) = rx_end t.
Proof. unfold dec1. destruct (in_live_list _ _); auto. Qed.

Lemma dec_spec_sorted live ref : StronglySorted rxt_lt ref -> StronglySorted rxt_lt (dec_spec live ref).
Proof.
  intros S. apply sorted_filter. induction S as [|a l H IH F]; cbn; constructor; auto.
  rewrite Forall_forall in *. intros y Hy. apply in_map_iff in Hy. destruct Hy as (z & <- & Hz).
  unfold rxt_lt. rewrite !dec1_begin. apply F; auto.
Qed.

Lemma dec_spec_cons x live ref : ~ In x live -> Forall (fun t => 0 < rx_refs t) ref ->
  dec_spec live (dec_spec [x] ref) = dec_spec (x :: live) ref.
Proof.
  intros Hx F. induction F as [|t ref Ht F IH]; [reflexivity|].
  rewrite !dec_spec_step.
  destruct (N.eqb_spec (rx_begin t) x) as [E|E].
  - rewrite (dec1_in [x]) by (apply in_live_list_iff; left; auto).
    rewrite (dec1_in (x :: live)) by (apply in_live_list_iff; left; auto). cbn [rx_refs].
    destruct (rx_refs t - 1 =? 0) eqn:Ez; auto.
    rewrite dec_spec_step, dec1_out.
    + cbn [rx_refs]. rewrite Ez, IH. reflexivity.
    + apply in_live_list_false. cbn. rewrite E. auto.
  - rewrite (dec1_out [x]) by (apply in_live_list_false; intros [?|[]]; congruence).
    destruct (N.eqb_spec (rx_refs t) 0); [lia|].
    rewrite dec_spec_step, IH.
    replace (dec1 (x :: live) t) with (dec1 live t); auto.
    unfold dec1. cbn. destruct (N.eqb_spec (rx_begin t) x); [congruence|]. reflexivity.
Qed.

Lemma dec_spec_nil ref : Forall (fun t => 0 < rx_refs t) ref -> dec_spec [] ref = ref.
Proof. intros F. apply dec_spec_none; auto. Qed.

Lemma by_ref_xids_ok live : NoDup live -> forall ref,
  Forall (fun t => 0 < rx_refs t) ref -> StronglySorted rxt_lt ref ->
  note_end_by_ref_xids live ref = Some (dec_spec live ref).
Proof.
  induction 1 as [|x live Hx N IH]; intros ref F S; cbn [note_end_by_ref_xids].
  - rewrite dec_spec_nil; auto.
  - rewrite dec_ref_ok; auto. rewrite IH; auto using dec_spec_pos, dec_spec_sorted.
    f_equal. apply dec_spec_cons; auto.
Qed.

Lemma remove_snapshot_ok m s : NoDup (s_live s) ->
  Forall (fun t => 0 < rx_refs t) (m_ref m) -> StronglySorted rxt_lt (m_ref m) ->
  remove_snapshot m s =
    Some (mkMgr (m_last m) (m_live m)
            (filter (fun s' => negb (s_id s' =? s_id s)) (m_snaps m))
            (dec_spec (s_live s) (m_ref m)) (m_oldest m)).
Proof.
  intros N F S. unfold remove_snapshot.
  rewrite by_live_list_ok, by_ref_xids_ok by auto.
  destruct (m_ref m) as [|t ref] eqn:E1.
  { cbn. reflexivity. }
  destruct (s_live s) as [|x l] eqn:E2.
  { rewrite dec_spec_nil by auto. rewrite andb_false_r. reflexivity. }
  destruct ((0 <? _) && (0 <? _)) eqn:E3.
  - match goal with |- context[if ?b then _ else _] => destruct b end; reflexivity.
  - cbn [length] in E3. lia.
Qed.

(** ** Sorted insertion *)

Lemma insert_ref_ok t ref : StronglySorted rxt_lt ref ->
  (forall u, In u ref -> rx_begin u <> rx_begin t) ->
  exists ref', insert_ref t ref = Some ref' /\ StronglySorted rxt_lt ref'
    /\ forall u, In u ref' <-> u = t \/ In u ref.
Proof.
  induction ref as [|a ref IH]; intros S Hn; cbn [insert_ref].
  - exists [t]. repeat split; [repeat constructor|..]; cbn; intuition.
  - inversion S; subst. destruct (N.eqb_spec (rx_begin a) (rx_begin t)) as [E|E].
    { exfalso. eapply Hn; [left; reflexivity|auto]. }
    destruct (N.ltb_spec (rx_begin t) (rx_begin a)).
    + exists (t :: a :: ref). split; [reflexivity|]. split.
      * constructor; auto. constructor; [exact H|].
        rewrite Forall_forall in *. intros u Hu. specialize (H2 u Hu). unfold rxt_lt in *. lia.
      * cbn. intuition.
    + destruct IH as (ref' & E' & S' & I'); auto.
      { intros u Hu. apply Hn. right; auto. }
      rewrite E'. exists (a :: ref'). split; [reflexivity|]. split.
      * constructor; auto. rewrite Forall_forall in *. intros u Hu. apply I' in Hu.
        destruct Hu as [->|Hu]; auto. unfold rxt_lt. lia.
      * intros u. cbn. rewrite I'. intuition.
Qed.

(** ** The invariant *)

Definition in_ids x h := In x (ids_of h).

Record cinv (m : mgr) (h : list event) : Prop := {
  c_live : m_live m = live_of h;
  c_snaps : m_snaps m = snaps_of h;
  c_ids : StronglySorted (fun a b => b < a) (ids_of h);
  c_last : forall x, In x (ids_of h) -> x <= m_last m;
  c_pos : forall x, In x (ids_of h) -> 0 < x;
  c_fin : forall x, finished h x -> exists ro, In (EBegin x ro) h;
  c_wrote : forall x, wrote h x -> begun h x;
  c_live_iff : forall x, In x (live_of h) <-> begun h x /\ ~ finished h x;
  c_live_sorted : sorted (live_of h);
  c_snap_sorted : StronglySorted snap_lt (snaps_of h);
  c_snap_id : forall s, In s (snaps_of h) -> In (s_id s) (ids_of h);
  c_slive_sorted : forall s, In s (snaps_of h) -> sorted (s_live s);
  c_slive : forall s x, In s (snaps_of h) -> begun h x -> ~ finished h x ->
      x < s_id s -> In x (s_live s);
  c_slive2 : forall s x, In s (snaps_of h) -> In x (s_live s) -> begun h x /\ x < s_id s;
  c_ref_sorted : StronglySorted rxt_lt (m_ref m);
  c_ref : forall t, In t (m_ref m) ->
      finished h (rx_begin t) /\ wrote h (rx_begin t) /\ rx_end t <= m_last m
      /\ (forall s, In s (snaps_of h) ->
            (In (rx_begin t) (s_live s) <-> rx_begin t < s_id s < rx_end t))
      /\ rx_refs t = N.of_nat (length (blocked_by h (rx_begin t)))
      /\ 0 < rx_refs t;
  c_ref_complete : forall x, finished h x -> wrote h x -> blocked_by h x <> [] ->
      exists t, In t (m_ref m) /\ rx_begin t = x;
  c_oldest : forall x, begun h x -> x < m_oldest m ->
      finished h x /\ (wrote h x -> forall s, In s (snaps_of h) -> x < s_id s /\ ~ In x (s_live s));
  c_oldest_last : m_oldest m <= m_last m;
  c_split : forall s, In s (snaps_of h) -> exists h1 h2, h = h1 ++ ESnap (s_id s) :: h2
      /\ s_live s = live_of h2
      /\ (forall x, In x (live_of h2) <-> begun h2 x /\ ~ finished h2 x)
      /\ (forall x, finished h2 x -> exists ro, In (EBegin x ro) h2)
}.

Lemma begin_in_ids h x ro : In (EBegin x ro) h -> In x (ids_of h).
Proof.
  induction h as [|e h IH]; intros H; [destruct H|].
  destruct H as [->|H]; [left; reflexivity|]. destruct e; cbn; auto; right; auto.
Qed.

Lemma begin_ro_unique m h x : cinv m h -> In (EBegin x true) h -> In (EBegin x false) h -> False.
Proof.
  intros C. pose proof (c_ids _ _ C) as S. clear C m. induction h as [|e h IH]; intros H1 H2; [destruct H1|].
  destruct H1 as [->|H1]; destruct H2 as [E|H2]; try discriminate.
  - apply begin_in_ids in H2. cbn in S. inversion S; subst. rewrite Forall_forall in H3.
    apply H3 in H2. lia.
  - subst. apply begin_in_ids in H1. cbn in S. inversion S; subst. rewrite Forall_forall in H3.
    apply H3 in H1. lia.
  - apply IH; auto. destruct e; cbn in S; auto; inversion S; auto.
Qed.

Lemma cinv_begun_le m h x : cinv m h -> begun h x -> x <= m_last m.
Proof. intros C H. eapply c_last; eauto. eapply begin_in_ids; eauto. Qed.

Definition event_eq_dec : forall a b : event, {a = b} + {a <> b}.
Proof. repeat decide equality. Defined.

Lemma finished_dec h x : finished h x \/ ~ finished h x.
Proof. unfold finished. destruct (in_dec event_eq_dec (EFinish x) h); auto. Qed.

Lemma blocked_in h x s : In s (blocked_by h x) <-> In s (snaps_of h) /\ In x (s_live s).
Proof. unfold blocked_by. rewrite filter_In, in_live_list_iff. tauto. Qed.

Lemma cinv_init last : cinv (mgr_init last) [].
Proof.
  constructor; cbn; try tauto; try constructor; try (intros; exfalso; tauto); try lia.
  unfold TXNID_NONE. lia.
Qed.

(** *** One event at a time *)

Lemma cinv_last m m' h : cinv m h -> m_last m <= m_last m' -> m_live m' = m_live m ->
  m_snaps m' = m_snaps m -> m_ref m' = m_ref m -> m_oldest m' = m_oldest m -> cinv m' h.
Proof.
  intros C L E1 E2 E3 E4. destruct C. constructor; rewrite ?E1, ?E2, ?E3, ?E4; auto.
  - intros x Hx. apply c_last0 in Hx. lia.
  - intros t Ht. destruct (c_ref0 t Ht) as (A & B & D & F & G). repeat split; auto; try tauto; try lia;
      apply F; auto.
  - lia.
Qed.

Lemma split_cons m h e s : cinv m h -> In s (snaps_of h) -> exists h1 h2, e :: h = h1 ++ ESnap (s_id s) :: h2
      /\ s_live s = live_of h2
      /\ (forall x, In x (live_of h2) <-> begun h2 x /\ ~ finished h2 x)
      /\ (forall x, finished h2 x -> exists ro, In (EBegin x ro) h2).
Proof.
  intros C Hs. destruct (c_split _ _ C s Hs) as (h1 & h2 & -> & H). exists (e :: h1), h2. auto.
Qed.

Lemma cinv_next m h m' x : cinv m h -> next_xid m = Some (x, m') ->
  x = m_last m + 1 /\ cinv m' h /\ m_last m' = x /\ m_live m' = m_live m /\ m_snaps m' = m_snaps m
  /\ m_ref m' = m_ref m /\ m_oldest m' = m_oldest m.
Proof.
  intros C H. unfold next_xid in H. destruct (_ <? _) eqn:E; [|discriminate].
  injection H as <- <-. cbn. split; [auto|]. split; [|auto 10].
  eapply cinv_last; eauto. cbn. lia.
Qed.

(** [ge m h x]: x is a new id, larger than any in use, and already counted. *)
Lemma cinv_snap m h s m' : cinv m h -> create_snapshot m = Some (s, m') ->
  cinv m' (ESnap (s_id s) :: h) /\ s = mkSnap (m_last m + 1) (live_of h).
Proof.
  intros C H. unfold create_snapshot in H.
  destruct (next_xid m) as [[id m1]|] eqn:E; [|discriminate].
  injection H as <- <-. destruct (cinv_next _ _ _ _ C E) as (-> & C1 & L1 & Li & Sn & Rf & Ol).
  rewrite Li, (c_live _ _ C). split; [|reflexivity].
  pose proof (c_last _ _ C) as HL.
  cbn [s_id s_live].
  set (s0 := mkSnap (m_last m + 1) (live_of h)).
  assert (Hin : forall n, In n (snaps_of h ++ [s0]) <-> In n (snaps_of h) \/ n = s0).
  { intros n. rewrite in_app_iff. cbn. intuition. }
  assert (Hb : forall x, blocked_by (ESnap (m_last m + 1) :: h) x =
     blocked_by h x ++ (if in_live_list (live_of h) x then [s0] else [])).
  { intros x. unfold blocked_by. cbn [snaps_of]. rewrite filter_app. reflexivity. }
  assert (Hs : forall n, In n (snaps_of h) -> s_id n <= m_last m).
  { intros n Hn. apply HL. apply (c_snap_id _ _ C n Hn). }
  assert (Hfin : forall x, finished (ESnap (m_last m + 1) :: h) x <-> finished h x).
  { intros x. unfold finished. cbn. intuition discriminate. }
  assert (Hbeg : forall x, begun (ESnap (m_last m + 1) :: h) x <-> begun h x).
  { intros x. unfold begun. cbn. intuition discriminate. }
  assert (Hwr : forall x, wrote (ESnap (m_last m + 1) :: h) x <-> wrote h x).
  { intros x. unfold wrote. cbn. intuition discriminate. }
  constructor; cbn [m_live m_snaps m_last m_ref m_oldest snaps_of live_of ids_of].
  - reflexivity.
  - rewrite Sn, (c_snaps _ _ C). reflexivity.
  - constructor; [apply C|]. apply Forall_forall. intros y Hy. apply HL in Hy. lia.
  - intros x [<-|Hx]; [lia|]. apply HL in Hx. lia.
  - intros x [<-|Hx]; [lia|]. eapply c_pos; eauto.
  - intros x Hx. apply Hfin in Hx. destruct (c_fin _ _ C x Hx) as [ro Hr]. exists ro. right; auto.
  - intros x Hx. apply Hbeg. apply Hwr in Hx. eapply c_wrote; eauto.
  - intros x. rewrite Hbeg, Hfin. apply (c_live_iff _ _ C).
  - apply C.
  - apply sorted_app_one; [apply C|]. intros y Hy. apply Hs in Hy. unfold snap_lt. cbn. lia.
  - intros n Hn. apply Hin in Hn. destruct Hn as [Hn| ->]; [right; eapply c_snap_id; eauto|left; auto].
  - intros n Hn. apply Hin in Hn. destruct Hn as [Hn| ->]; [eapply c_slive_sorted; eauto|apply C].
  - intros n x Hn Hx1 Hx2 Hlt. rewrite Hbeg in Hx1. rewrite Hfin in Hx2. apply Hin in Hn.
    destruct Hn as [Hn| ->]; [eapply c_slive; eauto|]. apply (c_live_iff _ _ C). auto.
  - intros n x Hn Hx. rewrite Hbeg. apply Hin in Hn. destruct Hn as [Hn| ->]; [eapply c_slive2; eauto|].
    cbn in *. apply (c_live_iff _ _ C) in Hx. split; [tauto|].
    destruct Hx as [Hx _]. apply (cinv_begun_le _ _ _ C) in Hx. lia.
  - rewrite Rf. apply C.
  - rewrite Rf. intros t Ht. destruct (c_ref _ _ C t Ht) as (A & B & D & F & G & K).
    rewrite Hfin, Hwr. split; [auto|]. split; [auto|]. split; [lia|]. split; [|split; [|auto]].
    + intros n Hn. apply Hin in Hn. destruct Hn as [Hn| ->]; [apply F; auto|].
      cbn. split; [|lia]. intros Hl. apply (c_live_iff _ _ C) in Hl. tauto.
    + rewrite Hb. destruct (in_live_list (live_of h) (rx_begin t)) eqn:Ei.
      * apply in_live_list_iff in Ei. apply (c_live_iff _ _ C) in Ei. tauto.
      * rewrite app_nil_r. auto.
  - rewrite Rf. intros x Hx1 Hx2. rewrite Hb. rewrite Hfin in Hx1. rewrite Hwr in Hx2.
    destruct (in_live_list (live_of h) x) eqn:Ei.
    + apply in_live_list_iff in Ei. apply (c_live_iff _ _ C) in Ei. tauto.
    + rewrite app_nil_r. intros Hne. eapply c_ref_complete; eauto.
  - rewrite Ol. intros x Hx Hlt. rewrite Hbeg in Hx. rewrite Hfin.
    destruct (c_oldest _ _ C x Hx Hlt) as [A B]. split; auto.
    intros Hw n Hn. apply Hwr in Hw. apply Hin in Hn. destruct Hn as [Hn| ->]; auto. cbn. split.
    + apply (cinv_begun_le _ _ _ C) in Hx. lia.
    + intros Hl. apply (c_live_iff _ _ C) in Hl. tauto.
  - rewrite Ol. pose proof (c_oldest_last _ _ C). lia.
  - intros n Hn. apply Hin in Hn. destruct Hn as [Hn| ->]; [eapply split_cons; eauto|].
    exists [], h. split; [reflexivity|]. split; [reflexivity|].
    split; [apply (c_live_iff _ _ C)|apply (c_fin _ _ C)].
Qed.

Lemma cinv_snapend m h s : cinv m h -> In s (snaps_of h) ->
  exists m', remove_snapshot m s = Some m' /\ cinv m' (ESnapEnd (s_id s) :: h)
    /\ m_last m' = m_last m /\ m_live m' = m_live m.
Proof.
  intros C Hs.
  assert (Fp : Forall (fun t => 0 < rx_refs t) (m_ref m)).
  { apply Forall_forall. intros t Ht. apply (c_ref _ _ C t Ht). }
  rewrite remove_snapshot_ok; auto; [|apply sorted_nodup; apply (c_slive_sorted _ _ C); auto|apply C].
  eexists. split; [reflexivity|]. split; [|auto].
  assert (Huniq : forall n, In n (snaps_of h) -> s_id n = s_id s -> n = s).
  { intros n Hn E. pose proof (c_snap_sorted _ _ C) as S. clear -S Hs Hn E.
    induction S as [|a l S IH F]; [destruct Hn|]. rewrite Forall_forall in F.
    destruct Hn as [->|Hn]; destruct Hs as [->|Hs]; auto.
    - apply F in Hs. unfold snap_lt in Hs. lia.
    - apply F in Hn. unfold snap_lt in Hn. lia. }
  assert (Hin : forall n, In n (filter (fun n => negb (s_id n =? s_id s)) (snaps_of h)) <->
     In n (snaps_of h) /\ n <> s).
  { intros n. rewrite filter_In. destruct (N.eqb_spec (s_id n) (s_id s)); cbn.
    - split; [intros [_ Hf]; discriminate|]. intros [Hn Hne]. exfalso. apply Hne. auto.
    - split; intros [Hn Hne]; split; auto; congruence. }
  assert (Hb : forall x, blocked_by (ESnapEnd (s_id s) :: h) x =
     filter (fun n => negb (s_id n =? s_id s)) (blocked_by h x)).
  { intros x. unfold blocked_by. cbn [snaps_of]. clear. induction (snaps_of h) as [|a l IH]; auto.
    cbn. destruct (negb (s_id a =? s_id s)) eqn:E1; destruct (in_live_list (s_live a) x) eqn:E2;
      cbn; rewrite ?E1, ?E2, IH; reflexivity. }
  assert (Hlen : forall x, N.of_nat (length (blocked_by h x)) =
     N.of_nat (length (blocked_by (ESnapEnd (s_id s) :: h) x))
     + if in_live_list (s_live s) x then 1 else 0).
  { intros x. rewrite Hb. unfold blocked_by.
    pose proof (c_snap_sorted _ _ C) as S. clear -S Hs Huniq.
    revert Hs Huniq. induction S as [|a l S IH F]; intros Hs Huniq; [destruct Hs|].
    rewrite Forall_forall in F. destruct Hs as [->|Hs].
    - assert (Hl : filter (fun n => negb (s_id n =? s_id s))
               (filter (fun n => in_live_list (s_live n) x) l) =
               filter (fun n => in_live_list (s_live n) x) l).
      { clear -F. induction l as [|b l IH]; auto. cbn.
        destruct (in_live_list (s_live b) x); cbn.
        - pose proof (F b (or_introl eq_refl)) as Hb. unfold snap_lt in Hb.
          destruct (N.eqb_spec (s_id b) (s_id s)); [lia|]. cbn. f_equal. apply IH.
          intros; apply F; right; auto.
        - apply IH. intros; apply F; right; auto. }
      cbn. destruct (in_live_list (s_live s) x); cbn [filter].
      + rewrite N.eqb_refl. cbn. rewrite Hl. lia.
      + rewrite Hl. lia.
    - pose proof (F s Hs) as Ha. unfold snap_lt in Ha.
      assert (Hu : forall n, In n l -> s_id n = s_id s -> n = s).
      { intros; apply Huniq; auto. right; auto. }
      specialize (IH Hs Hu). cbn. destruct (in_live_list (s_live a) x); cbn [filter]; auto.
      destruct (N.eqb_spec (s_id a) (s_id s)); [lia|]. cbn [negb length]. lia. }
  assert (Hfin : forall x, finished (ESnapEnd (s_id s) :: h) x <-> finished h x).
  { intros x. unfold finished. cbn. intuition discriminate. }
  assert (Hbeg : forall x, begun (ESnapEnd (s_id s) :: h) x <-> begun h x).
  { intros x. unfold begun. cbn. intuition discriminate. }
  assert (Hwr : forall x, wrote (ESnapEnd (s_id s) :: h) x <-> wrote h x).
  { intros x. unfold wrote. cbn. intuition discriminate. }
  assert (Hd : forall t', In t' (dec_spec (s_live s) (m_ref m)) <->
     exists t, In t (m_ref m) /\ t' = dec1 (s_live s) t /\ rx_refs t' <> 0).
  { intros t'. unfold dec_spec. rewrite filter_In, in_map_iff. split.
    - intros [(t & E & Ht) Hz]. exists t. repeat split; auto.
      destruct (N.eqb_spec (rx_refs t') 0); [discriminate|auto].
    - intros (t & Ht & E & Hz). split; [exists t; auto|].
      destruct (N.eqb_spec (rx_refs t') 0); [congruence|reflexivity]. }
  assert (Href : forall t, In t (m_ref m) ->
     rx_refs (dec1 (s_live s) t) = N.of_nat (length (blocked_by (ESnapEnd (s_id s) :: h) (rx_begin t)))).
  { intros t Ht. destruct (c_ref _ _ C t Ht) as (_ & _ & _ & _ & G & K).
    specialize (Hlen (rx_begin t)). unfold dec1.
    destruct (in_live_list (s_live s) (rx_begin t)); cbn [rx_refs]; lia. }
  constructor; cbn [m_live m_snaps m_last m_ref m_oldest snaps_of live_of ids_of].
  - apply C.
  - rewrite (c_snaps _ _ C). reflexivity.
  - apply C.
  - apply C.
  - apply C.
  - intros x Hx. apply Hfin in Hx. destruct (c_fin _ _ C x Hx) as [ro Hr]. exists ro. right; auto.
  - intros x Hx. apply Hbeg. apply Hwr in Hx. eapply c_wrote; eauto.
  - intros x. rewrite Hbeg, Hfin. apply (c_live_iff _ _ C).
  - apply C.
  - apply sorted_filter. apply C.
  - intros n Hn. apply Hin in Hn. eapply c_snap_id; eauto. tauto.
  - intros n Hn. apply Hin in Hn. eapply c_slive_sorted; eauto. tauto.
  - intros n x Hn Hx1 Hx2 Hlt. rewrite Hbeg in Hx1. rewrite Hfin in Hx2. apply Hin in Hn.
    eapply c_slive; eauto. tauto.
  - intros n x Hn Hx. rewrite Hbeg. apply Hin in Hn. eapply c_slive2; eauto. tauto.
  - apply dec_spec_sorted. apply C.
  - intros t' Ht'. apply Hd in Ht'. destruct Ht' as (t & Ht & E & Hz).
    destruct (c_ref _ _ C t Ht) as (A & B & D & F & G & K).
    assert (Eb : rx_begin t' = rx_begin t) by (subst; apply dec1_begin).
    assert (Ee : rx_end t' = rx_end t) by (subst; apply dec1_end).
    rewrite Eb, Ee, Hfin, Hwr. repeat split; auto; try lia.
    + apply Hin in H. apply F; tauto.
    + apply Hin in H. apply F; tauto.
    + apply Hin in H. apply F; tauto.
    + rewrite E. apply Href; auto.
  - intros x Hx1 Hx2 Hne. rewrite Hfin in Hx1. rewrite Hwr in Hx2.
    destruct (c_ref_complete _ _ C x Hx1 Hx2) as (t & Ht & E).
    { intros E. rewrite Hb, E in Hne. apply Hne. reflexivity. }
    exists (dec1 (s_live s) t). rewrite dec1_begin. split; auto. apply Hd. exists t. repeat split; auto.
    rewrite Href, E by auto. intros Hl. apply Hne. destruct (blocked_by _ x); [auto|cbn in Hl; lia].
  - intros x Hx Hlt. rewrite Hbeg in Hx. rewrite Hfin.
    destruct (c_oldest _ _ C x Hx Hlt) as [A B]. split; auto.
    intros Hw n Hn. apply Hwr in Hw. apply Hin in Hn. apply B; tauto.
  - apply (c_oldest_last _ _ C).
  - intros n Hn. apply Hin in Hn. eapply split_cons; eauto. tauto.
Qed.

Lemma cinv_write m h x : cinv m h -> begun h x -> ~ finished h x -> cinv m (EWrite x :: h).
Proof.
  intros C Hb Hf.
  assert (Hfin : forall y, finished (EWrite x :: h) y <-> finished h y).
  { intros y. unfold finished. cbn. intuition discriminate. }
  assert (Hbeg : forall y, begun (EWrite x :: h) y <-> begun h y).
  { intros y. unfold begun. cbn. intuition discriminate. }
  assert (Hbl : forall y, blocked_by (EWrite x :: h) y = blocked_by h y) by reflexivity.
  constructor; cbn [snaps_of live_of ids_of]; try solve [apply C]; try apply (c_oldest_last _ _ C).
  - intros y Hy. apply Hfin in Hy. destruct (c_fin _ _ C y Hy) as [ro Hr]. exists ro. right; auto.
  - intros y [E|Hy]; apply Hbeg; [injection E as <-; auto|eapply c_wrote; eauto].
  - intros y. rewrite Hbeg, Hfin. apply (c_live_iff _ _ C).
  - intros n y Hn Hx1 Hx2. rewrite Hbeg in Hx1. rewrite Hfin in Hx2. eapply c_slive; eauto.
  - intros n y Hn Hx. rewrite Hbeg. eapply c_slive2; eauto.
  - intros t Ht. destruct (c_ref _ _ C t Ht) as (A & B & D & F & G & K).
    rewrite Hfin, Hbl. repeat split; auto; try (apply F; auto). right; auto.
  - intros y Hy1 Hy2. rewrite Hbl. rewrite Hfin in Hy1. intros Hne.
    destruct Hy2 as [E|Hy2]; [injection E as <-; tauto|]. eapply c_ref_complete; eauto.
  - intros y Hy Hlt. rewrite Hbeg in Hy. rewrite Hfin. destruct (c_oldest _ _ C y Hy Hlt) as [A B].
    split; auto. intros [E|Hw]; [injection E as <-; tauto|auto].
  - intros n Hn. eapply split_cons; eauto.
Qed.

Lemma set_oldest_ok m m' : set_oldest m = Some m' ->
  m_last m' = m_last m /\ m_live m' = m_live m /\ m_snaps m' = m_snaps m /\ m_ref m' = m_ref m
  /\ m_oldest m' <= m_last m
  /\ match m_live m with x :: _ => m_oldest m' <= x | [] => True end
  /\ match m_ref m with t :: _ => m_oldest m' <= rx_begin t | [] => True end
  /\ match m_snaps m with s :: _ => m_oldest m' <= s_id s | [] => True end.
Proof.
  unfold set_oldest. intros H. destruct (negb _); [|discriminate]. injection H as <-.
  cbn [m_last m_live m_snaps m_ref m_oldest].
  assert (Hmin : forall a b, (if a <? b then a else b) = N.min a b).
  { intros a b. destruct (N.ltb_spec a b); lia. }
  destruct (m_live m) as [|x l]; destruct (m_ref m) as [|t r]; destruct (m_snaps m) as [|s ss];
    rewrite ?Hmin; repeat split; auto; lia.
Qed.

Lemma set_oldest_some m : m_last m < TXNID_MAX -> exists m', set_oldest m = Some m'.
Proof.
  intros H. unfold set_oldest.
  match goal with |- context[if negb (?o =? _) then _ else _] => assert (Ho : o <= m_last m) end.
  { match goal with |- (if ?a <? ?b then _ else _) <= _ => destruct (N.ltb_spec a b) end; lia. }
  match goal with |- context[if negb (?o =? ?b) then _ else _] => destruct (N.eqb_spec o b) end; [lia|].
  cbn [negb]. eauto.
Qed.

(** The event of a root transaction starting. *)
Lemma cinv_begin m h x m1 m3 (ro : bool) : cinv m h -> next_xid m = Some (x, m1) ->
  set_oldest (if ro then m1 else mkMgr (m_last m1) (m_live m1 ++ [x]) (m_snaps m1) (m_ref m1) (m_oldest m1)) = Some m3 ->
  cinv m3 (EBegin x ro :: h) /\ m_last m3 = x /\ x = m_last m + 1.
Proof.
  intros C E E3. destruct (cinv_next _ _ _ _ C E) as (-> & C1 & L1 & Li & Sn & Rf & Ol).
  apply set_oldest_ok in E3.
  set (m2 := if ro then m1 else _) in E3.
  assert (F2 : m_last m2 = m_last m + 1 /\ m_snaps m2 = m_snaps m /\ m_ref m2 = m_ref m
     /\ m_live m2 = m_live m ++ (if ro then [] else [m_last m + 1])).
  { unfold m2. destruct ro; cbn; rewrite ?app_nil_r, ?Li; auto. }
  destruct F2 as (F2 & F3 & F4 & F5).
  destruct E3 as (L3 & Li3 & Sn3 & Rf3 & O1 & O2 & O3 & O4).
  clearbody m2. rewrite F2 in *. rewrite F3 in *. rewrite F4 in *. rewrite F5 in *.
  split; [|split; congruence].
  pose proof (c_last _ _ C) as HL.
  assert (Hfin : forall y, finished (EBegin (m_last m + 1) ro :: h) y <-> finished h y).
  { intros y. unfold finished. cbn. intuition discriminate. }
  assert (Hbeg : forall y, begun (EBegin (m_last m + 1) ro :: h) y <->
       begun h y \/ (ro = false /\ y = m_last m + 1)).
  { intros y. unfold begun. cbn. split.
    - intros [H|H]; auto. injection H as <- <-. auto.
    - intros [H|[-> ->]]; auto. }
  assert (Hwr : forall y, wrote (EBegin (m_last m + 1) ro :: h) y <-> wrote h y).
  { intros y. unfold wrote. cbn. intuition discriminate. }
  assert (Hsn : snaps_of (EBegin (m_last m + 1) ro :: h) = snaps_of h) by (destruct ro; reflexivity).
  assert (Hbl : forall y, blocked_by (EBegin (m_last m + 1) ro :: h) y = blocked_by h y).
  { intros y. unfold blocked_by. rewrite Hsn. auto. }
  assert (Hli : live_of (EBegin (m_last m + 1) ro :: h) = live_of h ++ (if ro then [] else [m_last m + 1])).
  { destruct ro; cbn; rewrite ?app_nil_r; auto. }
  assert (Hnf : ~ finished h (m_last m + 1)).
  { intros Hf. destruct (c_fin _ _ C _ Hf) as [r Hr]. apply begin_in_ids in Hr. apply HL in Hr. lia. }
  assert (Hsl : forall n, In n (snaps_of h) -> s_id n <= m_last m).
  { intros n Hn. apply HL. apply (c_snap_id _ _ C n Hn). }
  constructor; rewrite ?Hsn, ?Hli; cbn [ids_of].
  - rewrite Li3, (c_live _ _ C). reflexivity.
  - rewrite Sn3. apply C.
  - constructor; [apply C|]. apply Forall_forall. intros y Hy. apply HL in Hy. lia.
  - intros y [<-|Hy]; [lia|]. apply HL in Hy. lia.
  - intros y [<-|Hy]; [lia|]. eapply c_pos; eauto.
  - intros y Hy. apply Hfin in Hy. destruct (c_fin _ _ C y Hy) as [r Hr]. exists r. right; auto.
  - intros y Hy. apply Hbeg. left. apply Hwr in Hy. eapply c_wrote; eauto.
  - intros y. rewrite Hbeg, Hfin, in_app_iff, (c_live_iff _ _ C y). split.
    + intros [H|H]; [tauto|]. destruct ro; [destruct H|]. destruct H as [<-|[]]. tauto.
    + intros [[H|[-> ->]] Hnf']; [tauto|]. right; left; auto.
  - destruct ro; [rewrite app_nil_r; apply C|]. apply sorted_app_one; [apply C|].
    intros y Hy. apply (c_live_iff _ _ C) in Hy. destruct Hy as [Hy _].
    apply (cinv_begun_le _ _ _ C) in Hy. lia.
  - apply C.
  - intros n Hn. right. eapply c_snap_id; eauto.
  - apply C.
  - intros n y Hn Hx1 Hx2 Hlt. rewrite Hbeg in Hx1. rewrite Hfin in Hx2.
    destruct Hx1 as [Hx1|[-> ->]]; [eapply c_slive; eauto|]. apply Hsl in Hn. lia.
  - intros n y Hn Hx. rewrite Hbeg. destruct (c_slive2 _ _ C n y Hn Hx). auto.
  - rewrite Rf3. apply C.
  - rewrite Rf3. intros t Ht. destruct (c_ref _ _ C t Ht) as (A & B & D & F & G & K).
    rewrite Hfin, Hbl, Hwr. repeat split; auto; try (apply F; auto). lia.
  - rewrite Rf3. intros y Hy1 Hy2. rewrite Hbl. rewrite Hfin in Hy1. rewrite Hwr in Hy2.
    eapply c_ref_complete; eauto.
  - intros y Hy Hlt. rewrite Hfin. rewrite Hbeg in Hy.
    assert (Hno : ~ In y (m_live m ++ (if ro then [] else [m_last m + 1]))).
    { intros Hi. assert (sorted (m_live m ++ (if ro then [] else [m_last m + 1]))) as S.
      { rewrite (c_live _ _ C). destruct ro; [rewrite app_nil_r; apply C|].
        apply sorted_app_one; [apply C|]. intros z Hz. apply (c_live_iff _ _ C) in Hz.
        destruct Hz as [Hz _]. apply (cinv_begun_le _ _ _ C) in Hz. lia. }
      destruct (m_live m ++ _) as [|a l]; [destruct Hi|].
      inversion S; subst. rewrite Forall_forall in H2. destruct Hi as [<-|Hi]; [lia|].
      apply H2 in Hi. lia. }
    rewrite in_app_iff, (c_live _ _ C), (c_live_iff _ _ C) in Hno.
    destruct Hy as [Hy|[-> ->]]; [|exfalso; apply Hno; right; left; auto].
    assert (Hf : finished h y).
    { destruct (in_dec N.eq_dec y (live_of h)) as [Hi|Hi].
      - apply (c_live_iff _ _ C) in Hi. tauto.
      - destruct (finished_dec h y); auto. exfalso. apply Hi. apply (c_live_iff _ _ C). auto. }
    split; auto. intros Hw n Hn. apply Hwr in Hw.
    assert (Hid : y < s_id n).
    { rewrite (c_snaps _ _ C) in O4. pose proof (c_snap_sorted _ _ C) as S.
      destruct (snaps_of h) as [|a l]; [destruct Hn|]. inversion S; subst.
      rewrite Forall_forall in H2. destruct Hn as [<-|Hn]; [lia|].
      apply H2 in Hn. unfold snap_lt in Hn. lia. }
    split; auto. intros Hin.
    destruct (c_ref_complete _ _ C y Hf Hw) as (t & Ht & E').
    { intros Hbe. assert (In n (blocked_by h y)) by (apply blocked_in; auto). rewrite Hbe in H. auto. }
    pose proof (c_ref_sorted _ _ C) as S. destruct (m_ref m) as [|t0 r]; [destruct Ht|].
    inversion S; subst. rewrite Forall_forall in H2. destruct Ht as [<-|Ht]; [lia|].
    apply H2 in Ht. unfold rxt_lt in Ht. lia.
  - rewrite L3. lia.
  - intros n Hn. eapply split_cons; eauto.
Qed.

Lemma cinv_fin m m1 h x (wr : bool) : cinv m h -> begun h x -> ~ finished h x -> (wr = true <-> wrote h x) ->
  m1 = mkMgr (m_last m) (without x (m_live m)) (m_snaps m) (m_ref m) (m_oldest m) ->
  (m_last m + 1 < TXNID_MAX) ->
  exists m', (if wr then
      let refs := count_younger x (rev (m_snaps m1)) in
      if 0 <? refs then
        do (e, m3) <- next_xid m1;
        do ref <- insert_ref (mkRxt x e refs) (m_ref m3);
        Some (mkMgr (m_last m3) (m_live m3) (m_snaps m3) ref (m_oldest m3))
      else Some m1
    else Some m1) = Some m' /\ cinv m' (EFinish x :: h).
Proof.
  intros C Hb Hf Hw -> Hmax. cbn [m_snaps].
  rewrite (c_snaps _ _ C), count_younger_ok by apply C.
  assert (Hcnt : filter (fun n => x <? s_id n) (snaps_of h) = blocked_by h x).
  { unfold blocked_by. apply filter_ext_in. intros n Hn.
    destruct (N.ltb_spec x (s_id n)).
    - symmetry. apply in_live_list_iff. eapply c_slive; eauto.
    - symmetry. apply in_live_list_false. intros Hi. apply (c_slive2 _ _ C) in Hi; auto. lia. }
  rewrite Hcnt.
  assert (Hfin : forall y, finished (EFinish x :: h) y <-> y = x \/ finished h y).
  { intros y. unfold finished. cbn. split; intros [H|H]; auto; [injection H as ->|subst]; auto. }
  assert (Hbeg : forall y, begun (EFinish x :: h) y <-> begun h y).
  { intros y. unfold begun. cbn. intuition discriminate. }
  assert (Hwr : forall y, wrote (EFinish x :: h) y <-> wrote h y).
  { intros y. unfold wrote. cbn. intuition discriminate. }
  assert (Hbl : forall y, blocked_by (EFinish x :: h) y = blocked_by h y) by reflexivity.
  assert (Hsl : forall n, In n (snaps_of h) -> s_id n <= m_last m).
  { intros n Hn. apply (c_last _ _ C). apply (c_snap_id _ _ C n Hn). }
  (* everything but the referenced list *)
  assert (Hgen : forall last ref, m_last m <= last -> StronglySorted rxt_lt ref ->
     (forall t, In t ref -> In t (m_ref m) \/
        (wrote h x /\ t = mkRxt x last (N.of_nat (length (blocked_by h x))) /\ m_last m < last
         /\ blocked_by h x <> [])) ->
     (forall t, In t (m_ref m) -> In t ref) ->
     (wrote h x -> blocked_by h x <> [] -> exists t, In t ref /\ rx_begin t = x) ->
     cinv (mkMgr last (without x (m_live m)) (snaps_of h) ref (m_oldest m)) (EFinish x :: h)).
  { intros last ref Hl Sr Hr1 Hr2 Hr3.
    constructor; cbn [m_live m_snaps m_last m_ref m_oldest snaps_of live_of ids_of].
    - rewrite (c_live _ _ C). reflexivity.
    - reflexivity.
    - apply C.
    - intros y Hy. apply (c_last _ _ C) in Hy. lia.
    - apply C.
    - intros y Hy. apply Hfin in Hy. destruct Hy as [->|Hy].
      + exists false. right. auto.
      + destruct (c_fin _ _ C y Hy) as [r Hr]. exists r. right; auto.
    - intros y Hy. apply Hbeg. apply Hwr in Hy. eapply c_wrote; eauto.
    - intros y. rewrite in_without, Hbeg, Hfin, (c_live_iff _ _ C). tauto.
    - apply sorted_filter. apply C.
    - apply C.
    - apply C.
    - apply C.
    - intros n y Hn Hx1 Hx2 Hlt. rewrite Hbeg in Hx1. rewrite Hfin in Hx2. eapply c_slive; eauto.
    - intros n y Hn Hx. rewrite Hbeg. eapply c_slive2; eauto.
    - auto.
    - intros t Ht. rewrite Hfin, Hwr, Hbl. destruct (Hr1 t Ht) as [Ht'|(W & -> & Hlt & Hne)].
      + destruct (c_ref _ _ C t Ht') as (A & B & D & F & G & K).
        repeat split; auto; try (apply F; auto). lia.
      + cbn [rx_begin rx_end rx_refs]. repeat split; auto; try lia.
        * eapply (c_slive2 _ _ C); eauto.
        * apply Hsl in H. lia.
        * intros [Hlt2 _]. eapply c_slive; eauto.
        * destruct (blocked_by h x); [congruence|cbn; lia].
    - intros y Hy1 Hy2. rewrite Hfin in Hy1. rewrite Hwr in Hy2. rewrite Hbl. intros Hne.
      destruct Hy1 as [->|Hy1]; auto. destruct (c_ref_complete _ _ C y Hy1 Hy2 Hne) as (t & Ht & E).
      exists t. auto.
    - intros y Hy Hlt. rewrite Hbeg in Hy. rewrite Hfin, Hwr. destruct (c_oldest _ _ C y Hy Hlt) as [A B].
      split; auto.
    - pose proof (c_oldest_last _ _ C). lia.
    - intros n Hn. eapply split_cons; eauto. }
  destruct wr.
  - destruct (N.ltb_spec 0 (N.of_nat (length (blocked_by h x)))) as [Hp|Hp].
    + unfold next_xid. cbn [m_last m_live m_snaps m_ref m_oldest].
      destruct (N.ltb_spec (m_last m + 1) TXNID_MAX); [|lia].
      cbn [m_last m_live m_snaps m_ref m_oldest].
      set (t := mkRxt x (m_last m + 1) (N.of_nat (length (blocked_by h x)))).
      destruct (insert_ref_ok t (m_ref m)) as (ref & -> & Sr & Ir).
      { apply C. }
      { intros u Hu E. apply (c_ref _ _ C) in Hu. unfold t in E. cbn in E. rewrite E in Hu. tauto. }
      eexists. split; [reflexivity|]. cbn [m_last m_live m_snaps m_ref m_oldest].
      apply Hgen; auto; try lia.
      * intros u Hu. apply Ir in Hu. destruct Hu as [->|Hu]; auto. right. repeat split; auto; try lia.
        -- apply Hw. auto.
        -- intros E. rewrite E in Hp. cbn in Hp. lia.
      * intros u Hu. apply Ir. auto.
      * intros _ _. exists t. split; [apply Ir; auto|reflexivity].
    + eexists. split; [reflexivity|]. apply Hgen; auto; try lia; try apply (c_ref_sorted _ _ C).
      intros _ Hne. destruct (blocked_by h x); [congruence|cbn in Hp; lia].
  - eexists. split; [reflexivity|]. apply Hgen; auto; try lia; try apply (c_ref_sorted _ _ C).
    intros W. apply Hw in W. discriminate.
Qed.

Lemma cinv_fin_ro m h x : cinv m h -> In (EBegin x true) h -> cinv m (EFinish x :: h).
Proof.
  intros C Hb.
  assert (Hnb : ~ begun h x) by (intros Hb'; eapply begin_ro_unique; eauto).
  assert (Hfin : forall y, finished (EFinish x :: h) y <-> y = x \/ finished h y).
  { intros y. unfold finished. cbn. split; intros [H|H]; auto; [injection H as ->|subst]; auto. }
  assert (Hbeg : forall y, begun (EFinish x :: h) y <-> begun h y).
  { intros y. unfold begun. cbn. intuition discriminate. }
  assert (Hwr : forall y, wrote (EFinish x :: h) y <-> wrote h y).
  { intros y. unfold wrote. cbn. intuition discriminate. }
  assert (Hbl : forall y, blocked_by (EFinish x :: h) y = blocked_by h y) by reflexivity.
  assert (Hli : live_of (EFinish x :: h) = live_of h).
  { cbn. apply without_notin. rewrite (c_live_iff _ _ C). tauto. }
  constructor; rewrite ?Hli; cbn [snaps_of ids_of]; try solve [apply C]; try apply (c_oldest_last _ _ C).
  - intros y Hy. apply Hfin in Hy. destruct Hy as [->|Hy].
    + exists true. right. auto.
    + destruct (c_fin _ _ C y Hy) as [r Hr]. exists r. right; auto.
  - intros y Hy. apply Hbeg. apply Hwr in Hy. eapply c_wrote; eauto.
  - intros y. rewrite Hbeg, Hfin, (c_live_iff _ _ C). split; [|tauto].
    intros [A B]. split; auto. intros [->|D]; auto.
  - intros n y Hn Hx1 Hx2 Hlt. rewrite Hbeg in Hx1. rewrite Hfin in Hx2. eapply c_slive; eauto.
  - intros n y Hn Hx. rewrite Hbeg. eapply c_slive2; eauto.
  - intros t Ht. rewrite Hfin, Hwr, Hbl. destruct (c_ref _ _ C t Ht) as (A & B & D & F & G & K).
    repeat split; auto; try (apply F; auto).
  - intros y Hy1 Hy2. rewrite Hfin in Hy1. rewrite Hwr in Hy2. rewrite Hbl. intros Hne.
    destruct Hy1 as [->|Hy1]; [|eapply c_ref_complete; eauto].
    exfalso. apply Hnb. eapply c_wrote; eauto.
  - intros y Hy Hlt. rewrite Hbeg in Hy. rewrite Hfin, Hwr.
    destruct (c_oldest _ _ C y Hy Hlt) as [A B]. split; auto.
  - intros n Hn. eapply split_cons; eauto.
Qed.

(** ** Invariant of the whole system *)

(** The snapshots owned by open transactions. *)
Definition root_snaps (rs : list root) : list snap :=
  flat_map (fun r => match r_snap r with Some s => [s] | None => [] end) rs.
Definition owned (ms : msys) : list snap := root_snaps (ms_roots ms) ++ map snd (ms_child ms).

Record minv (ms : msys) : Prop := {
  i_c : cinv (ms_mgr ms) (ms_hist ms);
  i_max : m_last (ms_mgr ms) < TXNID_MAX;
  i_roots_nd : NoDup (map r_xid (ms_roots ms));
  i_roots : forall r, In r (ms_roots ms) ->
     In (EBegin (r_xid r) (r_ro r)) (ms_hist ms) /\ ~ finished (ms_hist ms) (r_xid r)
     /\ (r_wrote r = true <-> wrote (ms_hist ms) (r_xid r));
  i_roots_all : forall x ro, In (EBegin x ro) (ms_hist ms) -> ~ finished (ms_hist ms) x ->
     exists r, In r (ms_roots ms) /\ r_xid r = x;
  i_own : forall s, In s (owned ms) -> In s (snaps_of (ms_hist ms));
  i_own_nd : NoDup (map s_id (owned ms));
  i_rsnap : forall r s, In r (ms_roots ms) -> r_snap r = Some s -> r_xid r < s_id s;
  i_child : forall x s, In (x, s) (ms_child ms) -> x < s_id s
     /\ exists r, In r (ms_roots ms) /\ r_xid r = x
}.

Lemma find_root_some x rs r : find_root x rs = Some r -> In r rs /\ r_xid r = x.
Proof. intros H. apply find_some in H. destruct H as [H E]. apply N.eqb_eq in E. auto. Qed.

Lemma find_root_in x rs : (exists r, In r rs /\ r_xid r = x) -> find_root x rs <> None.
Proof.
  intros (r & H & E) Hn. eapply find_none in Hn; eauto. rewrite E, N.eqb_refl in Hn. discriminate.
Qed.

Lemma root_snaps_in rs s : In s (root_snaps rs) <-> exists r, In r rs /\ r_snap r = Some s.
Proof.
  unfold root_snaps. rewrite in_flat_map. split.
  - intros (r & H & E). exists r. split; auto. destruct (r_snap r); [destruct E as [->|[]]; auto|destruct E].
  - intros (r & H & E). exists r. split; auto. rewrite E. left; auto.
Qed.

Lemma minv_init last : last < TXNID_MAX -> minv (msys_init last).
Proof.
  intros H. constructor; [apply cinv_init|auto|constructor|..]; cbn; try tauto; try constructor.
Qed.

Lemma NoDup_app_one {A} (l : list A) x : NoDup l -> ~ In x l -> NoDup (l ++ [x]).
Proof.
  intros N H. apply NoDup_rev in N. rewrite <- (rev_involutive (l ++ [x])). apply NoDup_rev.
  rewrite rev_app_distr. cbn. constructor; auto. rewrite <- in_rev. auto.
Qed.

Lemma NoDup_sublist {A B} (f : A -> B) g l : NoDup (map f l) -> NoDup (map f (filter g l)).
Proof.
  induction l as [|a l IH]; cbn; auto. intros N. inversion N; subst.
  destruct (g a); cbn; auto. constructor; auto. intros Hi. apply H1.
  apply in_map_iff in Hi. destruct Hi as (b & E & Hb). apply filter_In in Hb.
  rewrite <- E. apply in_map. tauto.
Qed.

Lemma root_snaps_app a b : root_snaps (a ++ b) = root_snaps a ++ root_snaps b.
Proof. unfold root_snaps. apply flat_map_app. Qed.

Lemma NoDup_app_inv {A} (a b : list A) : NoDup (a ++ b) ->
  NoDup a /\ NoDup b /\ forall x, In x a -> ~ In x b.
Proof.
  induction a as [|x a IH]; cbn; intros N.
  - repeat split; auto. constructor.
  - inversion N; subst. destruct (IH H2) as (A1 & A2 & A3). rewrite in_app_iff in H1. repeat split; auto.
    + constructor; tauto.
    + intros y [<-|Hy]; auto.
Qed.

Lemma NoDup_app_intro {A} (a b : list A) : NoDup a -> NoDup b ->
  (forall x, In x a -> ~ In x b) -> NoDup (a ++ b).
Proof.
  induction a as [|x a IH]; cbn; intros Na Nb H; auto. inversion Na; subst.
  constructor; auto. rewrite in_app_iff. intros [Hi|Hi]; auto. eapply H; eauto.
Qed.

(** Every id in the history is at most last. *)
Lemma minv_snap_new ms s x : cinv (ms_mgr ms) (ms_hist ms) -> s = mkSnap (m_last (ms_mgr ms) + 1) x ->
  (forall n, In n (owned ms) -> In n (snaps_of (ms_hist ms))) ->
  ~ In (s_id s) (map s_id (owned ms)).
Proof.
  intros C -> Ho Hi. apply in_map_iff in Hi. destruct Hi as (n & E & Hn).
  apply Ho in Hn. apply (c_snap_id _ _ C) in Hn. apply (c_last _ _ C) in Hn. cbn in E. lia.
Qed.

Theorem minv_step ms o : minv ms -> mop_legal ms o ->
  ids_left ms ->
  exists ms', mstep ms o = Some ms' /\ minv ms' /\ m_last (ms_mgr ms') <= m_last (ms_mgr ms) + 2.
Proof.
  intros M L Hmax. unfold ids_left in Hmax. pose proof (i_c _ M) as C.
  assert (HL : forall x ro, In (EBegin x ro) (ms_hist ms) -> x <= m_last (ms_mgr ms)).
  { intros x ro Hx. apply begin_in_ids in Hx. apply (c_last _ _ C). auto. }
  destruct o as [ro rec|x|sid|x|x]; cbn [mstep mop_legal] in *.
  - (* begin *)
    unfold start_txn. unfold next_xid at 1. destruct (N.ltb_spec (m_last (ms_mgr ms) + 1) TXNID_MAX); [|lia].
    set (m1 := mkMgr (m_last (ms_mgr ms) + 1) _ _ _ _).
    assert (E1 : next_xid (ms_mgr ms) = Some (m_last (ms_mgr ms) + 1, m1)).
    { unfold next_xid. destruct (N.ltb_spec (m_last (ms_mgr ms) + 1) TXNID_MAX); [reflexivity|lia]. }
    set (x := m_last (ms_mgr ms) + 1) in *.
    set (m2 := if ro then m1 else _).
    destruct (set_oldest_some m2) as [m3 E3].
    { unfold m2. destruct ro; exact H. }
    rewrite E3.
    destruct (cinv_begin _ _ _ _ _ ro C E1 E3) as (C3 & L3 & _).
    assert (Hnew : forall r, In r (ms_roots ms) -> r_xid r < x).
    { intros r Hr. apply (i_roots _ M) in Hr. destruct Hr as [Hr _]. apply HL in Hr. unfold x. lia. }
    assert (Hxf : ~ finished (ms_hist ms) x).
    { intros Hf. apply (c_fin _ _ C) in Hf. destruct Hf as [r Hf]. apply HL in Hf. unfold x in Hf. lia. }
    assert (Hxw : ~ wrote (ms_hist ms) x).
    { intros Hf. apply (c_wrote _ _ C) in Hf. apply HL in Hf. unfold x in Hf. lia. }
    (* the part common to both forms of begin *)
    assert (Hgen : forall m os evs,
        match os with
        | Some s => evs = [ESnap (s_id s)] /\ x < s_id s /\ In s (snaps_of (evs ++ EBegin x ro :: ms_hist ms))
                    /\ ~ In (s_id s) (map s_id (owned ms))
        | None => evs = [] end ->
        cinv m (evs ++ EBegin x ro :: ms_hist ms) -> m_last m < TXNID_MAX ->
        minv (mkMsys m (ms_roots ms ++ [mkRoot x ro os false]) (ms_child ms)
                (evs ++ EBegin x ro :: ms_hist ms))).
    { intros m os evs Hos Cm Lm.
      assert (Hev : forall e, In e (evs ++ EBegin x ro :: ms_hist ms) <->
         In e evs \/ e = EBegin x ro \/ In e (ms_hist ms)).
      { intros e. rewrite in_app_iff. cbn. intuition. }
      assert (Hevs : forall e, In e evs -> exists s, e = ESnap s).
      { intros e He. destruct os as [s|]; [destruct Hos as [-> _]|subst evs]; [|destruct He].
        destruct He as [<-|[]]. eauto. }
      assert (Hfin : forall y, finished (evs ++ EBegin x ro :: ms_hist ms) y <-> finished (ms_hist ms) y).
      { intros y. unfold finished. rewrite Hev. split; auto.
        intros [He|[He|He]]; [apply Hevs in He; destruct He; discriminate|discriminate|auto]. }
      assert (Hwr : forall y, wrote (evs ++ EBegin x ro :: ms_hist ms) y <-> wrote (ms_hist ms) y).
      { intros y. unfold wrote. rewrite Hev. split; auto.
        intros [He|[He|He]]; [apply Hevs in He; destruct He; discriminate|discriminate|auto]. }
      assert (Hown : owned (mkMsys m (ms_roots ms ++ [mkRoot x ro os false]) (ms_child ms)
                (evs ++ EBegin x ro :: ms_hist ms)) =
         root_snaps (ms_roots ms) ++ match os with Some s => [s] | None => [] end ++ map snd (ms_child ms)).
      { unfold owned. cbn [ms_roots ms_child ms_mgr ms_hist]. rewrite root_snaps_app. cbn. rewrite <- app_assoc. destruct os; reflexivity. }
      constructor; rewrite ?Hown; cbn [ms_mgr ms_roots ms_child ms_hist].
      - exact Cm.
      - exact Lm.
      - rewrite map_app. apply NoDup_app_one; [apply M|]. cbn. intros Hi. apply in_map_iff in Hi.
        destruct Hi as (r & E & Hr). apply Hnew in Hr. lia.
      - intros r Hr. rewrite Hfin, Hwr. apply in_app_or in Hr. destruct Hr as [Hr|[<-|[]]].
        + destruct (i_roots _ M r Hr) as (A & B & D). repeat split; try apply D; auto. apply Hev. auto.
        + cbn. split; [apply Hev; auto|]. split; [auto|]. split; [discriminate|tauto].
      - intros y r Hy Hnf. rewrite Hfin in Hnf. apply Hev in Hy. destruct Hy as [Hy|[Hy|Hy]].
        + apply Hevs in Hy. destruct Hy; discriminate.
        + injection Hy as -> ->. exists (mkRoot x ro os false). split; [apply in_or_app; right; left|]; auto.
        + destruct (i_roots_all _ M y r Hy Hnf) as (r' & Hr & E). exists r'. split; auto. apply in_or_app; auto.
      - intros s Hs. apply in_app_or in Hs. destruct Hs as [Hs|Hs].
        + assert (Hin : In s (snaps_of (ms_hist ms))).
          { apply (i_own _ M). unfold owned. apply in_or_app; auto. }
          destruct os as [n|]; [destruct Hos as [-> _]|subst evs]; cbn; destruct ro; cbn;
            rewrite ?in_app_iff; auto.
        + apply in_app_or in Hs. destruct Hs as [Hs|Hs].
          * destruct os as [n|]; [|destruct Hs]. destruct Hs as [<-|[]]. tauto.
          * assert (Hin : In s (snaps_of (ms_hist ms))).
            { apply (i_own _ M). unfold owned. apply in_or_app; auto. }
            destruct os as [n|]; [destruct Hos as [-> _]|subst evs]; cbn; destruct ro; cbn;
              rewrite ?in_app_iff; auto.
      - pose proof (i_own_nd _ M) as Nd. unfold owned in Nd. rewrite map_app in Nd. rewrite !map_app.
        destruct os as [s|]; [|exact Nd]. destruct Hos as (_ & _ & _ & Hni).
        unfold owned in Hni. rewrite map_app, in_app_iff in Hni.
        apply NoDup_app_inv in Nd. destruct Nd as (N1 & N2 & N3).
        apply NoDup_app_intro; auto.
        + cbn. constructor; auto.
        + intros y Hy [<-|Hy']; [tauto|]. eapply N3; eauto.
      - intros r s Hr Es. apply in_app_or in Hr. destruct Hr as [Hr|[<-|[]]].
        + eapply i_rsnap; eauto.
        + cbn in *. subst os. tauto.
      - intros y s Hy. destruct (i_child _ M y s Hy) as (A & r & Hr & E). split; auto.
        exists r. split; auto. apply in_or_app; auto. }
    destruct rec.
    + assert (Hc : exists s m4, create_snapshot m3 = Some (s, m4)).
      { unfold create_snapshot, next_xid. rewrite L3. destruct (N.ltb_spec (x + 1) TXNID_MAX); [eauto|unfold x in *; lia]. }
      destruct Hc as (s & m4 & E4). rewrite E4.
      destruct (cinv_snap _ _ _ _ C3 E4) as (C4 & Es).
      assert (L4 : m_last m4 = x + 1).
      { unfold create_snapshot, next_xid in E4. rewrite L3 in E4. destruct (_ <? _); [|discriminate].
        injection E4 as _ <-. reflexivity. }
      eexists. split; [reflexivity|]. split; [|cbn; rewrite L4; unfold x; lia].
      apply (Hgen m4 (Some s) [ESnap (s_id s)]); auto.
      * split; [auto|]. split; [rewrite Es; cbn; lia|]. split.
        -- cbn [app snaps_of]. rewrite in_app_iff. right. left. rewrite Es. reflexivity.
        -- intros Hi. apply in_map_iff in Hi. destruct Hi as (n & E & Hn). apply (i_own _ M) in Hn.
           apply (c_snap_id _ _ C) in Hn. apply (c_last _ _ C) in Hn. rewrite Es in E. cbn in E. unfold x in *. lia.
      * rewrite L4. unfold x. lia.
    + eexists. split; [reflexivity|]. split; [|cbn; rewrite L3; unfold x; lia].
      apply (Hgen m3 None []); auto. rewrite L3. auto.
  - (* child snapshot *)
    assert (Hc : exists s m4, create_snapshot (ms_mgr ms) = Some (s, m4) /\ m_last m4 = m_last (ms_mgr ms) + 1).
    { unfold create_snapshot, next_xid. destruct (N.ltb_spec (m_last (ms_mgr ms) + 1) TXNID_MAX); [|lia].
      do 2 eexists. split; reflexivity. }
    destruct Hc as (s & m4 & E4 & L4). rewrite E4.
    destruct (cinv_snap _ _ _ _ C E4) as (C4 & Es).
    eexists. split; [reflexivity|]. split; [|cbn; lia].
    destruct (find_root x (ms_roots ms)) as [r|] eqn:Ef; [|congruence].
    apply find_root_some in Ef. destruct Ef as [Hr Er].
    assert (Hfin : forall y, finished (ESnap (s_id s) :: ms_hist ms) y <-> finished (ms_hist ms) y).
    { intros y. unfold finished. cbn. intuition discriminate. }
    assert (Hwr : forall y, wrote (ESnap (s_id s) :: ms_hist ms) y <-> wrote (ms_hist ms) y).
    { intros y. unfold wrote. cbn. intuition discriminate. }
    assert (Hni : ~ In (s_id s) (map s_id (owned ms))).
    { eapply minv_snap_new; eauto. apply M. }
    constructor; cbn [ms_mgr ms_roots ms_child ms_hist].
    + exact C4.
    + lia.
    + apply M.
    + intros r' Hr'. rewrite Hfin, Hwr. destruct (i_roots _ M r' Hr') as (A & B & D).
      repeat split; try apply D; auto. right. auto.
    + intros y ro [Hy|Hy]; [discriminate|]. rewrite Hfin. eapply i_roots_all; eauto.
    + unfold owned. cbn [ms_roots ms_child ms_mgr ms_hist]. rewrite (map_app snd), app_assoc. cbn [map snd]. intros n Hn. apply in_app_or in Hn.
      destruct Hn as [Hn|[<-|[]]].
      * apply in_or_app. left. apply (i_own _ M). exact Hn.
      * apply in_or_app. right. left. cbn. rewrite Es. reflexivity.
    + unfold owned. cbn [ms_roots ms_child ms_mgr ms_hist]. rewrite (map_app snd), app_assoc, map_app. cbn [map snd]. apply NoDup_app_one.
      * apply (i_own_nd _ M).
      * exact Hni.
    + apply M.
    + intros y n Hy. apply in_app_or in Hy. destruct Hy as [Hy|[Hy|[]]]; [eapply i_child; eauto|].
      injection Hy as <- <-. split; [|eauto]. rewrite Es. cbn.
      apply (i_roots _ M) in Hr. destruct Hr as [Hr _]. apply HL in Hr. lia.
  - (* child snapshot ends *)
    destruct L as (x & n & Hn & Esid).
    destruct (find (fun p => s_id (snd p) =? sid) (ms_child ms)) as [p|] eqn:Ef.
    2:{ eapply find_none in Ef; eauto. cbn in Ef. rewrite Esid, N.eqb_refl in Ef. discriminate. }
    apply find_some in Ef. destruct Ef as [Hp Ep]. apply N.eqb_eq in Ep.
    assert (Hps : In (snd p) (snaps_of (ms_hist ms))).
    { apply (i_own _ M). apply in_or_app. right. apply in_map. auto. }
    destruct (cinv_snapend _ _ _ C Hps) as (m' & Em & Cm & Lm & Lim). rewrite Em.
    rewrite Ep in Cm. eexists. split; [reflexivity|]. split; [|cbn; lia].
    assert (Hfin : forall y, finished (ESnapEnd sid :: ms_hist ms) y <-> finished (ms_hist ms) y).
    { intros y. unfold finished. cbn. intuition discriminate. }
    assert (Hwr : forall y, wrote (ESnapEnd sid :: ms_hist ms) y <-> wrote (ms_hist ms) y).
    { intros y. unfold wrote. cbn. intuition discriminate. }
    pose proof (i_own_nd _ M) as Nd. unfold owned in Nd. rewrite map_app in Nd.
    apply NoDup_app_inv in Nd. destruct Nd as (N1 & N2 & N3).
    assert (Hkeep : forall s, In s (root_snaps (ms_roots ms)) -> s_id s <> sid).
    { intros s Hs E. apply (N3 (s_id s)); [apply in_map; auto|]. rewrite E, <- Ep.
      rewrite map_map. apply (in_map (fun q => s_id (snd q))). auto. }
    constructor; cbn [ms_mgr ms_roots ms_child ms_hist].
    + exact Cm.
    + lia.
    + apply M.
    + intros r' Hr'. rewrite Hfin, Hwr. destruct (i_roots _ M r' Hr') as (A & B & D).
      repeat split; try apply D; auto. right. auto.
    + intros y ro [Hy|Hy]; [discriminate|]. rewrite Hfin. eapply i_roots_all; eauto.
    + unfold owned. cbn [ms_roots ms_child ms_mgr ms_hist]. intros s Hs. apply filter_In. apply in_app_or in Hs. destruct Hs as [Hs|Hs].
      * split; [apply (i_own _ M); apply in_or_app; auto|].
        apply Hkeep in Hs. destruct (N.eqb_spec (s_id s) sid); [congruence|reflexivity].
      * apply in_map_iff in Hs. destruct Hs as (q & <- & Hq). apply filter_In in Hq. split; [|tauto].
        apply (i_own _ M). apply in_or_app. right. apply in_map. tauto.
    + unfold owned. cbn [ms_roots ms_child ms_mgr ms_hist]. rewrite map_app. apply NoDup_app_intro; auto.
      * rewrite map_map in *. apply NoDup_sublist. auto.
      * intros y Hy Hy'. apply (N3 y Hy). rewrite map_map in *. apply in_map_iff in Hy'.
        destruct Hy' as (q & E & Hq). apply filter_In in Hq. apply in_map_iff. exists q. tauto.
    + apply M.
    + intros y s Hy. apply filter_In in Hy. eapply i_child; eauto. tauto.
  - (* write *)
    destruct L as (r & Ef & Hro). apply find_root_some in Ef. destruct Ef as [Hr Er].
    destruct (i_roots _ M r Hr) as (Ab & Bf & _). rewrite Er, Hro in *.
    eexists. split; [reflexivity|]. split; [|cbn; lia].
    assert (Hfin : forall y, finished (EWrite x :: ms_hist ms) y <-> finished (ms_hist ms) y).
    { intros y. unfold finished. cbn. intuition discriminate. }
    assert (Hown : owned (mkMsys (ms_mgr ms) (set_wrote x (ms_roots ms)) (ms_child ms) (EWrite x :: ms_hist ms))
       = owned ms).
    { unfold owned. cbn [ms_roots ms_child ms_mgr ms_hist]. f_equal. unfold root_snaps, set_wrote. clear.
      induction (ms_roots ms) as [|a l IH]; cbn; auto. rewrite IH. destruct (r_xid a =? x); reflexivity. }
    assert (Hmapx : map r_xid (set_wrote x (ms_roots ms)) = map r_xid (ms_roots ms)).
    { unfold set_wrote. rewrite map_map. apply map_ext. intros a. destruct (r_xid a =? x); auto. }
    assert (Hinv : forall r', In r' (set_wrote x (ms_roots ms)) -> exists r0, In r0 (ms_roots ms) /\
       r_xid r' = r_xid r0 /\ r_ro r' = r_ro r0 /\ r_snap r' = r_snap r0 /\
       r_wrote r' = if r_xid r0 =? x then true else r_wrote r0).
    { intros r' Hr'. apply in_map_iff in Hr'. destruct Hr' as (r0 & <- & H0). exists r0. split; auto.
      destruct (r_xid r0 =? x); cbn; auto. }
    constructor; rewrite ?Hown, ?Hmapx; cbn [ms_mgr ms_roots ms_child ms_hist].
    + apply cinv_write; auto.
    + lia.
    + rewrite Hmapx. apply M.
    + intros r' Hr'. apply Hinv in Hr'. destruct Hr' as (r0 & H0 & E1 & E2 & E3 & E4).
      rewrite E1, E2, E4, Hfin. destruct (i_roots _ M r0 H0) as (A & B & D).
      split; [right; auto|]. split; [auto|]. unfold wrote. cbn.
      destruct (N.eqb_spec (r_xid r0) x) as [E|E].
      * split; auto. intros _. left. congruence.
      * rewrite D. unfold wrote. split; auto. intros [He|He]; auto. congruence.
    + intros y ro [Hy|Hy]; [discriminate|]. rewrite Hfin. intros Hnf.
      destruct (i_roots_all _ M y ro Hy Hnf) as (r0 & H0 & E0).
      exists (if r_xid r0 =? x then mkRoot (r_xid r0) (r_ro r0) (r_snap r0) true else r0). split.
      * unfold set_wrote. apply in_map_iff. exists r0. auto.
      * destruct (r_xid r0 =? x); auto.
    + apply (i_own _ M).
    + apply (i_own_nd _ M).
    + intros r' s Hr' Es. apply Hinv in Hr'. destruct Hr' as (r0 & H0 & E1 & E2 & E3 & E4).
      rewrite E1. eapply i_rsnap; eauto. congruence.
    + intros y s Hy. destruct (i_child _ M y s Hy) as (A & r0 & H0 & E0). split; auto.
      exists (if r_xid r0 =? x then mkRoot (r_xid r0) (r_ro r0) (r_snap r0) true else r0). split.
      * unfold set_wrote. apply in_map_iff. exists r0. auto.
      * destruct (r_xid r0 =? x); auto.
  - (* finish *)
    destruct L as (Lf & Lc).
    destruct (find_root x (ms_roots ms)) as [r|] eqn:Ef; [|congruence].
    apply find_root_some in Ef. destruct Ef as [Hr Er].
    destruct (i_roots _ M r Hr) as (Ab & Bf & Bw). rewrite Er in *.
    unfold finish_txn.
    assert (H1 : exists m1, match r_snap r with Some s => remove_snapshot (ms_mgr ms) s | None => Some (ms_mgr ms) end = Some m1
       /\ cinv m1 (match r_snap r with Some s => [ESnapEnd (s_id s)] | None => [] end ++ ms_hist ms)
       /\ m_last m1 = m_last (ms_mgr ms)).
    { destruct (r_snap r) as [s|] eqn:Es.
      - destruct (cinv_snapend _ _ s C) as (m' & Em & Cm & Lm & _).
        + apply (i_own _ M). apply in_or_app. left. apply root_snaps_in. eauto.
        + exists m'. auto.
      - exists (ms_mgr ms). auto. }
    destruct H1 as (m1 & -> & C1 & L1).
    set (evs := match r_snap r with Some s => [ESnapEnd (s_id s)] | None => [] end) in *.
    assert (Hev : forall e, In e (evs ++ ms_hist ms) <-> In e evs \/ In e (ms_hist ms)).
    { intros e. apply in_app_iff. }
    assert (Hevs : forall e, In e evs -> exists s, e = ESnapEnd s).
    { intros e He. unfold evs in He. destruct (r_snap r); [|destruct He]. destruct He as [<-|[]]. eauto. }
    assert (Hfin0 : forall y, finished (evs ++ ms_hist ms) y <-> finished (ms_hist ms) y).
    { intros y. unfold finished. rewrite Hev. split; auto.
      intros [He|He]; [apply Hevs in He; destruct He; discriminate|auto]. }
    assert (Hwr0 : forall y, wrote (evs ++ ms_hist ms) y <-> wrote (ms_hist ms) y).
    { intros y. unfold wrote. rewrite Hev. split; auto.
      intros [He|He]; [apply Hevs in He; destruct He; discriminate|auto]. }
    assert (H2 : exists m2, (if r_ro r then Some m1
       else do live <- remove_live x (m_live m1);
        let m2 := mkMgr (m_last m1) live (m_snaps m1) (m_ref m1) (m_oldest m1) in
        if r_wrote r then
          let refs := count_younger x (rev (m_snaps m2)) in
          if 0 <? refs then
            do (e, m3) <- next_xid m2;
            do ref <- insert_ref (mkRxt x e refs) (m_ref m3);
            Some (mkMgr (m_last m3) (m_live m3) (m_snaps m3) ref (m_oldest m3))
          else Some m2
        else Some m2) = Some m2 /\ cinv m2 (EFinish x :: evs ++ ms_hist ms) /\ m_last m2 <= m_last (ms_mgr ms) + 1).
    { destruct (r_ro r) eqn:Ero.
      - exists m1. split; [auto|]. split; [|lia]. apply cinv_fin_ro; auto. apply Hev. auto.
      - rewrite remove_live_ok.
        + destruct (cinv_fin m1 (mkMgr (m_last m1) (without x (m_live m1)) (m_snaps m1) (m_ref m1) (m_oldest m1))
             (evs ++ ms_hist ms) x (r_wrote r)) as (m2 & E2 & C2); auto.
          * apply Hev. auto.
          * rewrite Hfin0. auto.
          * rewrite Hwr0. auto.
          * lia.
          * exists m2. split; [exact E2|]. split; auto. clear -E2 L1. cbn [m_snaps m_last] in E2.
            unfold next_xid in E2. cbn [m_last m_live m_snaps m_ref m_oldest] in E2.
            destruct (r_wrote r); [|injection E2 as <-; cbn; lia].
            destruct (0 <? _); [|injection E2 as <-; cbn; lia].
            destruct (_ <? TXNID_MAX); [|discriminate].
            destruct (insert_ref _ _); [|discriminate]. injection E2 as <-. cbn. lia.
        + rewrite (c_live _ _ C1). apply sorted_nodup. apply C1.
        + rewrite (c_live _ _ C1). apply (c_live_iff _ _ C1). rewrite Hfin0. split; auto. apply Hev. auto. }
    destruct H2 as (m2 & E2 & C2 & L2). cbv zeta in E2 |- *. rewrite E2. clear E2.
    eexists. split; [reflexivity|]. split; [|cbn; lia].
    assert (Hfin : forall y, finished (EFinish x :: evs ++ ms_hist ms) y <-> y = x \/ finished (ms_hist ms) y).
    { intros y. rewrite <- Hfin0. unfold finished. cbn.
      split; intros [He|He]; auto; [injection He as ->; auto|subst; auto]. }
    assert (Hwr : forall y, wrote (EFinish x :: evs ++ ms_hist ms) y <-> wrote (ms_hist ms) y).
    { intros y. rewrite <- Hwr0. unfold wrote. cbn. intuition discriminate. }
    assert (Hinr : forall r', In r' (filter (fun r => negb (r_xid r =? x)) (ms_roots ms)) <->
       In r' (ms_roots ms) /\ r_xid r' <> x).
    { intros r'. rewrite filter_In. destruct (N.eqb_spec (r_xid r') x); cbn; split; intros [A1 A2]; split; auto; congruence. }
    pose proof (i_own_nd _ M) as Nd. unfold owned in Nd. rewrite map_app in Nd.
    apply NoDup_app_inv in Nd. destruct Nd as (N1 & N2 & N3).
    assert (Hun : forall r' s s', In r' (ms_roots ms) -> r_xid r' <> x -> r_snap r' = Some s ->
       r_snap r = Some s' -> s_id s <> s_id s').
    { intros r' s s' Hr' Hne Es Es' E. clear -N1 Hr Hr' Hne Es Es' E Er.
      induction (ms_roots ms) as [|a l IH]; [destruct Hr|]. unfold root_snaps in N1. cbn in N1.
      fold (root_snaps l) in N1. rewrite map_app in N1. apply NoDup_app_inv in N1. destruct N1 as (M1 & M2 & M3).
      destruct Hr as [->|Hr]; destruct Hr' as [->|Hr']; [congruence| | |auto].
      - apply (M3 (s_id s')); [rewrite Es'; left; auto|]. rewrite <- E. apply in_map, root_snaps_in. eauto.
      - apply (M3 (s_id s)); [rewrite Es; left; auto|]. rewrite E. apply in_map, root_snaps_in. eauto. }
    constructor; cbn [ms_mgr ms_roots ms_child ms_hist].
    + exact C2.
    + lia.
    + apply NoDup_sublist. apply M.
    + intros r' Hr'. apply Hinr in Hr'. destruct Hr' as [Hr' Hne]. rewrite Hfin, Hwr.
      destruct (i_roots _ M r' Hr') as (A & B & D). split; [right; apply Hev; auto|].
      split; [|auto]. intros [E|E]; auto.
    + intros y ro [Hy|Hy]; [discriminate|]. rewrite Hfin. intros Hnf. apply Hev in Hy.
      destruct Hy as [Hy|Hy]; [apply Hevs in Hy; destruct Hy; discriminate|].
      destruct (i_roots_all _ M y ro Hy) as (r0 & H0 & E0); [tauto|].
      exists r0. split; auto. apply Hinr. split; auto. intros E. apply Hnf. left. congruence.
    + intros s Hs. cbn [snaps_of].
      assert (Hs' : In s (snaps_of (ms_hist ms)) /\ forall s', r_snap r = Some s' -> s_id s <> s_id s').
      { unfold owned in Hs. cbn in Hs. apply in_app_or in Hs. destruct Hs as [Hs|Hs].
        - apply root_snaps_in in Hs. destruct Hs as (r' & Hr' & Es'). apply Hinr in Hr'.
          split; [apply (i_own _ M); apply in_or_app; left; apply root_snaps_in; exists r'; tauto|].
          intros s' Es. apply (Hun r'); tauto.
        - split; [apply (i_own _ M); apply in_or_app; auto|].
          intros s' Es E. apply (N3 (s_id s')); [apply in_map, root_snaps_in; eauto|].
          rewrite <- E. apply in_map. auto. }
      destruct Hs' as [Hs1 Hs2]. unfold evs. destruct (r_snap r) as [s'|]; cbn [app snaps_of]; auto.
      apply filter_In. split; auto. specialize (Hs2 s' eq_refl).
      destruct (N.eqb_spec (s_id s) (s_id s')); [congruence|reflexivity].
    + unfold owned. cbn [ms_roots ms_child ms_mgr ms_hist]. rewrite map_app. apply NoDup_app_intro; auto.
      * clear -N1. induction (ms_roots ms) as [|a l IH]; cbn; [constructor|].
        unfold root_snaps in N1. cbn in N1. fold (root_snaps l) in N1. rewrite map_app in N1.
        apply NoDup_app_inv in N1. destruct N1 as (M1 & M2 & M3).
        destruct (negb (r_xid a =? x)); auto. unfold root_snaps. cbn. fold (root_snaps (filter (fun r => negb (r_xid r =? x)) l)).
        rewrite map_app. apply NoDup_app_intro; auto. intros y Hy Hy'. apply (M3 y Hy).
        apply in_map_iff in Hy'. destruct Hy' as (s & E & Hs). apply root_snaps_in in Hs.
        destruct Hs as (r' & Hr' & Es). apply filter_In in Hr'. rewrite <- E. apply in_map, root_snaps_in.
        exists r'. tauto.
      * intros y Hy. apply N3. apply in_map_iff in Hy. destruct Hy as (s & E & Hs). apply root_snaps_in in Hs.
        destruct Hs as (r' & Hr' & Es). apply Hinr in Hr'. rewrite <- E. apply in_map, root_snaps_in.
        exists r'. tauto.
    + intros r' s Hr' Es. apply Hinr in Hr'. eapply i_rsnap; eauto. tauto.
    + intros y s Hy. destruct (i_child _ M y s Hy) as (A & r0 & H0 & E0). split; auto.
      exists r0. split; auto. apply Hinr. split; auto. intros E. apply (Lc s). congruence.
Qed.

Theorem mreach_inv last ms : mreach last ms -> minv ms.
Proof.
  induction 1 as [H|ms o ms' Hr IH Hl Hi Hs].
  - apply minv_init. auto.
  - destruct (minv_step ms o IH Hl Hi) as (ms1 & E & M & _). congruence.
Qed.

(** ** Lookups *)

Lemma last_filter_sorted (l : list txnid) (f : txnid -> bool) d x :
  sorted l -> In x l -> f x = true -> (forall y, In y l -> f y = true -> y <= x) ->
  last (filter f l) d = x.
Proof.
  intros S. induction S as [|a l S IH F]; intros Hi Hf Hm; [destruct Hi|].
  rewrite Forall_forall in F. cbn [filter]. destruct Hi as [->|Hi].
  - rewrite Hf. assert (E : filter f l = []).
    { destruct (filter f l) as [|b k] eqn:E; auto. exfalso.
      assert (Hb : In b (filter f l)) by (rewrite E; left; auto). apply filter_In in Hb.
      destruct Hb as [Hb Hfb]. pose proof (F b Hb). specialize (Hm b (or_intror Hb) Hfb). lia. }
    rewrite E. reflexivity.
  - specialize (IH Hi Hf). assert (Hm' : forall y, In y l -> f y = true -> y <= x).
    { intros; apply Hm; auto. right; auto. }
    specialize (IH Hm'). destruct (f a); auto.
    destruct (filter f l) eqn:E; [|exact IH].
    exfalso. assert (Hx : In x (filter f l)) by (apply filter_In; auto). rewrite E in Hx. destruct Hx.
Qed.

Lemma snaps_ids_sorted (l : list snap) : StronglySorted snap_lt l -> sorted (map s_id l).
Proof.
  induction 1 as [|a l H IH F]; cbn; constructor; auto.
  rewrite Forall_forall in *. intros y Hy. apply in_map_iff in Hy. destruct Hy as (n & <- & Hn). apply F; auto.
Qed.

Lemma find_older_spec l x : sorted l ->
  (find_older l x = TXNID_NONE /\ (forall y, In y l -> 0 < y -> x <= y))
  \/ (In (find_older l x) l /\ find_older l x < x /\ forall y, In y l -> y < x -> y <= find_older l x).
Proof.
  intros S. unfold find_older. induction S as [|a l S IH F]; [left; split; auto; intros y []|].
  rewrite Forall_forall in F. cbn [filter]. destruct (N.ltb_spec a x) as [Ha|Ha].
  - right. destruct IH as [[E Hn]|(Hi & Hlt & Hm)].
    + assert (Ef : filter (fun e => e <? x) l = []).
      { destruct (filter (fun e => e <? x) l) as [|b k] eqn:Ef; auto. exfalso.
        assert (Hb : In b (filter (fun e => e <? x) l)) by (rewrite Ef; left; auto).
        apply filter_In in Hb. destruct Hb as [Hb Hbx].
        pose proof (F b Hb). specialize (Hn b Hb). lia. }
      rewrite Ef. cbn. split; auto. split; auto. intros y [<-|Hy] Hy'; [lia|].
      specialize (Hn y Hy). pose proof (F y Hy). lia.
    + destruct (filter (fun e => e <? x) l) as [|b k] eqn:Ef.
      { exfalso. cbn in Hi. unfold TXNID_NONE in *. assert (Hx : In 0 (filter (fun e => e <? x) l)).
        { apply filter_In. split; auto. cbn in Hlt. lia. } rewrite Ef in Hx. destruct Hx. }
      replace (last (a :: b :: k) TXNID_NONE) with (last (b :: k) TXNID_NONE) by reflexivity.
      split; [right; auto|]. split; auto. intros y [<-|Hy] Hy'; auto. pose proof (F _ Hi). lia.
  - left. destruct IH as [[E Hn]|(Hi & Hlt & Hm)].
    + split; auto. intros y [<-|Hy]; auto.
    + exfalso. apply F in Hi. lia.
Qed.

Definition youngest (l : list snap) : txnid := last (map s_id l) TXNID_NONE.

Lemma youngest_in l : l <> [] -> exists s, In s l /\ youngest l = s_id s /\
  (StronglySorted snap_lt l -> forall n, In n l -> s_id n <= s_id s).
Proof.
  induction l as [|a l IH]; [congruence|]. intros _. destruct l as [|b l].
  - exists a. split; [left; auto|]. split; [reflexivity|]. intros _ n [<-|[]]. lia.
  - destruct IH as (s & Hs & E & Hm); [discriminate|]. exists s. split; [right; auto|].
    split; [exact E|]. intros S n Hn. inversion S; subst. specialize (Hm H1).
    destruct Hn as [<-|Hn]; auto. rewrite Forall_forall in H2. apply H2 in Hs. unfold snap_lt in Hs. lia.
Qed.

Lemma find_rxt_sorted ref t : StronglySorted rxt_lt ref -> In t ref ->
  find (fun u => rx_begin u =? rx_begin t) ref = Some t.
Proof.
  induction 1 as [|a l S IH F]; intros Hi; [destruct Hi|]. cbn. rewrite Forall_forall in F.
  destruct Hi as [->|Hi]; [rewrite N.eqb_refl; auto|].
  pose proof (F _ Hi). unfold rxt_lt in *. destruct (N.eqb_spec (rx_begin a) (rx_begin t)); [lia|auto].
Qed.

Lemma youngest_live_list_ok m h x : cinv m h -> finished h x -> wrote h x ->
  youngest_live_list_for x (map s_id (m_snaps m)) (m_ref m) = youngest (blocked_by h x).
Proof.
  intros C Hf Hw. unfold youngest_live_list_for.
  destruct (blocked_by h x) as [|b0 bl] eqn:Eb.
  - destruct (find _ (m_ref m)) as [t|] eqn:Ef; [|reflexivity].
    apply find_some in Ef. destruct Ef as [Ht E]. apply N.eqb_eq in E.
    destruct (c_ref _ _ C t Ht) as (_ & _ & _ & _ & G & K). rewrite E, Eb in G. cbn in G. lia.
  - destruct (c_ref_complete _ _ C x Hf Hw) as (t & Ht & E); [congruence|].
    pose proof (find_rxt_sorted _ _ (c_ref_sorted _ _ C) Ht) as Ef. rewrite E in Ef. rewrite Ef.
    destruct (c_ref _ _ C t Ht) as (_ & _ & _ & F & _). rewrite E in *.
    destruct (youngest_in (blocked_by h x)) as (s & Hs & Ey & Hm); [congruence|].
    assert (Sb : StronglySorted snap_lt (blocked_by h x)) by (apply sorted_filter; apply C).
    specialize (Hm Sb). rewrite <- Eb. rewrite Ey. apply blocked_in in Hs. destruct Hs as [Hs Hx].
    assert (Hr : x < s_id s < rx_end t) by (apply F; auto).
    rewrite (c_snaps _ _ C).
    assert (Efo : find_older (map s_id (snaps_of h)) (rx_end t) = s_id s).
    { unfold find_older. apply last_filter_sorted.
      - apply snaps_ids_sorted. apply C.
      - apply in_map. auto.
      - apply N.ltb_lt. lia.
      - intros y Hy Hye. apply N.ltb_lt in Hye. apply in_map_iff in Hy. destruct Hy as (n & <- & Hn).
        destruct (N.ltb_spec x (s_id n)); [|lia]. apply Hm. apply blocked_in. split; auto. apply F; auto. }
    rewrite Efo. destruct (N.ltb_spec x (s_id s)); [reflexivity|lia].
Qed.

(** ** What a reader accepts *)

Lemma ids_split h1 s h2 : StronglySorted (fun a b => b < a) (ids_of (h1 ++ ESnap s :: h2)) ->
  forall x ro, (In (EBegin x ro) h1 -> s < x) /\ (In (EBegin x ro) h2 -> x < s).
Proof.
  induction h1 as [|e h1 IH]; intros S x ro.
  - cbn in *. split; [tauto|]. intros H. apply begin_in_ids in H. inversion S; subst.
    rewrite Forall_forall in H3. auto.
  - assert (S' : StronglySorted (fun a b => b < a) (ids_of (h1 ++ ESnap s :: h2))).
    { destruct e; cbn in S; auto; inversion S; auto. }
    specialize (IH S' x ro). destruct IH as [I1 I2]. split; auto.
    intros [->|H]; auto. cbn in S. inversion S; subst. rewrite Forall_forall in H2. apply H2.
    clear. induction h1 as [|e h1 IH]; cbn; [left; auto|]. destruct e; cbn; auto.
Qed.

Lemma reads_iff m h s r x : cinv m h -> In s (snaps_of h) -> r < s_id s -> begun h x -> x <> r ->
  (txn_reads_txnid x (mkReader (s_id s) (s_live s) r) = true <-> x < s_id s /\ ~ In x (s_live s)).
Proof.
  intros C Hs Hr Hx Hne. unfold txn_reads_txnid. cbn [rd_live rd_root rd_snapshot].
  destruct (N.eqb_spec x r); [congruence|]. rewrite orb_false_r.
  pose proof (c_slive_sorted _ _ C s Hs) as S.
  assert (Hpos : forall y, In y (s_live s) -> 0 < y).
  { intros y Hy. apply (c_slive2 _ _ C s) in Hy; auto. destruct Hy as [Hy _]. apply begin_in_ids in Hy.
    apply (c_pos _ _ C). auto. }
  assert (Hxs : x <> s_id s).
  { destruct (c_split _ _ C s Hs) as (h1 & h2 & E & _).
    pose proof (c_ids _ _ C) as Si. rewrite E in Si. destruct (ids_split _ _ _ Si x false) as [I1 I2].
    unfold begun in Hx. rewrite E in Hx. apply in_app_or in Hx. destruct Hx as [Hx|[Hx|Hx]]; [|discriminate|].
    - apply I1 in Hx. lia.
    - apply I2 in Hx. lia. }
  destruct (s_live s) as [|a l] eqn:El.
  - cbn [oldest_in_live hd]. rewrite N.eqb_refl. cbn [andb].
    destruct (N.ltb_spec x (s_id s)); [split; auto|]. cbn.
    destruct (N.ltb_spec (s_id s) x); [|lia]. unfold TXNID_NONE.
    destruct (N.ltb_spec x 0); [lia|]. split; [discriminate|lia].
  - cbn [oldest_in_live hd]. assert (Ha : 0 < a) by (apply Hpos; left; auto).
    unfold TXNID_NONE. destruct (N.eqb_spec a 0); [lia|]. cbn [andb].
    inversion S; subst. rewrite Forall_forall in H2.
    destruct (N.ltb_spec x a).
    + split; auto. intros _. split.
      * assert (a < s_id s) by (apply (c_slive2 _ _ C s); auto; rewrite El; left; auto). lia.
      * intros [->|Hi]; [lia|]. apply H2 in Hi. lia.
    + destruct (N.ltb_spec (s_id s) x); cbn [orb]; [split; [discriminate|lia]|].
      destruct (in_live_list (a :: l) x) eqn:Ei.
      * apply in_live_list_iff in Ei. split; [discriminate|tauto].
      * apply in_live_list_false in Ei. split; auto. intros _. split; auto. lia.
Qed.

Lemma reads_own s r x : x = r -> r < s_id s -> txn_reads_txnid x (mkReader (s_id s) (s_live s) r) = true.
Proof.
  intros -> H. unfold txn_reads_txnid. cbn [rd_live rd_root rd_snapshot]. rewrite N.eqb_refl, orb_true_r.
  destruct (_ && _); reflexivity.
Qed.

(** Finished before the snapshot. *)
Lemma sees_iff m h s x : cinv m h -> In s (snaps_of h) -> begun h x ->
  (x < s_id s /\ ~ In x (s_live s) <->
   exists h1 h2, h = h1 ++ ESnap (s_id s) :: h2 /\ finished h2 x).
Proof.
  intros C Hs Hx. destruct (c_split _ _ C s Hs) as (h1 & h2 & E & El & Hiff & Hfin).
  pose proof (c_ids _ _ C) as Si. rewrite E in Si. pose proof (ids_split _ _ _ Si x false) as [I1 I2].
  assert (Hb2 : x < s_id s -> begun h2 x).
  { intros Hlt. unfold begun in Hx. rewrite E in Hx. apply in_app_or in Hx.
    destruct Hx as [Hx|[Hx|Hx]]; [|discriminate|auto]. apply I1 in Hx. lia. }
  split.
  - intros [Hlt Hn]. exists h1, h2. split; auto. rewrite El, Hiff in Hn.
    destruct (finished_dec h2 x); auto. exfalso. auto.
  - intros (k1 & k2 & E' & Hf).
    assert (Ek : k2 = h2).
    { rewrite E in E'. clear -Si E'. revert k1 E' Si. induction h1 as [|e h1 IH]; intros k1 E' Si.
      - destruct k1 as [|e' k1]; [cbn in E'; congruence|]. cbn in E'. injection E' as <- ->.
        cbn in Si. inversion Si; subst. rewrite Forall_forall in H2.
        assert (Hi : In (s_id s) (ids_of (k1 ++ ESnap (s_id s) :: k2))).
        { clear. induction k1 as [|e k1 IH]; cbn; [left; auto|destruct e; cbn; auto]. }
        apply H2 in Hi. lia.
      - destruct k1 as [|e' k1].
        + cbn in E'. injection E' as -> <-. cbn in Si. inversion Si; subst. rewrite Forall_forall in H2.
          assert (Hi : In (s_id s) (ids_of (h1 ++ ESnap (s_id s) :: h2))).
          { clear. induction h1 as [|e k1 IH]; cbn; [left; auto|destruct e; cbn; auto]. }
          apply H2 in Hi. lia.
        + cbn in E'. injection E' as -> E'. eapply IH; eauto.
          destruct e'; cbn in Si; auto; inversion Si; auto. }
    subst k2.
    split.
    + unfold begun in Hx. rewrite E in Hx. apply in_app_or in Hx.
      destruct Hx as [Hx|[Hx|Hx]]; [|discriminate|auto].
      apply I1 in Hx. destruct (Hfin x Hf) as [ro Hro].
      destruct (ids_split _ _ _ Si x ro) as [_ I2']. apply I2' in Hro. lia.
    + rewrite El, Hiff. tauto.
Qed.
