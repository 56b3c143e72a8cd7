(** Lemmas about the build of an index with concurrent writers. *)
From Verif Require Import Base Bytes LtSpec KOrd BldModel BldSpec.
Open Scope N_scope.

Lemma same_key_true a b : same_key a b = true <-> a = b.
Proof. unfold same_key. destruct (list_eq_dec N.eq_dec a b); split; congruence. Qed.
Lemma same_key_false a b : same_key a b = false <-> a <> b.
Proof. unfold same_key. destruct (list_eq_dec N.eq_dec a b); split; congruence. Qed.
Lemma same_key_refl a : same_key a a = true.
Proof. apply same_key_true. reflexivity. Qed.

Lemma sget_filter l k k' : k <> k' -> sget (filter (fun r => negb (same_key (fst r) k)) l) k' = sget l k'.
Proof.
  intros N. induction l as [|[a v] l IH]; cbn; auto. destruct (same_key a k) eqn:E; cbn.
  - apply same_key_true in E. subst a. apply same_key_false in N. rewrite N. exact IH.
  - rewrite IH. reflexivity.
Qed.
Lemma sget_filter_same l k : sget (filter (fun r => negb (same_key (fst r) k)) l) k = None.
Proof. induction l as [|[a v] l IH]; cbn; auto. destruct (same_key a k) eqn:E; cbn; auto. rewrite E. exact IH. Qed.
Lemma sget_sset l k v k' : sget (sset l k v) k' = if same_key k k' then v else sget l k'.
Proof.
  unfold sset. destruct (same_key k k') eqn:E.
  - apply same_key_true in E. subst k'. destruct v; cbn; [rewrite same_key_refl; reflexivity|apply sget_filter_same].
  - destruct v; cbn; [rewrite E|]; apply sget_filter; apply same_key_false, E.
Qed.
Lemma sget_in l k v : sget l k = Some v -> In (k, v) l.
Proof. induction l as [|[a w] l IH]; cbn; [discriminate|]. destruct (same_key a k) eqn:E; intros H; [apply same_key_true in E; inversion H; subst; auto|auto]. Qed.
Lemma sget_none l k : sget l k = None <-> ~ In k (map fst l).
Proof.
  induction l as [|[a w] l IH]; cbn; [tauto|]. destruct (same_key a k) eqn:E.
  - apply same_key_true in E. split; [discriminate|intros H; exfalso; apply H; auto].
  - apply same_key_false in E. rewrite IH. tauto.
Qed.
Lemma in_sget l k v : NoDup (map fst l) -> In (k, v) l -> sget l k = Some v.
Proof.
  induction l as [|[a w] l IH]; cbn; [tauto|]. intros ND H. inversion ND as [|x y N1 N2]; subst. destruct H as [H|H].
  - inversion H; subst. rewrite same_key_refl. reflexivity.
  - destruct (same_key a k) eqn:E; [|auto]. apply same_key_true in E. subst a. exfalso. apply N1. apply in_map_iff. exists (k, v). auto.
Qed.
Lemma filter_fst_nodup (f : bytes * bytes -> bool) l : NoDup (map fst l) -> NoDup (map fst (filter f l)).
Proof.
  induction l as [|r l IH]; cbn; auto. intros ND. inversion ND as [|x y N1 N2]; subst. destruct (f r); cbn; auto. constructor; auto.
  intros H. apply N1. apply in_map_iff in H. destruct H as [z [E H]]. apply filter_In in H. apply in_map_iff. exists z. tauto.
Qed.
Lemma sset_nodup l k v : NoDup (map fst l) -> NoDup (map fst (sset l k v)).
Proof.
  intros ND. unfold sset. destruct v; [cbn; constructor|]; try apply filter_fst_nodup, ND.
  intros H. apply in_map_iff in H. destruct H as [z [E H]]. apply filter_In in H. destruct H as [_ H]. rewrite E, same_key_refl in H. discriminate.
Qed.
Lemma has_key_true h rows : has_key h rows = true <-> In h (map fst rows).
Proof.
  unfold has_key. rewrite existsb_exists, in_map_iff. split; intros [x [A B]]; exists x.
  - apply same_key_true in B. auto.
  - split; [auto|apply same_key_true, A].
Qed.

(** Values after a list of writes. *)
Fixpoint sval (ws : list wr) (k : bytes) (x : option bytes) : option bytes :=
  match ws with
  | [] => x
  | WSrc k' v :: ws' => sval ws' k (if same_key k' k then v else x)
  | WHot _ _ _ :: ws' => sval ws' k x
  end.
Fixpoint hval (ws : list wr) (d : nat) (h : bytes) (x : option bytes) : option bytes :=
  match ws with
  | [] => x
  | WSrc _ _ :: ws' => hval ws' d h x
  | WHot d' h' v :: ws' => hval ws' d h (if (d =? d')%nat && same_key h h' then v else x)
  end.
Lemma sval_none ws k x : (forall v, ~ In (WSrc k v) ws) -> sval ws k x = x.
Proof.
  revert x. induction ws as [|[k' v|d h v] ws IH]; intros x H; cbn; auto.
  - destruct (same_key k' k) eqn:E.
    + apply same_key_true in E. subst k'. exfalso. apply (H v). left. reflexivity.
    + apply IH. intros v' I. apply (H v'). right. exact I.
  - apply IH. intros v' I. apply (H v'). right. exact I.
Qed.
Lemma hval_none ws d h x : (forall v, ~ In (WHot d h v) ws) -> hval ws d h x = x.
Proof.
  revert x. induction ws as [|[k' v|d' h' v] ws IH]; intros x H; cbn; auto.
  - apply IH. intros v' I. apply (H v'). right. exact I.
  - destruct ((d =? d')%nat && same_key h h') eqn:E.
    + apply andb_true_iff in E. destruct E as [E1 E2]. apply Nat.eqb_eq in E1. apply same_key_true in E2. subst. exfalso. apply (H v). left. reflexivity.
    + apply IH. intros v' I. apply (H v'). right. exact I.
Qed.
Lemma sval_const ws k y : (forall v, In (WSrc k v) ws -> v = y) -> (exists v, In (WSrc k v) ws) -> forall x, sval ws k x = y.
Proof.
  induction ws as [|[k' v|d h v] ws IH]; intros H [v0 I] x; [destruct I| |].
  - cbn. destruct (same_key k' k) eqn:E.
    + apply same_key_true in E. subst k'. assert (v = y) by (apply H; left; reflexivity). subst v.
      clear - H. assert (forall x, x = y -> sval ws k x = y); [|auto].
      assert (H' : forall v, In (WSrc k v) ws -> v = y) by (intros; apply H; right; auto). clear H.
      induction ws as [|[k' v|d h v] ws IH]; intros x E; cbn; auto.
      * apply IH; [intros v' I; apply H'; right; exact I|]. destruct (same_key k' k) eqn:E1; auto. apply same_key_true in E1. subst k'. apply H'. left. reflexivity.
      * apply IH; [intros v' I; apply H'; right; exact I|exact E].
    + apply IH; [intros v' I'; apply H; right; exact I'|]. destruct I as [I|I]; [inversion I; subst; rewrite same_key_refl in E; discriminate|eauto].
  - cbn. apply IH; [intros v' I'; apply H; right; exact I'|]. destruct I as [I|I]; [discriminate|eauto].
Qed.
Lemma hval_const ws d h y : (forall v, In (WHot d h v) ws -> v = y) -> (exists v, In (WHot d h v) ws) -> forall x, hval ws d h x = y.
Proof.
  intros H E. assert (K : forall x, x = y -> hval ws d h x = y).
  { clear E. induction ws as [|[k' v|d' h' v] ws IH]; intros x E; cbn; auto.
    - apply IH; [intros v' I; apply H; right; exact I|exact E].
    - apply IH; [intros v' I; apply H; right; exact I|]. destruct ((d =? d')%nat && same_key h h') eqn:E1; auto.
      apply andb_true_iff in E1. destruct E1 as [E1 E2]. apply Nat.eqb_eq in E1. apply same_key_true in E2. subst. apply H. left. reflexivity. }
  destruct E as [v0 I]. induction ws as [|[k' v|d' h' v] ws IH]; intros x; [destruct I| |].
  - cbn. apply IH; [intros v' I'; apply H; right; exact I'|destruct I as [I|I]; [discriminate|exact I]|].
    intros x' E. apply (K x' E).
  - cbn. destruct ((d =? d')%nat && same_key h h') eqn:E1.
    + specialize (K y eq_refl). apply andb_true_iff in E1. destruct E1 as [E1 E2]. apply Nat.eqb_eq in E1. apply same_key_true in E2. subst d' h'.
      assert (v = y) by (apply H; left; reflexivity). subst v. cbn in K. rewrite Nat.eqb_refl, same_key_refl in K. exact K.
    + apply IH; [intros v' I'; apply H; right; exact I'| |].
      * destruct I as [I|I]; [|exact I]. inversion I; subst. rewrite Nat.eqb_refl, same_key_refl in E1. discriminate.
      * intros x' E. specialize (K x' E). cbn in K. rewrite E1 in K. exact K.
Qed.
Lemma hval_app a b d h x : hval (a ++ b) d h x = hval b d h (hval a d h x).
Proof. revert x. induction a as [|[k v|d' h' v] a IH]; intros x; cbn; auto. Qed.

Section B.
Variable c : bytes -> bytes -> comparison.
Variable gen : nat -> bytes -> bytes -> list (bytes * bytes).
Variable ndb : nat.
Hypothesis cok : cmp_ok c.
Hypothesis capart : tells_apart c.
Hypothesis gok : callback_ok gen.

Definition Own (d : nat) (h k : bytes) : Prop := exists v hv, In (h, hv) (gen d k v).
Lemma own_unique d h k k' : Own d h k -> Own d h k' -> k = k'.
Proof. intros [v [hv A]] [v' [hv' B]]. eapply (cb_owner _ gok); eauto. Qed.

Lemma passed_reached p k : passed c p k = true <-> reached c p k.
Proof. destruct p; cbn; [split; [discriminate|tauto]|apply kleb_true|tauto]. Qed.

(** The writes of a list of actions when the indexer answers [b]. *)
Definition flat1 (b : bytes -> bool) (a : act) : list wr := match a with AWr w => [w] | AIf k ws => if b k then ws else [] end.
Definition flat (b : bytes -> bool) (l : list act) : list wr := concat (map (flat1 b) l).
Lemma flat_app b l l' : flat b (l ++ l') = flat b l ++ flat b l'.
Proof. unfold flat. rewrite map_app, concat_app. reflexivity. Qed.
Lemma flat_awr b ws : flat b (map AWr ws) = ws.
Proof. induction ws; cbn; auto. f_equal. exact IHws. Qed.
Lemma in_flat b l w : In w (flat b l) <-> exists a, In a l /\ In w (flat1 b a).
Proof. unfold flat. rewrite in_concat. split; [intros [x [A B]]; apply in_map_iff in A; destruct A as [a [<- A]]; eauto|intros [a [A B]]; exists (flat1 b a); split; [apply in_map, A|exact B]]. Qed.
Lemma flat_unasked b l : (forall k ws, In (AIf k ws) l -> b k = true) -> flat b (concat (map unasked l)) = flat b l.
Proof.
  induction l as [|[w|k ws] l IH]; intros H; cbn [map concat]; auto.
  - cbn. f_equal. apply IH. intros k ws I. apply (H k ws). right. exact I.
  - rewrite flat_app. change (unasked (AIf k ws)) with (map AWr ws). rewrite flat_awr. rewrite IH; [|intros k' ws' I; apply (H k' ws'); right; exact I].
    unfold flat at 2. cbn. rewrite (H k ws); [reflexivity|left; reflexivity].
Qed.

Lemma in_puts d rows d' h v : In (WHot d' h v) (puts d rows) <-> d' = d /\ exists hv, v = Some hv /\ In (h, hv) rows.
Proof.
  unfold puts. rewrite in_map_iff. split.
  - intros [[a b] [E I]]. cbn in E. inversion E; subst. split; eauto.
  - intros [-> [hv [-> I]]]. exists (h, hv). auto.
Qed.
Lemma in_dels d keys d' h v : In (WHot d' h v) (dels d keys) <-> d' = d /\ v = None /\ In h keys.
Proof.
  unfold dels. rewrite in_map_iff. split.
  - intros [a [E I]]. inversion E; subst. auto.
  - intros [-> [-> I]]. exists h. auto.
Qed.
Lemma puts_nosrc d rows k v : ~ In (WSrc k v) (puts d rows).
Proof. unfold puts. rewrite in_map_iff. intros [x [E _]]. discriminate. Qed.
Lemma dels_nosrc d keys k v : ~ In (WSrc k v) (dels d keys).
Proof. unfold dels. rewrite in_map_iff. intros [x [E _]]. discriminate. Qed.

Lemma in_flat_map b {X} (f : X -> list act) l w : In w (flat b (concat (map f l))) <-> exists x, In x l /\ In w (flat b (f x)).
Proof.
  induction l as [|x l IH]; cbn [map concat].
  - cbn. split; [tauto|intros [x [[] _]]].
  - rewrite flat_app, in_app_iff, IH. split.
    + intros [H|[y [A B]]]; [exists x; split; [left; reflexivity|exact H]|exists y; split; [right; exact A|exact B]].
    + intros [y [[->|A] B]]; [left; exact B|right; eauto].
Qed.
Lemma ask_put_flat b d k rows w : In w (flat b (ask_put d k rows)) <-> b k = true /\ In w (puts d rows).
Proof.
  unfold ask_put. destruct rows as [|r rows].
  - cbn. tauto.
  - unfold flat. cbn [map concat flat1]. rewrite app_nil_r. destruct (b k); [tauto|]. cbn. split; [tauto|intros [E _]; discriminate].
Qed.
Lemma ask_del_flat b d k l w : In w (flat b (ask_del d k l)) <-> b k = true /\ In w (dels d l).
Proof.
  unfold ask_del, flat. cbn [map concat flat1]. rewrite app_nil_r. destruct (b k); [tauto|]. cbn. split; [tauto|intros [E _]; discriminate].
Qed.

(** What a call writes to the hot dictionaries and to the source. *)
Definition hot_writes (b : bytes -> bool) (o : op) (d : nat) (h : bytes) (v : option bytes) : Prop :=
  match o with
  | OPut k x => b k = true /\ exists hv, v = Some hv /\ In (h, hv) (gen d k x)
  | ODel k x => b k = true /\ v = None /\ In h (map fst (gen d k x))
  | OUpd k x k' x' =>
      (b k = true /\ v = None /\ In h (map fst (gen d k x)) /\ ~ In h (map fst (gen d k' x'))) \/
      (b k' = true /\ exists hv, v = Some hv /\ In (h, hv) (gen d k' x') /\ ~ (In h (map fst (gen d k x)) /\ hv = []))
  end.
Lemma in_upd_dels h old new : In h (upd_dels old new) <-> In h (map fst old) /\ ~ In h (map fst new).
Proof. unfold upd_dels. rewrite filter_In, negb_true_iff, <- not_true_iff_false, has_key_true. reflexivity. Qed.
Lemma in_upd_puts h hv old new : In (h, hv) (upd_puts old new) <-> In (h, hv) new /\ ~ (In h (map fst old) /\ hv = []).
Proof.
  unfold upd_puts. rewrite filter_In, negb_true_iff, <- not_true_iff_false, andb_true_iff, has_key_true. cbn [fst snd].
  assert (E : (len hv =? 0) = true <-> hv = []); [|rewrite E; reflexivity].
  rewrite N.eqb_eq. unfold len. destruct hv; cbn; split; try congruence; intros; lia.
Qed.
Lemma hot_writes_in b o arr d h v : In (WHot d h v) (flat b (acts_of gen o arr)) <-> In (Some d) arr /\ hot_writes b o d h v.
Proof.
  destruct o as [k x|k x|k x k' x']; cbn [acts_of hot_writes].
  - rewrite in_flat_map. split.
    + intros [[d0|] [A B]]; cbn [put_act] in B.
      * rewrite ask_put_flat, in_puts in B. destruct B as [B [-> C]]. auto.
      * destruct B as [B|[]]. discriminate.
    + intros [A [B C]]. exists (Some d). split; [exact A|]. cbn [put_act]. rewrite ask_put_flat, in_puts. auto.
  - rewrite in_flat_map. split.
    + intros [[d0|] [A B]]; cbn [del_act] in B.
      * rewrite ask_del_flat, in_dels in B. destruct B as [B [-> C]]. auto.
      * destruct B as [B|[]]. discriminate.
    + intros [A [B C]]. exists (Some d). split; [exact A|]. cbn [del_act]. rewrite ask_del_flat, in_dels. auto.
  - rewrite flat_app, in_app_iff, !in_flat_map. split.
    + intros [[[d0|] [A B]]|[[d0|] [A B]]]; cbn [upd_del_act upd_put_act] in B.
      * destruct (upd_dels (gen d0 k x) (gen d0 k' x')) as [|h0 l0] eqn:E; [destruct B|]. rewrite <- E in B.
        rewrite ask_del_flat, in_dels in B. destruct B as [B [-> [C D]]]. apply in_upd_dels in D. tauto.
      * destruct (same_key k k'); cbn in B; [destruct B|destruct B as [B|[]]; discriminate].
      * rewrite ask_put_flat, in_puts in B. destruct B as [B [-> [hv [C D]]]]. apply in_upd_puts in D. split; [exact A|]. right. split; [exact B|]. exists hv. tauto.
      * destruct (same_key k k' && (len x' =? 0)); cbn in B; [destruct B|destruct B as [B|[]]; discriminate].
    + intros [A [[B [C D]]|[B [hv [C D]]]]].
      * left. exists (Some d). split; [exact A|]. cbn [upd_del_act]. apply in_upd_dels in D.
        destruct (upd_dels (gen d k x) (gen d k' x')) as [|h0 l0] eqn:E; [destruct D|]. rewrite <- E in D. rewrite <- E.
        rewrite ask_del_flat, in_dels. auto.
      * right. exists (Some d). split; [exact A|]. cbn [upd_put_act]. apply in_upd_puts in D. rewrite ask_put_flat, in_puts. eauto.
Qed.

Definition src_writes (o : op) (k1 : bytes) (v : option bytes) : Prop :=
  match o with
  | OPut k x => k1 = k /\ v = Some x
  | ODel k x => k1 = k /\ v = None
  | OUpd k x k' x' => (k1 = k /\ v = None /\ k <> k') \/ (k1 = k' /\ v = Some x' /\ ~ (k = k' /\ x' = []))
  end.
Lemma src_writes_in b o arr k1 v : In None arr -> (In (WSrc k1 v) (flat b (acts_of gen o arr)) <-> src_writes o k1 v).
Proof.
  intros AN. destruct o as [k x|k x|k x k' x']; cbn [acts_of src_writes].
  - rewrite in_flat_map. split.
    + intros [[d0|] [A B]]; cbn [put_act] in B.
      * rewrite ask_put_flat in B. destruct B as [_ B]. destruct (puts_nosrc _ _ _ _ B).
      * destruct B as [B|[]]. inversion B; auto.
    + intros [-> ->]. exists None. split; [exact AN|]. left. reflexivity.
  - rewrite in_flat_map. split.
    + intros [[d0|] [A B]]; cbn [del_act] in B.
      * rewrite ask_del_flat in B. destruct B as [_ B]. destruct (dels_nosrc _ _ _ _ B).
      * destruct B as [B|[]]. inversion B; auto.
    + intros [-> ->]. exists None. split; [exact AN|]. left. reflexivity.
  - rewrite flat_app, in_app_iff, !in_flat_map. split.
    + intros [[[d0|] [A B]]|[[d0|] [A B]]]; cbn [upd_del_act upd_put_act] in B.
      * destruct (upd_dels (gen d0 k x) (gen d0 k' x')) as [|h0 l0]; [destruct B|].
        rewrite ask_del_flat in B. destruct B as [_ B]. destruct (dels_nosrc _ _ _ _ B).
      * destruct (same_key k k') eqn:E; cbn in B; [destruct B|destruct B as [B|[]]]. apply same_key_false in E. inversion B; subst. left. auto.
      * rewrite ask_put_flat in B. destruct B as [_ B]. destruct (puts_nosrc _ _ _ _ B).
      * destruct (same_key k k' && (len x' =? 0)) eqn:E; cbn in B; [destruct B|destruct B as [B|[]]]. inversion B; subst. right. split; [auto|]. split; [auto|].
        intros [-> ->]. rewrite same_key_refl in E. discriminate.
    + intros [[-> [-> N]]|[-> [-> N]]].
      * left. exists None. split; [exact AN|]. cbn [upd_del_act]. apply same_key_false in N. rewrite N. left. reflexivity.
      * right. exists None. split; [exact AN|]. cbn [upd_put_act].
        destruct (same_key k k' && (len x' =? 0)) eqn:E; [|left; reflexivity]. exfalso. apply N. apply andb_true_iff in E. destruct E as [E1 E2].
        apply same_key_true in E1. split; [exact E1|]. apply N.eqb_eq in E2. unfold len in E2. destruct x'; [reflexivity|cbn in E2; lia].
Qed.

(** What index [d] must have under key [h], whose source key is [k] with value [x];
    [b]: the indexer has been there. *)
Definition expd (b : bool) (d : nat) (h k : bytes) (x : option bytes) : option bytes :=
  if b then match x with Some v => sget (gen d k v) h | None => None end else None.

Lemma sget_gen d k v h hv : In (h, hv) (gen d k v) -> sget (gen d k v) h = Some hv.
Proof. apply in_sget, (cb_nodup _ gok). Qed.
Lemma in_gen_keys d k v h : In h (map fst (gen d k v)) -> exists hv, In (h, hv) (gen d k v).
Proof. intros H. apply in_map_iff in H. destruct H as [[a b] [E I]]. cbn in E. subst. eauto. Qed.
Lemma gen_keys_own d k v h : In h (map fst (gen d k v)) -> Own d h k.
Proof. intros H. destruct (in_gen_keys _ _ _ _ H) as [hv I]. exists v, hv. exact I. Qed.

Lemma sget_no d k v h k1 : Own d h k1 -> k1 <> k -> sget (gen d k v) h = None.
Proof. intros O N. apply sget_none. intros H. apply N. eapply own_unique; [exact O|eapply gen_keys_own; eauto]. Qed.

Lemma op_final b l o arr d h k1 :
  call_ok l o -> In None arr -> In (Some d) arr -> In k1 (keys_of o) -> Own d h k1 ->
  hval (flat b (acts_of gen o arr)) d h (expd (b k1) d h k1 (sget l k1)) =
  expd (b k1) d h k1 (sval (flat b (acts_of gen o arr)) k1 (sget l k1)).
Proof.
  intros CO AN AD KI OW.
  assert (HW := fun v => hot_writes_in b o arr d h v). assert (SW := fun v => src_writes_in b o arr k1 v AN).
  assert (CONST : forall y, (forall v, hot_writes b o d h v -> v = y) -> (exists v, hot_writes b o d h v) -> forall x, hval (flat b (acts_of gen o arr)) d h x = y).
  { intros y A [v B] x. apply hval_const; [intros v' I; apply A; apply HW in I; tauto|]. exists v. apply HW. auto. }
  assert (NONE : (forall v, ~ hot_writes b o d h v) -> forall x, hval (flat b (acts_of gen o arr)) d h x = x).
  { intros A x. apply hval_none. intros v I. apply HW in I. apply (A v). tauto. }
  assert (SC : forall y, (forall v, src_writes o k1 v -> v = y) -> (exists v, src_writes o k1 v) -> forall x, sval (flat b (acts_of gen o arr)) k1 x = y).
  { intros y A [v B] x. apply sval_const; [intros v' I; apply A; apply SW in I; tauto|]. exists v. apply SW. auto. }
  assert (SN : (forall v, ~ src_writes o k1 v) -> forall x, sval (flat b (acts_of gen o arr)) k1 x = x).
  { intros A x. apply sval_none. intros v I. apply SW in I. apply (A v). tauto. }
  clear HW SW.
  destruct o as [k x|k x|k x k' x']; cbn [call_ok keys_of hot_writes src_writes] in *.
  - destruct KI as [<-|[]]. rewrite (SC (Some x)); [|intros v [_ ->]; reflexivity|eauto]. rewrite CO. unfold expd. destruct (b k) eqn:B.
    + destruct (sget (gen d k x) h) as [hv|] eqn:E.
      * apply sget_in in E. apply CONST; [|eauto]. intros v [_ [hv' [-> I]]]. apply sget_gen in E. apply sget_gen in I. congruence.
      * apply NONE. intros v [_ [hv [-> I]]]. apply sget_gen in I. congruence.
    + apply NONE. intros v [E _]. discriminate.
  - destruct KI as [<-|[]]. rewrite (SC None); [|intros v [_ ->]; reflexivity|eauto]. rewrite CO. unfold expd. destruct (b k) eqn:B.
    + destruct (sget (gen d k x) h) as [hv|] eqn:E.
      * apply CONST; [intros v [_ [-> _]]; reflexivity|]. exists None. split; [auto|]. split; [auto|]. apply sget_in in E. apply in_map_iff. exists (h, hv). auto.
      * apply NONE. intros v [_ [-> I]]. apply sget_none in E. tauto.
    + apply NONE. intros v [E _]. discriminate.
  - destruct CO as [C1 [C2 C3]].
    destruct (list_eq_dec N.eq_dec k k') as [EK|NK].
    + subst k'. assert (k1 = k) by (destruct KI as [->|[->|[]]]; reflexivity). subst k1. rewrite C1.
      assert (SV : expd (b k) d h k (sval (flat b (acts_of gen (OUpd k x k x') arr)) k (Some x)) = expd (b k) d h k (Some x')).
      { f_equal. destruct x' as [|n x'].
        - assert (x = []) by (apply C3; reflexivity). subst x. apply SN. intros v [[_ [_ A]]|[_ [_ A]]]; apply A; auto.
        - apply SC; [intros v [[_ [_ A]]|[_ [-> _]]]; [exfalso; apply A; reflexivity|reflexivity]|].
          exists (Some (n :: x')). right. split; [reflexivity|]. split; [reflexivity|]. intros [_ A]. discriminate. }
      rewrite SV. clear SV SC SN. unfold expd. destruct (b k) eqn:B.
      * destruct (sget (gen d k x') h) as [hv|] eqn:E.
        { apply sget_in in E. destruct (sget (gen d k x) h) as [hv0|] eqn:E0.
          - destruct hv as [|n hv].
            + assert (I0 := sget_in _ _ _ E0). assert (hv0 = []) by (eapply (cb_empty _ gok); eauto). subst hv0.
              apply NONE. intros v [[_ [_ [_ A]]]|[_ [hv [-> [A1 A2]]]]].
              * apply A. apply in_map_iff. exists (h, []). auto.
              * apply sget_gen in A1. apply sget_gen in E. apply A2. split; [apply in_map_iff; exists (h, []); auto|congruence].
            + apply CONST.
              * intros v [[_ [_ [_ A]]]|[_ [hv' [-> [A1 A2]]]]].
                { exfalso. apply A. apply in_map_iff. exists (h, n :: hv). auto. }
                { apply sget_gen in A1. apply sget_gen in E. congruence. }
              * exists (Some (n :: hv)). right. split; [reflexivity|]. exists (n :: hv). split; [reflexivity|]. split; [exact E|]. intros [_ A]. discriminate.
          - apply sget_none in E0. apply CONST.
            * intros v [[_ [_ [A _]]]|[_ [hv' [-> [A1 A2]]]]]; [tauto|]. apply sget_gen in A1. apply sget_gen in E. congruence.
            * exists (Some hv). right. split; [reflexivity|]. exists hv. split; [reflexivity|]. split; [exact E|]. tauto. }
        { apply sget_none in E. destruct (sget (gen d k x) h) as [hv0|] eqn:E0.
          - apply sget_in in E0. apply CONST.
            * intros v [[_ [-> _]]|[_ [hv' [-> [A1 A2]]]]]; [reflexivity|]. exfalso. apply E. apply in_map_iff. exists (h, hv'). auto.
            * exists None. left. repeat split; auto. apply in_map_iff. exists (h, hv0). auto.
          - apply sget_none in E0. apply NONE. intros v [[_ [_ [A _]]]|[_ [hv' [-> [A1 A2]]]]]; [tauto|].
            apply E. apply in_map_iff. exists (h, hv'). auto. }
      * apply NONE. intros v [[E _]|[E _]]; discriminate.
    + destruct C2 as [C2|C2]; [contradiction|]. destruct KI as [<-|[<-|[]]].
      * (* the old key *)
        rewrite (SC None); [|intros v [[_ [-> _]]|[A _]]; [reflexivity|contradiction]|exists None; left; auto].
        rewrite C1. unfold expd. assert (NO : ~ In h (map fst (gen d k' x'))).
        { intros A. apply NK. eapply own_unique; [exact OW|eapply gen_keys_own; eauto]. }
        destruct (b k) eqn:B.
        { destruct (sget (gen d k x) h) as [hv|] eqn:E.
          - apply sget_in in E. apply CONST.
            + intros v [[_ [-> _]]|[_ [hv' [-> [A1 A2]]]]]; [reflexivity|]. exfalso. apply NO. apply in_map_iff. exists (h, hv'). auto.
            + exists None. left. repeat split; auto. apply in_map_iff. exists (h, hv). auto.
          - apply sget_none in E. apply NONE. intros v [[_ [_ [A _]]]|[_ [hv' [-> [A1 A2]]]]]; [tauto|]. apply NO. apply in_map_iff. exists (h, hv'). auto. }
        { apply NONE. intros v [[A _]|[_ [hv' [-> [A1 A2]]]]]; [discriminate|]. apply NO. apply in_map_iff. exists (h, hv'). auto. }
      * (* the new key *)
        rewrite (SC (Some x')); [|intros v [[A _]|[_ [-> _]]]; [subst; contradiction|reflexivity]|exists (Some x'); right; split; [auto|]; split; [auto|]; intros [A _]; contradiction].
        rewrite C2. unfold expd. assert (NO : ~ In h (map fst (gen d k x))).
        { intros A. apply NK. eapply own_unique; [eapply gen_keys_own; eauto|exact OW]. }
        destruct (b k') eqn:B.
        { destruct (sget (gen d k' x') h) as [hv|] eqn:E.
          - apply sget_in in E. apply CONST.
            + intros v [[_ [_ [A _]]]|[_ [hv' [-> [A1 A2]]]]]; [tauto|]. apply sget_gen in A1. apply sget_gen in E. congruence.
            + exists (Some hv). right. split; [reflexivity|]. exists hv. tauto.
          - apply sget_none in E. apply NONE. intros v [[_ [_ [A _]]]|[_ [hv' [-> [A1 A2]]]]]; [tauto|]. apply E. apply in_map_iff. exists (h, hv'). auto. }
        { apply NONE. intros v [[_ [_ [A _]]]|[A _]]; [tauto|discriminate]. }
Qed.
End B.
